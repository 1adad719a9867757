(** C84: a newer version of a program reads every RON text that the old one read. *)
From Verif Require Import Base Utf8 Types BinModel Text TextModel TextSim TextToks TextLex TextRead SpecText SpecGram TextRun TextMain TextFuel SpecTok TokLex SpecDoc SpecAcc SpecRon SpecRonAcc AccBase AccDoc PropsBin TextEx PropsObj PropsRonAcc SpecNewer Newer RonNewer PropsNewer.
Local Open Scope N_scope.

Theorem C84_newer F c so fresh G G' t t' text v :
  Forall distinct_ron G -> Forall distinct_ron G' ->
  env_newer so Ron G fresh G' -> ty_newer so Ron G t t' -> plain_text F so Ron fresh text ->
  parses F c G Ron t text (Ok v) ->
  exists v', parses F c G' Ron t' text (Ok v') /\ becomes F Ron fresh G G' t t' v v'.
Proof.
  intros HG HG' HN Ht Hp H. apply (C67_accepted F c G t text v HG) in H. destruct H as (xs & r & nx & n & H1 & H2 & H3).
  destruct (RonNewer.carries_all F c so fresh G G' HN n t t' nx xs v Ht (Hp _ _ H1) H3) as (v' & [N E] & Hb).
  exists v'. split; [|exact Hb]. apply (C67_accepted F c G' t' text v' HG'). exists xs, r, nx, N. split; [exact H1|]. split; [exact H2|]. apply E. lia.
Qed.
Theorem C84_only F c so fresh G G' t t' text v w :
  Forall distinct_ron G -> Forall distinct_ron G' ->
  env_newer so Ron G fresh G' -> ty_newer so Ron G t t' -> plain_text F so Ron fresh text ->
  parses F c G Ron t text (Ok v) -> parses F c G' Ron t' text w ->
  exists v', w = Ok v' /\ becomes F Ron fresh G G' t t' v v'.
Proof.
  intros HG HG' HN Ht Hp H Hw. destruct (C84_newer F c so fresh G G' t t' text v HG HG' HN Ht Hp H) as (v' & P & Hb).
  exists v'. split; [exact (returns_inj _ _ _ Hw P) | exact Hb].
Qed.
(** When signed integers stay as they are, there is no condition on the text. *)
Theorem C84_any_text F c G G' t t' text v :
  Forall distinct_ron G -> Forall distinct_ron G' ->
  env_newer false Ron G (fun _ => False) G' -> ty_newer false Ron G t t' -> parses F c G Ron t text (Ok v) ->
  exists v', parses F c G' Ron t' text (Ok v') /\ becomes F Ron (fun _ => False) G G' t t' v v'.
Proof.
  intros HG HG' HN Ht. apply (C84_newer F c false (fun _ => False) G G' t t' text v HG HG' HN Ht).
  intros xs r _. split; discriminate.
Qed.

(** *** Cases *)
(** The old version: a struct with [x : u8] and [o : Vec<u8>]; an enum.  The new one has a field
    [y] with default 7 in front, [x] is an [Option<u32>], [o] a [LinkedList<f64>]; the enum has one more variant. *)
Definition old_ron : env :=
  [DStruct false false [fld (chars "x") false (VZ 0) (TInt U8); fld (chars "o") false (VSeq []) (TSeq SVec (TInt U8))];
   DEnum [unit_v (chars "A"); tup_v (chars "B") [TInt U8; TNamed 0]]].
Definition new_ron : env :=
  [DStruct false false [y_field; fld (chars "x") false VNone (TOpt (TInt U32)); fld (chars "o") false (VSeq []) (TSeq SList TF64)];
   DEnum [unit_v (chars "C"); unit_v (chars "A"); tup_v (chars "B") [TInt I64; TNamed 0]]].
Lemma C84_ex_newer : Forall distinct_ron old_ron /\ Forall distinct_ron new_ron /\ env_newer false Ron old_ron (fun _ => False) new_ron.
Proof.
  split; [|split].
  - repeat constructor; cbn; intuition discriminate.
  - repeat constructor; cbn; intuition discriminate.
  - intros [|[|i]] d E; [| |destruct i; discriminate]; injection E as <-.
    + eexists. split; [reflexivity|]. split.
      * intros f [<-|[<-|[]]] _; [exists (fld (chars "x") false VNone (TOpt (TInt U32))) | exists (fld (chars "o") false (VSeq []) (TSeq SList TF64))]; cbn; auto.
      * constructor; [|constructor; [|constructor; [|constructor]]]; intros _.
        -- right. split; [|discriminate]. intros f [<-|[<-|[]]] _; discriminate.
        -- left. exists (fld (chars "x") false (VZ 0) (TInt U8)). split; [left; reflexivity|]. repeat (split; [reflexivity|]). split; [|intro H; exfalso; apply H; reflexivity].
           apply tn_some; [reflexivity|]. apply tn_int. right. repeat (split; [discriminate|]). cbn. lia.
        -- left. exists (fld (chars "o") false (VSeq []) (TSeq SVec (TInt U8))). split; [right; left; reflexivity|]. repeat (split; [reflexivity|]). split; [|intro H; exfalso; apply H; reflexivity].
           apply tn_seq; [left; reflexivity | right; reflexivity|]. apply tn_num; discriminate.
    + eexists. split; [reflexivity|]. constructor; [|constructor; [|constructor]].
      * exists (unit_v (chars "A")). split; [right; left; reflexivity|]. split; [reflexivity | exact I].
      * exists (tup_v (chars "B") [TInt I64; TNamed 0]). split; [right; right; left; reflexivity|]. split; [reflexivity|]. constructor; [|constructor; [apply tn_named | constructor]].
        apply tn_int. right. repeat (split; [discriminate|]). cbn. lia.
Qed.
Example C84_ex : let text := chars "B(300, (o:[1,2,],x:5))" in let text2 := chars "B(30, (o:[1,2,],x:5))" in
  (exists e, parses toy c64 old_ron Ron (TNamed 1) text (Err e)) /\
  parses toy c64 old_ron Ron (TNamed 1) text2 (Ok (VEnum 1 [VZ 30; VSeq [VZ 5; VSeq [VZ 1; VZ 2]]])) /\
  exists v, parses toy c64 new_ron Ron (TNamed 1) text2 (Ok v) /\ v = VEnum 2 [VZ 30; VSeq [VZ 7; VSome (VZ 5); VSeq [VF 1; VF 2]]].
Proof.
  split; [eexists|split; [|eexists; split; [|reflexivity]]]; (apply (de_text_returns _ _ _ _ 14%nat); [vm_compute; reflexivity | discriminate]).
Qed.
(** A field must not be removed: a text that has it is rejected. *)
Example C84_ex_removed : parses toy c64 old_ron Ron (TNamed 0) (chars "(x:5,o:[])") (Ok (VSeq [VZ 5; VSeq []])) /\
  exists e, parses toy c64 [DStruct false false [fld (chars "x") false (VZ 0) (TInt U8)]] Ron (TNamed 0) (chars "(x:5,o:[])") (Err e).
Proof. split; [|eexists]; (apply (de_text_returns _ _ _ _ 14%nat); [vm_compute; reflexivity | discriminate]). Qed.
(** Why an enum with variants without contents is not made optional: the library compares the
    name with the word that follows, so that [None] may stand for any of them. *)
Example C84_ex_none : parses toy c64 [DEnum [unit_v (chars "A")]] Ron (TNamed 0) (chars "None A") (Ok (VEnum 0 [])) /\
  parses toy c64 [DEnum [unit_v (chars "A")]] Ron (TOpt (TNamed 0)) (chars "None A") (Ok VNone).
Proof. split; (apply (de_text_returns _ _ _ _ 12%nat); [vm_compute; reflexivity | discriminate]). Qed.
