(** C80: reading JSON and RON is linear work in the length of the text.

    The work is counted where the readers touch the text: every call of the tokenizer
    ([next_tok], serde_json.rs:440-606, serde_ron.rs:430-595) counts one, and every
    character it moves over ([next_char]) counts one more.  The counter is a second
    component of the reader's state that no reader looks at: [counted_same] says that
    the reader with the counter is the reader without. *)
From Verif Require Import Base Utf8 Types BinModel Text TextModel TextSim TextToks TextPos TextLex TextRead TextFuel TextLocal
  SpecText SpecGram SpecTerm TextRun TextTerm PropsBin PropsTerm Work SpecTok TokLex SpecDoc Doc SpecAcc PropsAcc SpecCrash PropsCrash TextEx PropsText.
Local Open Scope N_scope.

(** The reader with the counter, started at nought. *)
Definition counted (F : flt) (c : cfg) (G : env) (fm : fmt) (n : nat) (t : ty) (text : str) : (dst * nat) * res terr val :=
  de_first (counting F fm) F c G fm n t (start fm text, 0%nat).
(** [T::deserialize_json(text)] / [T::deserialize_ron(text)] ends with outcome [r]
    after [w] steps. *)
Definition takes_steps (F : flt) (c : cfg) (G : env) (fm : fmt) (t : ty) (text : str) (r : res terr val) (w : nat) : Prop :=
  exists n, forall m, (n <= m)%nat -> deserialize_text F c G fm m t text = r /\ snd (fst (counted F c G fm m t text)) = w.

Lemma counting_next_ok F fm : next_ok (counting F fm).
Proof.
  intro s. pose proof (text_next_ok F fm (fst s)) as H. cbn in *. destruct (lex_next F fm (fst s)) as [s' [u|e|p|]]; cbn in *; auto.
Qed.
(** The counter changes nothing: the outcome is that of the reader that does not count. *)
Theorem counted_same F c G fm n t text : snd (counted F c G fm n t text) = deserialize_text F c G fm n t text.
Proof.
  set (R := fun (u : dst * nat) (s : dst) => fst u = s).
  assert (H : rel R lexbad (fun _ => False) (fun _ => False) (fun _ e1 e2 => e1 = e2)
                (de_first (counting F fm) F c G fm n t (start fm text, 0%nat))
                (de_first (text_lexer F fm) F c G fm n t (start fm text))).
  { assert (PN : prel R lexbad (fun _ => False) (fun _ => False) (fun _ e1 e2 => e1 = e2) (l_next (counting F fm)) (l_next (text_lexer F fm))).
    { split; [intros s1 []|]. intros [s1 k] s2 <-. right. cbn. destruct (lex_next F fm s1) as [s' [u|e|p|]]; cbn; auto. split; reflexivity. left. split; reflexivity. }
    apply (prel_at R lexbad (fun _ => False) (fun _ => False) (fun _ e1 e2 => e1 = e2)); [|reflexivity].
    unfold de_first. apply (prel_bind R); [exact PN|]. intros _.
    apply (prel_de (counting F fm) (text_lexer F fm) R F c G fm lexbad (fun _ => False) (fun _ => False) (fun _ e1 e2 => e1 = e2) (fun _ => True)); auto using text_next_ok, counting_next_ok.
    - intros a b <-. reflexivity.
    - intros a b <-. reflexivity.
    - intros a b <-. reflexivity.
    - intros a b <-. reflexivity.
    - intros a b K. apply PN. exact K.
    - intros a [].
    - intros k w s [].
    - intros a b m <-. reflexivity.
    - intros x _. destruct x; cbn; auto. apply Forall_forall. auto.
    - intros i d _. destruct d; cbn; auto; apply Forall_forall; auto. intros v _. destruct (v_body v); cbn; auto; apply Forall_forall; auto. }
  unfold counted, deserialize_text.
  destruct (de_first (counting F fm) F c G fm n t (start fm text, 0%nat)) as [s1 r1].
  destruct (de_first (text_lexer F fm) F c G fm n t (start fm text)) as [s2 r2].
  destruct H as [[]|H]. cbn [snd]. destruct r1, r2; cbn in H; try contradiction; try tauto.
  - destruct H as [-> _]. reflexivity.
  - destruct H as [[-> _]|[_ []]]. reflexivity.
  - subst. reflexivity.
Qed.
(** The number of steps is that of the run, not of the fuel the model is given. *)
Lemma counted_fuel F c G fm n m t text : (n <= m)%nat -> deserialize_text F c G fm n t text <> NoFuel ->
  counted F c G fm m t text = counted F c G fm n t text.
Proof. intros Hm H. unfold counted. apply first_mono; [exact Hm|]. pose proof (counted_same F c G fm n t text) as E. unfold counted in E. rewrite E. exact H. Qed.

Lemma counted_bound F c G fm n t text : match counted F c G fm n t text with
  | ((s', k'), Ok _) => (k' <= 2 * length text + 1)%nat
  | (_, NoFuel) => True
  | ((s', k'), _) => (k' <= 4 * length text + 3)%nat
  end.
Proof.
  assert (H : tr (fun s => s_tok s <> KEof) 1 0 (de_first (counting F fm) F c G fm n t) any).
  { unfold de_first. apply (tr_bind _ 1 0 1 0 0 0 (l_next (counting F fm)) (fun _ => de_text (counting F fm) F c G fm n t) any any (tr_next F fm)); try lia.
    intro. apply tr_all, wk_de_text. }
  specialize (H (start fm text) 0%nat). unfold counted.
  assert (Ht : s_tok (start fm text) <> KEof) by (cbn; destruct fm; discriminate).
  specialize (H ltac:(intro K; contradiction) Ht).
  assert (El : len (start fm text) = length text) by reflexivity.
  assert (Ep : phi (start fm text) = (2 * length text + 1)%nat) by (unfold phi; rewrite El; destruct fm; reflexivity).
  rewrite Ep in H. destruct (de_first (counting F fm) F c G fm n t (start fm text, 0%nat)) as [[s' k'] [v|e|p|]]; try exact I.
  - destruct H as (_ & _ & _ & H). lia.
  - lia.
  - lia.
Qed.

(** ** C80: the bound *)
(** Every reading that ends - with a value, an error or a panic - takes at most
    [4 * length + 3] steps, and one that succeeds at most [2 * length + 1]: for every
    program of types, every type and every text. *)
Theorem C80_linear F c G fm t text r : parses F c G fm t text r -> r <> NoFuel ->
  exists w, takes_steps F c G fm t text r w /\ (w <= 4 * length text + 3)%nat /\
    (forall v, r = Ok v -> (w <= 2 * length text + 1)%nat).
Proof.
  intros [n Hn] Hr. exists (snd (fst (counted F c G fm n t text))). split; [|].
  - exists n. intros m Hm. split; [apply Hn, Hm|]. rewrite (counted_fuel F c G fm n m t text Hm); [reflexivity|]. rewrite (Hn n ltac:(lia)). exact Hr.
  - pose proof (counted_bound F c G fm n t text) as B. pose proof (counted_same F c G fm n t text) as E. rewrite (Hn n ltac:(lia)) in E.
    destruct (counted F c G fm n t text) as [[s' k'] o]. cbn [fst snd] in *. subst o. destruct r as [v|e|p|]; try contradiction; split; intros; try discriminate; lia.
Qed.
(** RON: every text, with no hypothesis about the run. *)
Theorem C80_ron F c G t text : text_env Ron G -> text_guarded Ron G -> text_ty Ron G t ->
  exists r w, takes_steps F c G Ron t text r w /\ (w <= 4 * length text + 3)%nat.
Proof.
  intros HG Hg Ht. destruct (C37_ron_terminates F c G t text HG Hg Ht) as (r & Hp & He).
  destruct (C80_linear F c G Ron t text r Hp) as (w & H1 & H2 & _); [intros ->; exact He|]. eauto.
Qed.
(** JSON: every text either takes that long, or has an unknown member that opens a
    bracket and never closes it (where [deserialize_json] does not end, C27, C76). *)
Theorem C80_json F c G t text : Forall distinct_names G -> text_env Json G -> text_guarded Json G -> text_ty Json G t ->
  (exists r w, takes_steps F c G Json t text r w /\ (w <= 4 * length text + 3)%nat) \/ breaks_down F c G t text Unclosed.
Proof.
  intros HG HE Hgd Ht. destruct (C76_outcome F c G t HG HE Hgd Ht text) as [[v Q]|[[e P]|[[p P]|H]]].
  - left. apply (C66_accepted F c G t text v HG) in Q. destruct (C80_linear F c G Json t text _ Q ltac:(discriminate)) as (w & H1 & H2 & _). eauto.
  - left. destruct (C80_linear F c G Json t text _ P ltac:(discriminate)) as (w & H1 & H2 & _). eauto.
  - left. destruct (C80_linear F c G Json t text _ P ltac:(discriminate)) as (w & H1 & H2 & _). eauto.
  - right. apply (C76_hangs F c G t HG HE Hgd Ht text). exact H.
Qed.
(** What is counted is one number. *)
Theorem C80_steps_one F c G fm t text r w r' w' : takes_steps F c G fm t text r w -> takes_steps F c G fm t text r' w' -> r = r' /\ w = w'.
Proof.
  intros [n Hn] [m Hm]. destruct (Hn (Nat.max n m) ltac:(lia)) as [<- <-]. destruct (Hm (Nat.max n m) ltac:(lia)) as [<- <-]. auto.
Qed.

(** *** Cases *)
Lemma steps_of F c G fm n t text r w : counted F c G fm n t text = (fst (counted F c G fm n t text), r) -> r <> NoFuel ->
  snd (fst (counted F c G fm n t text)) = w -> takes_steps F c G fm t text r w.
Proof.
  intros E Hr Ew. exists n. intros m Hm. assert (D : deserialize_text F c G fm n t text = r) by (rewrite <- (counted_same F c G fm n t text), E; reflexivity).
  assert (Hn : deserialize_text F c G fm n t text <> NoFuel) by (rewrite D; exact Hr).
  pose proof (counted_fuel F c G fm n m t text Hm Hn) as Q. rewrite Q. split; [|exact Ew].
  rewrite <- (counted_same F c G fm m t text), Q, (counted_same F c G fm n t text). exact D.
Qed.
(** [[1,2]]: six calls and five characters, which is [2 * 5 + 1]: the bound of a
    successful read is met. *)
Example C80_ex : takes_steps toy c64 [] Json (TSeq SVec (TInt U8)) (chars "[1,2]") (Ok (VSeq [VZ 1; VZ 2])) 11.
Proof. apply (steps_of _ _ _ _ 14%nat); [vm_compute; reflexivity | discriminate | vm_compute; reflexivity]. Qed.
(** An unknown member with nested brackets is passed over once. *)
Example C80_ex_unknown : takes_steps toy c64 GK Json (TNamed 0) (chars "{""b"":[[[[1,2],{}]]],""a"":true}") (Ok (VSeq [VBool true])) 52.
Proof. apply (steps_of _ _ _ _ 24%nat); [vm_compute; reflexivity | discriminate | vm_compute; reflexivity]. Qed.
(** What follows the error is not read. *)
Example C80_ex_error : exists e, takes_steps toy c64 [] Json (TSeq SVec (TInt U8)) (chars "[1,300,4,5,6,7,8,9]") (Err e) 10.
Proof. eexists. apply (steps_of _ _ _ _ 14%nat); [vm_compute; reflexivity | discriminate | vm_compute; reflexivity]. Qed.
Example C80_ex_json : (exists r w, takes_steps toy c64 GK Json TK0 (ftext ++ chars "[{}]}]") r w /\ (w <= 4 * length (ftext ++ chars "[{}]}]") + 3)%nat) \/ breaks_down toy c64 GK TK0 (ftext ++ chars "[{}]}]") Unclosed.
Proof. destruct GK_env. apply C80_json; [exact GK_names | assumption | assumption | exact TK0_ok]. Qed.
