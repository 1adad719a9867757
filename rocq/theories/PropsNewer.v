(** C83: a newer version of a program reads every JSON text that the old one read. *)
From Verif Require Import Base Utf8 Types BinModel Text TextModel TextSim TextToks TextLex TextRead SpecText SpecGram TextRun TextMain TextFuel SpecTok TokLex SpecDoc SpecAcc AccBase AccDoc AccDe PropsBin TextEx PropsObj PropsDoc PropsAcc SpecNewer Newer.
Local Open Scope N_scope.

Theorem C83_newer F c so fresh G G' t t' text v :
  Forall distinct_names G -> Forall distinct_names G' ->
  env_newer so Json G fresh G' -> ty_newer so Json G t t' -> plain_text F so Json fresh text ->
  parses F c G Json t text (Ok v) ->
  exists v', parses F c G' Json t' text (Ok v') /\ becomes F Json fresh G G' t t' v v'.
Proof.
  intros HG HG' HN Ht Hp H. apply (C66_accepted F c G t text v HG) in H. destruct H as (xs & r & nx & n & H1 & H2 & H3).
  destruct (carries_all F c so fresh G G' HN n t t' nx xs v Ht (Hp _ _ H1) H3) as (v' & [N E] & Hb).
  exists v'. split; [|exact Hb]. apply (C66_accepted F c G' t' text v' HG'). exists xs, r, nx, N. split; [exact H1|]. split; [exact H2|]. apply E. lia.
Qed.
(** Nothing else can come of it. *)
Theorem C83_only F c so fresh G G' t t' text v w :
  Forall distinct_names G -> Forall distinct_names G' ->
  env_newer so Json G fresh G' -> ty_newer so Json G t t' -> plain_text F so Json fresh text ->
  parses F c G Json t text (Ok v) -> parses F c G' Json t' text w ->
  exists v', w = Ok v' /\ becomes F Json fresh G G' t t' v v'.
Proof.
  intros HG HG' HN Ht Hp H Hw. destruct (C83_newer F c so fresh G G' t t' text v HG HG' HN Ht Hp H) as (v' & P & Hb).
  exists v'. split; [exact (returns_inj _ _ _ Hw P) | exact Hb].
Qed.
(** Wider unsigned integers: the same number, on every text. *)
Theorem C83_unsigned F c G k k' text z : Forall distinct_names G -> ik_signed k = false -> k <> Usize -> k' <> Usize -> k' <> U128 -> k' <> I128 -> (ik_bytes k < ik_bytes k')%nat ->
  parses F c G Json (TInt k) text (Ok (VZ z)) -> parses F c G Json (TInt k') text (Ok (VZ z)).
Proof.
  intros HG Hk N1 N2 N3 N4 Hb H. apply (C66_integer F c G k text _ HG) in H. destruct H as (s & z' & r & nx & H1 & H2 & H3 & E). injection E as <-.
  apply (C66_integer F c G k' text _ HG). exists s, z, r, nx. split; [exact H1|]. split; [exact H2|]. split; [|reflexivity].
  apply (int_wider_lit c false Json (fun _ => False) k k' s z [XN s]); [right; rewrite Hk; auto | split; [intros _ b k0 [E|[]]; discriminate | discriminate] | left; reflexivity | exact H3].
Qed.

(** *** Cases *)
(** The strings of a text can be computed, and short texts have small numbers. *)
Lemma decimal_small d : forall a, Forall (fun c => 48 <= c <= 57) d -> decimal_from a d < (a + 1) * 10 ^ N.of_nat (length d).
Proof.
  induction d as [|x d IH]; intros a H; cbn [decimal_from length]; [change (N.of_nat 0) with 0; rewrite N.pow_0_r; lia|].
  inversion H as [|? ? Hx Hd]; subst. specialize (IH (10 * a + (x - 48)) Hd). rewrite Nat2N.inj_succ, N.pow_succ_r'.
  set (p := 10 ^ N.of_nat (length d)) in *. nia.
Qed.
Lemma tokens_short F xs text r : tokens Json F xs text r -> forall s, In (XN s) xs -> (length s <= length text)%nat.
Proof.
  induction 1 as [|g x xs text r Hg Hx H IH]; intros s Hin; [contradiction|]. rewrite !app_length. destruct Hin as [->|Hin]; [cbn [spelled]; lia | specialize (IH s Hin); lia].
Qed.
Lemma plain_short F so (fresh : str -> Prop) text : (length text <= 18)%nat -> (forall k, In (LStr k) (fst (lexs F Json text)) -> ~ fresh k) -> plain_text F so Json fresh text.
Proof.
  intros Hl Hk xs r H. split.
  - intros _ b k Hin. apply Hk. rewrite (tokens_lexs F Json _ _ _ H). unfold cat. cbn [fst]. apply in_or_app. left. apply in_map_iff. exists (XS b k). auto.
  - intros _ s sg d Hin (E & _ & Hd). pose proof (tokens_short _ _ _ _ H s Hin) as L.
    assert (Ld : (length d <= 18)%nat).
    { assert (length (unplus s) <= length s)%nat by (unfold unplus; destruct s as [|x s]; [cbn; lia | destruct (x =? 43); cbn [length]; lia]). rewrite E, app_length in *. lia. }
    pose proof (decimal_small d 0 (proj2 Hd)) as B. fold (decimal d) in B.
    assert (P : 10 ^ N.of_nat (length d) <= 10 ^ 18) by (apply N.pow_le_mono_r; lia). change (10 ^ 18) with 1000000000000000000 in P.
    unfold signed_value. destruct sg; lia.
Qed.

(** The old version: a struct with [x : u8] and [o : Vec<u8>]; an enum.  The new one: [o] is gone,
    [y] is new with default 7, [x] is an [Option<i32>]; the enum has one more variant, in front. *)
Definition unit_v (s : str) : variant := {| v_name := s; v_rename := None; v_body := BUnit |}.
Definition tup_v (s : str) (ts : list ty) : variant := {| v_name := s; v_rename := None; v_body := BTuple ts |}.
Definition old_env : env :=
  [DStruct false false [fld (chars "x") false (VZ 0) (TInt U8); fld (chars "o") false (VSeq []) (TSeq SVec (TInt U8))];
   DEnum [unit_v (chars "A"); tup_v (chars "B") [TInt I8; TNamed 0]]].
Definition y_field : field :=
  {| f_name := chars "y"; f_rename := None; f_skip := false; f_isopt := false; f_default := Some (VZ 7);
     f_tydefault := VZ 0; f_null := false; f_hasproxy := false; f_ty := TInt U8 |}.
Definition new_env : env :=
  [DStruct false false [y_field; fld (chars "x") false VNone (TOpt (TInt I32))];
   DEnum [unit_v (chars "C"); unit_v (chars "A"); tup_v (chars "B") [TInt I64; TNamed 0]];
   DTuple true []].
Definition is_y (k : str) : Prop := k = chars "y".
Lemma new_fields : fields_newer true Json old_env is_y false false
  [fld (chars "x") false (VZ 0) (TInt U8); fld (chars "o") false (VSeq []) (TSeq SVec (TInt U8))] [y_field; fld (chars "x") false VNone (TOpt (TInt I32))].
Proof.
  split; [discriminate|]. constructor; [|constructor; [|constructor]]; intros _.
  - right. split; [reflexivity | discriminate].
  - left. exists (fld (chars "x") false (VZ 0) (TInt U8)). split; [left; reflexivity|]. repeat (split; [reflexivity|]). split; [|intro H; exfalso; apply H; reflexivity].
    apply tn_some; [reflexivity|]. apply tn_int. right. repeat (split; [discriminate|]). cbn. lia.
Qed.
Lemma C83_ex_newer : Forall distinct_names old_env /\ Forall distinct_names new_env /\ env_newer true Json old_env is_y new_env.
Proof.
  assert (D : forall a b : str, a <> b -> NoDup [a; b]) by (intros a b H; constructor; [intros [E|[]]; congruence | constructor; [intros [] | constructor]]).
  split; [|split].
  - repeat constructor; cbn; try (intros [E|[]]; discriminate); auto.
  - repeat constructor; cbn; intuition discriminate.
  - intros [|[|i]] d E; [| |destruct i; discriminate]; injection E as <-.
    + eexists. split; [reflexivity|]. exact new_fields.
    + eexists. split; [reflexivity|]. constructor; [|constructor; [|constructor]].
      * exists (unit_v (chars "A")). split; [right; left; reflexivity|]. split; [reflexivity | exact I].
      * exists (tup_v (chars "B") [TInt I64; TNamed 0]). split; [right; right; left; reflexivity|]. split; [reflexivity|]. constructor; [|constructor; [apply tn_named | constructor]].
        apply tn_int. right. repeat (split; [discriminate|]). cbn. repeat split. lia.
Qed.
(** A text with a member that the new version does not know and one that is missing. *)
Definition old_text : str := 123 :: 34 :: chars "x" ++ [34; 58] ++ chars "5," ++ 34 :: chars "o" ++ [34; 58] ++ chars "[1]}".
Example C83_ex : plain_text toy true Json is_y old_text /\
  parses toy c64 old_env Json (TNamed 0) old_text (Ok (VSeq [VZ 5; VSeq [VZ 1]])) /\
  parses toy c64 new_env Json (TNamed 0) old_text (Ok (VSeq [VZ 7; VSome (VZ 5)])) /\
  becomes toy Json is_y old_env new_env (TNamed 0) (TNamed 0) (VSeq [VZ 5; VSeq [VZ 1]]) (VSeq [VZ 7; VSome (VZ 5)]).
Proof.
  assert (Pl : plain_text toy true Json is_y old_text).
  { apply plain_short; [cbn; lia|]. intros k Hin E. unfold is_y in E. subst k. vm_compute in Hin. repeat (destruct Hin as [Hin|Hin]; [discriminate|]). contradiction. }
  assert (P1 : parses toy c64 old_env Json (TNamed 0) old_text (Ok (VSeq [VZ 5; VSeq [VZ 1]]))) by (apply (de_text_returns _ _ _ _ 14%nat); [vm_compute; reflexivity | discriminate]).
  assert (P2 : parses toy c64 new_env Json (TNamed 0) old_text (Ok (VSeq [VZ 7; VSome (VZ 5)]))) by (apply (de_text_returns _ _ _ _ 14%nat); [vm_compute; reflexivity | discriminate]).
  destruct C83_ex_newer as (H1 & H2 & H3).
  destruct (C83_only toy c64 true is_y old_env new_env (TNamed 0) (TNamed 0) old_text _ _ H1 H2 H3 (tn_named _ _ _ 0) Pl P1 P2) as (v' & E & Hb). injection E as <-. auto.
Qed.
(** The conditions are needed.  A text may have a member, unknown to the old version, with
    the name of a new field; a number from 2^63 on is another number for a wider signed
    type; and without the last field a struct has no members at all. *)
Definition clash_text : str := 123 :: 34 :: chars "x" ++ [34; 58] ++ chars "5," ++ 34 :: chars "o" ++ [34; 58] ++ chars "[]," ++ 34 :: chars "y" ++ [34; 58] ++ chars "[]}".
Example C83_ex_fresh : parses toy c64 old_env Json (TNamed 0) clash_text (Ok (VSeq [VZ 5; VSeq []])) /\ exists e, parses toy c64 new_env Json (TNamed 0) clash_text (Err e).
Proof.
  split; [|eexists]; (apply (de_text_returns _ _ _ _ 14%nat); [vm_compute; reflexivity | discriminate]).
Qed.
Example C83_ex_wrap : parses toy c64 [] Json (TInt I8) (chars "9223372036854776008") (Ok (VZ (-56))) /\
  parses toy c64 [] Json (TInt I16) (chars "9223372036854776008") (Ok (VZ 200)).
Proof. split; (apply (de_text_returns _ _ _ _ 12%nat); [vm_compute; reflexivity | discriminate]). Qed.
Example C83_ex_last : exists e, parses toy c64 [DStruct false false []] Json (TNamed 0) (123 :: 34 :: chars "x" ++ [34; 58] ++ chars "5}") (Err e).
Proof. eexists. apply (de_text_returns _ _ _ _ 12%nat); [vm_compute; reflexivity | discriminate]. Qed.
