(** C34: values read from JSON and RON are valid values of their type. *)
From Verif Require Import Base Utf8 Types BinModel Text TextModel TextSim TextToks TextLex TextFuel TextRun SpecText SpecValid TextValid PropsBin TextEx.
Local Open Scope N_scope.

(** Whatever the text, the format, the type and the declarations: a value
    returned is a value of its type.  (The text is a [&str]: scalar values.) *)
Theorem C34_text_valid F c G fm t text v : flt_bits F -> Forall scalar text ->
  parses F c G fm t text (Ok v) -> exists n, text_valid c G n t v.
Proof.
  intros HF Ht [n Hn]. exists n. specialize (Hn n (le_n n)). unfold deserialize_text in Hn.
  destruct (de_first (text_lexer F fm) F c G fm n t (start fm text)) as [s' r] eqn:E. cbn [snd] in Hn. subst r.
  assert (HG : Gives F text (de_first (text_lexer F fm) F c G fm n t) (text_valid c G n t)).
  { unfold de_first. apply (Gives_then F text (l_next (text_lexer F fm))); [apply Gives_next; exact Ht|]. intros _. apply Gives_text; [exact Ht | exact HF]. }
  refine (proj2 (HG _ _ _ _ E)). split; [apply suffix_refl|]. split; [constructor | exact I].
Qed.
Print Assumptions C34_text_valid.

(** A float implementation that meets both assumptions on floats. *)
Definition toyb : flt := {|
  f64_parse := fun s =>
    match take_while is_digit s with [] => None | d => if digits_val d <? 2 ^ 64 then Some (digits_val d) else None end;
  f64_show := toy_show;
  f32_show := toy_show;
  f64_of_z := fun z => Z.to_N z mod 2 ^ 22;
  f32_of_f64 := fun b => b mod 2 ^ 32
|}.
Lemma toyb_bits : flt_bits toyb.
Proof.
  split; cbn [toyb f64_parse f64_of_z f32_of_f64].
  - intros s b H. destruct (take_while is_digit s) as [|x d]; [discriminate|]. destruct (N.ltb_spec (digits_val (x :: d)) (2 ^ 64)); [|discriminate]. injection H as <-. assumption.
  - intro z. pose proof (N.mod_lt (Z.to_N z) (2 ^ 22) ltac:(discriminate)). lia.
  - intro b. apply N.mod_lt. discriminate.
Qed.
Lemma toyb_parse b : b < 2 ^ 64 -> f64_parse toyb (toy_show b) = Some b.
Proof.
  intro Hb. cbn [f64_parse toyb]. unfold toy_show.
  rewrite (take_while_app is_digit (dec b) (chars ".0") (dec_digits b) ltac:(right; reflexivity)).
  destruct (dec b) eqn:E; [apply dec_nonempty in E; contradiction|]. rewrite <- E, dec_val. replace (b <? 2 ^ 64) with true by lia. reflexivity.
Qed.
Lemma toyb_ok : flt_ok toyb.
Proof.
  split; try (intros; apply toy_text).
  - intros b [H _]. apply toyb_parse. exact H.
  - intros b [H _]. exists b. split; [apply toyb_parse; lia|]. cbn [f32_of_f64 toyb]. apply N.mod_small. exact H.
Qed.

(** A set whose elements come unsorted, twice, and in several notations, inside a
    record with missing fields. *)
Definition Gv : env :=
  [ DStruct false false
      [ fld (chars "s") false (VSeq []) (TSeq SBSet (TInt U8));
        fld (chars "k") true (VZ 5) (TInt U8);
        opt_field (chars "o") (TInt U8);
        defaulted (VZ 7) (fld (chars "d") false (VZ 0) (TInt I16));
        fld (chars "x") false (VF 0) TF64 ] ].
Definition tvj : str := [123] ++ [34;115;34] ++ chars ":[9,2, 9,7]," ++ [34;120;34] ++ chars ":1.5}".
Example C34_ex : parses toyb c64 Gv Json (TNamed 0) tvj (Ok (VSeq [VSeq [VZ 2; VZ 7; VZ 9]; VZ 5; VNone; VZ 7; VF 1]))
  /\ flt_bits toyb /\ Forall scalar tvj
  /\ (forall n, ~ text_valid c64 Gv n (TNamed 0) (VSeq [VSeq [VZ 9; VZ 2; VZ 7]; VZ 5; VNone; VZ 7; VF 1]))
  /\ (forall n, ~ text_valid c64 Gv n (TNamed 0) (VSeq [VSeq [VZ 2]; VZ 6; VNone; VZ 7; VF 1]))
  /\ (forall n, ~ text_valid c64 Gv n (TNamed 0) (VSeq [VSeq [VZ 256]; VZ 5; VNone; VZ 7; VF 1])).
Proof.
  split; [apply (de_text_returns _ _ _ _ 12); [vm_compute; reflexivity | discriminate]|].
  split; [exact toyb_bits|]. split; [repeat constructor|].
  assert (K : forall n l, text_valid c64 Gv n (TNamed 0) (VSeq (VSeq l :: [VZ 5; VNone; VZ 7; VF 1])) -> exists m, text_valid c64 Gv m (TSeq SBSet (TInt U8)) (VSeq l)).
  { intros n l H. destruct n as [|n]; [contradiction|]. cbn [text_valid Gv nth_error] in H. inversion H as [|? ? ? ? H1 _]; subst. exists n.
    unfold field_valid in H1. cbn [fld f_skip f_isopt f_hasproxy f_default f_ty andb] in H1. destruct H1 as [[_ [H1|[H1|H1]]]|H1]; try congruence; exact H1. }
  split; [|split].
  - intros n H. apply K in H as [[|m] H]; [contradiction|]. cbn [text_valid seq_inv ascending] in H. destruct H as [_ [H _]]. inversion H as [|? ? H1 _]; subst. discriminate H1.
  - intros n H. destruct n as [|n]; [contradiction|]. cbn [text_valid Gv nth_error] in H. inversion H as [|? ? ? ? _ H1]; subst. inversion H1 as [|? ? ? ? H2 _]; subst. discriminate H2.
  - intros n H. apply K in H as [[|m] H]; [contradiction|]. cbn [text_valid] in H. destruct H as [H _]. inversion H as [|? ? H1 _]; subst. destruct m; [contradiction|].
    cbn [text_valid] in H1. unfold int_ok in H1. cbn in H1. lia.
Qed.
