(** C52: a value read from a text, written and read again, is the same value. *)
From Verif Require Import Base Utf8 Types TyAll BinModel Text TextModel TextSim TextToks TextLex TextFuel TextRun SpecText SpecValid TextMain TextValid SpecStable TextStable PropsBin TextEx PropsValid.
Local Open Scope N_scope.

Theorem C52_read_write_read F c G fm t text v : flt_ok F -> flt_ints F -> cfg_ok c -> Forall scalar text ->
  stable_env F c G fm text -> ty_all (stable_node F c text) t ->
  parses F c G fm t text (Ok v) ->
  exists out, writes F c G fm t v out /\ parses F c G fm t out (Ok v).
Proof.
  intros HF HI Hc Ht HG Hty [n Hn]. specialize (Hn n (le_n n)). unfold deserialize_text in Hn.
  destruct (de_first (text_lexer F fm) F c G fm n t (start fm text)) as [s' r] eqn:E. cbn [snd] in Hn. subst r.
  assert (HG2 : Gives F text (de_first (text_lexer F fm) F c G fm n t) (fit F text c G fm t)).
  { unfold de_first. apply (Gives_then F text (l_next (text_lexer F fm))); [apply Gives_next; exact Ht|]. intros _. apply Gives_stable; assumption. }
  assert (Hinv : Inv F text (start fm text)) by (split; [apply suffix_refl|]; split; [constructor | exact I]).
  destruct (proj2 (HG2 _ _ _ Hinv E) Hty) as [m Hm]. exact (text_round_trip F c G fm HF Hc m t v Hm).
Qed.
Print Assumptions C52_read_write_read.

Lemma toyb_ints : flt_ints toyb.
Proof.
  intros z Hz. cbn [toyb f64_of_z f32_of_f64]. set (y := Z.to_N z). pose proof (N.mod_lt y (2 ^ 22) ltac:(discriminate)) as B.
  rewrite (N.mod_small (y mod 2 ^ 22) (2 ^ 32)) by lia. unfold finite64, finite32.
  rewrite !N.div_small by lia. split; (split; [lia | discriminate]).
Qed.
Lemma digits_bound d : forallb is_digit d = true -> digits_val d < 10 ^ lenN d.
Proof.
  unfold digits_val. assert (H : forall d a, forallb is_digit d = true -> fold_left (fun a c => 10 * a + (c - 48)) d a < (a + 1) * 10 ^ lenN d).
  { clear. unfold lenN. induction d as [|x d IH]; intros a H; cbn [fold_left length]; [change (10 ^ N.of_nat 0) with 1; lia|].
    cbn [forallb] in H. apply andb_prop in H as [H1 H2]. unfold is_digit in H1. specialize (IH (10 * a + (x - 48)) H2).
    rewrite Nat2N.inj_succ, N.pow_succ_r'. eapply N.lt_le_trans; [exact IH|]. rewrite N.mul_assoc. apply N.mul_le_mono_r. lia. }
  intro Hd. specialize (H d 0 Hd). lia.
Qed.
(** Floats, on a short text. *)
Lemma toyb_finite text s b : (length text <= 15)%nat -> infix s text -> f64_parse toyb s = Some b -> finite64 b.
Proof.
  intros Hl (x & y & ->) H. cbn [toyb f64_parse] in H. rewrite !app_length in Hl.
  destruct (take_while is_digit s) as [|a d] eqn:E; [discriminate|].
  assert (Hd : forallb is_digit (a :: d) = true) by (rewrite <- E; clear; induction s as [|x s IH]; cbn [take_while]; [reflexivity|]; destruct (is_digit x) eqn:Ex; [cbn; rewrite Ex; exact IH | reflexivity]).
  assert (Hs : (length (a :: d) <= length s)%nat) by (rewrite <- (take_drop is_digit s), E, app_length; lia).
  apply digits_bound in Hd. assert (Hb : digits_val (a :: d) < 10 ^ 15).
  { eapply N.lt_le_trans; [exact Hd|]. apply N.pow_le_mono_r; [discriminate|]. unfold lenN. lia. }
  destruct (digits_val (a :: d) <? 2 ^ 64); [|discriminate]. injection H as <-.
  change (10 ^ 15) with 1000000000000000 in Hb. split; [lia|]. rewrite N.div_small by lia. discriminate.
Qed.
Example C52_ex_floats :
  let t := TSeq SVec (TOpt TF64) in let text := chars "[25.5,null ,3,]" in
  parses toyb c64 [] Json t text (Ok (VSeq [VSome (VF 25); VNone; VSome (VF 3)])) /\
  flt_ok toyb /\ flt_ints toyb /\ cfg_ok c64 /\ Forall scalar text /\ stable_env toyb c64 [] Json text /\ ty_all (stable_node toyb c64 text) t.
Proof.
  cbv zeta. split; [apply (de_text_returns _ _ _ _ 12); [vm_compute; reflexivity | discriminate]|].
  split; [exact toyb_ok|]. split; [exact toyb_ints|]. split; [exact c64_ok|]. split; [repeat constructor|]. split; [split; constructor|].
  cbn [ty_all stable_node]. split; [exact I|]. split; [exact I|]. split; [|exact I]. intros s0 b. apply toyb_finite. cbn. lia.
Qed.

(** A record with a set, a skipped field, an option and defaults. *)
Definition Gs : env :=
  [ DStruct true false
      [ fld (chars "s") false (VSeq []) (TSeq SBSet (TInt U8));
        fld (chars "k") true (VZ 5) (TInt U8);
        opt_field (chars "o") (TNamed 1);
        defaulted (VZ 7) (fld (chars "d") false (VZ 0) (TInt I16)) ];
    DEnum [ {| v_name := chars "A"; v_rename := None; v_body := BUnit |};
            {| v_name := chars "B"; v_rename := None; v_body := BTuple [TBox (TNamed 0)] |} ] ].
Definition ts : str := [123] ++ [34;111;34] ++ chars ":{" ++ [34;66;34] ++ chars ":[{" ++ [34;111;34] ++ chars ":null}]}, " ++ [34;115;34] ++ chars ":[9,2, 9,7]}".
Ltac nm := unfold good_name, json_name; cbn; repeat (first [apply Forall_nil | apply Forall_cons; [repeat split; discriminate|]]).
Example C52_ex :
  parses toyb c64 Gs Json (TNamed 0) ts (Ok (VSeq [VSeq [VZ 2; VZ 7; VZ 9]; VZ 5; VSome (VEnum 1 [VSeq [VSeq []; VZ 5; VNone; VZ 7]]); VZ 7])) /\
  Forall scalar ts /\ stable_env toyb c64 Gs Json ts /\ ty_all (stable_node toyb c64 ts) (TNamed 0).
Proof.
  split; [apply (de_text_returns _ _ _ _ 12); [vm_compute; reflexivity | discriminate]|].
  split; [repeat constructor|]. split; [|split; exact I]. split.
  - repeat (constructor; cbn [decl_all]); try (unfold field_all; cbn; tauto).
  - assert (SF : forall f, f_isopt f = false -> wf_field f -> (f_skip f = false -> exists n, text_value c64 Gs Json n (f_ty f) (omitted_value f)) -> stable_field c64 Gs Json true (none_as_null Json false f) f).
    { intros f Ho Hw Hf. split; [exact Hw|]. intro Hs. split; [congruence|]. intros _. destruct (Hf Hs) as [n Hn]. exists n. split; [exact Hw|]. rewrite Hs, Ho. exact Hn. }
    constructor; [|constructor; [|constructor]].
    + cbn [stable_decl]. split; [cbn; repeat constructor; cbn; intuition discriminate|]. split.
      * repeat (apply Forall_cons; [intros _; nm|]); apply Forall_nil.
      * constructor; [|constructor; [|constructor; [|constructor; [|constructor]]]].
        -- apply SF; [reflexivity | split; reflexivity | intros _; exists 1%nat; cbn; repeat constructor].
        -- apply SF; [reflexivity | split; reflexivity | discriminate].
        -- split; [reflexivity|]. intros _. split; [intros _; right; reflexivity|]. intros _. exists O. split; [reflexivity|]. right. reflexivity.
        -- apply SF; [reflexivity | split; reflexivity | intros _; exists 1%nat; cbn; unfold int_ok; cbn; repeat split; try discriminate; lia].
    + cbn [stable_decl]. split; [cbn; repeat constructor; cbn; intuition discriminate|].
      apply Forall_cons; [|apply Forall_cons; [|apply Forall_nil]]; (split; [nm|]; split; [discriminate|]; cbn; try discriminate; exact I).
Qed.

(** An option that is left out when it is [None] and has another default is not
    stable: [None] read from an explicit null comes back as the default. *)
Definition Gn : env := [DStruct false false [defaulted (VSome (VZ 3)) (opt_field (chars "o") (TInt U8))]].
Definition tn : str := [123; 34; 111; 34] ++ chars ":null}".
Theorem C52_refuted_option_default :
  parses toyb c64 Gn Json (TNamed 0) tn (Ok (VSeq [VNone])) /\ writes toyb c64 Gn Json (TNamed 0) (VSeq [VNone]) (chars "{}") /\
  parses toyb c64 Gn Json (TNamed 0) (chars "{}") (Ok (VSeq [VSome (VZ 3)])).
Proof.
  split; [apply (de_text_returns _ _ _ _ 12); [vm_compute; reflexivity | discriminate]|].
  split; [|apply (de_text_returns _ _ _ _ 12); [vm_compute; reflexivity | discriminate]].
  exists 3%nat. intros m Hm. destruct m as [|[|[|m]]]; [lia..|]. reflexivity.
Qed.
(** In RON the name of an enum variant is looked up after the next token was read:
    [Some x] can hold a variant named None, which reads back as [None]. *)
Definition Gnone : env := [DEnum [ {| v_name := chars "A"; v_rename := None; v_body := BUnit |};
                                   {| v_name := chars "None"; v_rename := None; v_body := BUnit |} ]].
Theorem C52_refuted_ron_none :
  parses toyb c64 Gnone Ron (TOpt (TNamed 0)) (chars "A None") (Ok (VSome (VEnum 1 []))) /\
  writes toyb c64 Gnone Ron (TOpt (TNamed 0)) (VSome (VEnum 1 [])) (chars "None") /\
  parses toyb c64 Gnone Ron (TOpt (TNamed 0)) (chars "None") (Ok VNone).
Proof.
  split; [apply (de_text_returns _ _ _ _ 12); [vm_compute; reflexivity | discriminate]|].
  split; [|apply (de_text_returns _ _ _ _ 12); [vm_compute; reflexivity | discriminate]].
  exists 3%nat. intros m Hm. destruct m as [|[|[|m]]]; [lia..|]. reflexivity.
Qed.
