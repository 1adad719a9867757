(** C30: the position of an error. *)
From Verif Require Import Base Utf8 Types TyAll BinModel Text TextModel TextSim TextToks TextPos TextFuel TextRun TextEx TomlModel SpecToml TomlTerm SpecPos PropsBin.
Local Open Scope N_scope.

(** ** Counting *)
Lemma line_ends_app a b : line_ends (a ++ b) = line_ends a + line_ends b.
Proof. unfold line_ends, lenN. rewrite filter_app, app_length. lia. Qed.
Lemma pos_line fm p : forall q, fst (fold_left (pos_step fm) p q) = fst q + line_ends p.
Proof.
  induction p as [|a p IH]; intro q; cbn [fold_left]; [unfold line_ends; cbn; lia|]. rewrite IH.
  change (a :: p) with ([a] ++ p). rewrite line_ends_app. unfold pos_step, c_nl.
  assert (E : line_ends [a] = if a =? 10 then 1 else 0) by (unfold line_ends; cbn [filter]; destruct (a =? 10); reflexivity). rewrite E.
  destruct (a =? 10); [cbn [fst]; lia|]. destruct fm; cbn [fst]; lia.
Qed.
Lemma pos_col_json p : column p (snd (fold_left (pos_step Json) p (0, 0))).
Proof.
  induction p as [|x p IH] using rev_ind; [exists [], []; repeat split; auto|].
  rewrite fold_left_app. cbn [fold_left]. destruct (fold_left (pos_step Json) p (0, 0)) as [ln cl]. cbn [snd] in IH.
  destruct IH as (a & b & E & Ha & Hb & Hk). unfold pos_step. cbn [fst snd]. destruct (x =? c_nl) eqn:Ex.
  - apply N.eqb_eq in Ex. subst x. exists (p ++ [10]), []. rewrite app_nil_r. repeat split; eauto.
  - apply N.eqb_neq in Ex. exists a, (b ++ [x]). cbn [snd]. repeat split; auto.
    + rewrite E, app_assoc. reflexivity.
    + rewrite in_app_iff. cbn [In]. unfold c_nl in Ex. intros [H|[H|[]]]; congruence.
    + rewrite Hk. unfold lenN. rewrite app_length. cbn. lia.
Qed.
Lemma pos_col_ron p : forall q, snd q = 0 -> snd (fold_left (pos_step Ron) p q) = 0.
Proof.
  induction p as [|a p IH]; intros q Hq; cbn [fold_left]; [exact Hq|]. apply IH. unfold pos_step. destruct (a =? c_nl); reflexivity.
Qed.

Lemma free_nt G t : tuple_free G t -> env_all nontuple G /\ ty_all nontuple t.
Proof. exact (fun H => H). Qed.

(** What both readers have in common: an error is reported at the end of a part [q]
    of the text ([m] is what a tuple goes on to read), and what follows [q ++ m] is irrelevant. *)
Lemma stops F c G fm t text e : parses F c G fm t text (Err e) ->
  exists q m r, text = q ++ m ++ r /\ (e_line e, e_col e) = pos_of fm q /\ (tuple_free G t -> m = []) /\
    (r <> [] -> forall r', parses F c G fm t (q ++ m ++ r') (Err e)).
Proof.
  intros [n H]. specialize (H n (le_n n)). unfold deserialize_text in H.
  destruct (de_first (text_lexer F fm) F c G fm n t (start fm text)) as [s' o] eqn:Er. cbn [snd] in H. subst o.
  destruct (run_text F c G fm (tuple_free G t) n t text s' (Err e) (free_nt G t) Er) as (q & m & Ht & Hp & Hm).
  exists q, m, (tl (s_inp s')). split; [exact Ht|]. split; [exact Hp|]. split; [exact Hm|]. intros Hne r'.
  eapply de_text_returns; [|discriminate]. unfold deserialize_text. rewrite app_assoc in Ht |- *.
  apply (run_other F c G fm n t text s' (Err e) (q ++ m) r' Er Ht Hne I).
Qed.

(** ** C30 *)
(** JSON: the line is the number of line ends before the place, the column the
    distance to the last one; for types without tuples the place is where reading
    stopped: nothing behind it has any influence. *)
Theorem C30_json F c G t text e : parses F c G Json t text (Err e) ->
  exists q m r, text = q ++ m ++ r /\ e_line e = line_ends q /\ column q (e_col e) /\ (tuple_free G t -> m = []) /\
    (r <> [] -> forall r', parses F c G Json t (q ++ m ++ r') (Err e)).
Proof.
  intro H. destruct (stops F c G Json t text e H) as (q & m & r & Ht & Hp & Hm & Hr). exists q, m, r. split; [exact Ht|].
  unfold pos_of in Hp. pose proof (pos_line Json q (0, 0)) as Hl. pose proof (pos_col_json q) as Hc. rewrite <- Hp in Hl, Hc. cbn [fst snd] in Hl, Hc.
  split; [exact Hl|]. auto.
Qed.
Print Assumptions C30_json.
(** RON: the line likewise. *)
Theorem C30_ron_line F c G t text e : parses F c G Ron t text (Err e) ->
  exists q m r, text = q ++ m ++ r /\ e_line e = line_ends q /\ (tuple_free G t -> m = []) /\
    (r <> [] -> forall r', parses F c G Ron t (q ++ m ++ r') (Err e)).
Proof.
  intro H. destruct (stops F c G Ron t text e H) as (q & m & r & Ht & Hp & Hm & Hr). exists q, m, r. split; [exact Ht|].
  unfold pos_of in Hp. pose proof (pos_line Ron q (0, 0)) as Hl. rewrite <- Hp in Hl. cbn [fst snd] in Hl.
  split; [exact Hl|]. auto.
Qed.
Print Assumptions C30_ron_line.
(** TOML: the line likewise. *)
Theorem C30_toml_line F show text e : toml_parse F show text = Err e -> exists q r, text = q ++ r /\ q_line e = line_ends q.
Proof.
  intro H. pose proof (parse_ends F show text) as (_ & _ & X). unfold toml_parse, parse_toml in H.
  destruct (q_lines F show (S (length text)) [] {| o_map := []; o_active := None |} (q_start text)) as [s' [o|e'|p|]]; cbn [snd] in *; try discriminate.
  inversion H; subst e'. destruct X as (q & r & Ht & Hl). exists q, r. auto.
Qed.
Print Assumptions C30_toml_line.
(** The column of a RON error is always zero ... *)
Theorem C30_ron_column_refuted F c G t text e : parses F c G Ron t text (Err e) -> e_col e = 0.
Proof.
  intro H. destruct (stops F c G Ron t text e H) as (q & _ & _ & _ & Hp & _). unfold pos_of in Hp.
  pose proof (pos_col_ron q (0, 0) eq_refl) as Hc. rewrite <- Hp in Hc. exact Hc.
Qed.
Print Assumptions C30_ron_column_refuted.
(** ... although the place of the error is further on in its line. *)
Example C30_ex_ron : exists e, parses toy c64 [] Ron TBool (chars "x") (Err e) /\
  forall q r, chars "x" = q ++ r -> (forall r', parses toy c64 [] Ron TBool (q ++ r') (Err e)) -> ~ column q (e_col e).
Proof.
  eexists. split; [eapply (de_text_returns _ _ _ _ 3); [vm_compute; reflexivity | discriminate]|].
  intros q r Hq Hall Hc. destruct q as [|a q].
  - specialize (Hall (chars "true")). destruct Hall as [n Hn]. specialize (Hn (n + 3)%nat ltac:(lia)).
    assert (P : parses toy c64 [] Ron TBool (chars "true") (Ok (VBool true))) by (eapply (de_text_returns _ _ _ _ 3); [vm_compute; reflexivity | discriminate]).
    destruct P as [k Hk]. destruct (Nat.le_ge_cases (n + 3) k) as [L|L].
    + assert (X : deserialize_text toy c64 [] Ron k TBool (chars "true") = deserialize_text toy c64 [] Ron (n + 3) TBool (chars "true")).
      { unfold deserialize_text. f_equal. apply first_mono; [exact L|]. unfold deserialize_text in Hn. cbn [app] in Hn. rewrite Hn. discriminate. }
      cbn [app] in Hn. rewrite Hn, (Hk k (le_n k)) in X. discriminate.
    + cbn [app] in Hn. rewrite (Hk (n + 3)%nat L) in Hn. discriminate.
  - cbn in Hq. inversion Hq as [[Ea Eq]]. symmetry in Eq. apply app_eq_nil in Eq. destruct Eq as [-> ->]. subst a.
    destruct Hc as (a & b & E & [-> | [a' ->]] & Hb & Hk).
    + cbn [app] in E. subst b. discriminate Hk.
    + apply (f_equal (fun l => In 10 l)) in E. assert (X : In 10 [120]) by (rewrite E; rewrite !in_app_iff; cbn; auto). destruct X as [X|[]]. discriminate.
Qed.
(** A JSON error on the second line. *)
Example C30_ex_json : exists m, parses toy c64 [] Json (TSeq SVec (TInt U8)) (chars "[1," ++ 10 :: chars "  x2]") (Err {| e_line := 1; e_col := 4; e_reason := m |}) /\
  line_ends (chars "[1," ++ 10 :: chars "  x2") = 1 /\ column (chars "[1," ++ 10 :: chars "  x2") 4 /\ tuple_free [] (TSeq SVec (TInt U8)).
Proof.
  eexists. split; [eapply (de_text_returns _ _ _ _ 9); [vm_compute; reflexivity | discriminate]|].
  split; [reflexivity|]. split; [exists (chars "[1," ++ [10]), (chars "  x2"); split; [reflexivity|]; split; [right; exists (chars "[1,"); reflexivity|]; split; [cbn; intuition discriminate | reflexivity]|].
  repeat split; auto. constructor.
Qed.
