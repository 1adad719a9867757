(** C87: reading TOML is linear work. *)
From Verif Require Import Base Utf8 Types Text TextModel TextToks TomlModel TomlTerm WorkToml.
Local Open Scope nat_scope.

(** The counting parser has the same outcome as the model. *)
Theorem C87_counted F show n text : snd (counted_toml F show n text) = parse_toml F show n text.
Proof. apply counted_toml_same. Qed.

(** Every text, whatever comes of it: with any fuel that is enough the parse ends, and
    the calls of the tokenizer and the characters moved over are together at most three
    for each character, and one. *)
Theorem C87_linear F show text n : length text < n ->
  let (w, r) := counted_toml F show n text in
  r = toml_parse F show text /\ r <> NoFuel /\ w <= 3 * length text + 1.
Proof.
  intro Hn. pose proof (counted_toml_same F show n text) as E. pose proof (counted_toml_bound F show n text) as B.
  destruct (counted_toml F show n text) as [w r]. cbn [fst snd] in *. subst r. rewrite (parse_enough F show text n Hn).
  split; [reflexivity|]. split; [|exact B]. pose proof (parse_ends F show text) as (_ & _ & X). unfold toml_parse, parse_toml.
  intro Y. rewrite Y in X. exact X.
Qed.
(** The fuel is a device of the model: a parse with too little of it has done no more. *)
Theorem C87_always F show text n : fst (counted_toml F show n text) <= 3 * length text + 1.
Proof. apply counted_toml_bound. Qed.

(** The bound is met up to two: for every n from
    3 on there is a text of n characters with 3n-1 -- brackets that are never closed. *)
Fixpoint nest (k : nat) : toml := match k with O => TVArr [] | S k => TVArr [nest k] end.
Lemma next_open_ F x l (s : qst * nat) : q_inp (fst s) = c_lbr :: l -> x = c_lbr -> exists q, k_next F s = ((q, snd s + 2), Ok QOpen) /\ q_inp q = l.
Proof.
  destruct s as [q k]. cbn [fst snd]. intros E _. unfold k_next, q_next. cbn [fst snd]. rewrite E. set (m := S _).
  assert (X : q_scan F m (c_lbr :: l) = (l, inl QOpen)) by reflexivity. rewrite X.
  eexists. split. { cbn [q_inp]. replace (k + 1 + (length (c_lbr :: l) - length l)) with (k + 2) by (cbn [length]; lia). reflexivity. } reflexivity.
Qed.
Lemma next_eof_ F (s : qst * nat) : q_inp (fst s) = [] -> exists q, k_next F s = ((q, snd s + 1), Ok QEof) /\ q_inp q = [].
Proof.
  destruct s as [q k]. cbn [fst snd]. intros E. unfold k_next, q_next. cbn [fst snd]. rewrite E. cbn.
  eexists. split. { rewrite Nat.add_0_r. reflexivity. } reflexivity.
Qed.
Lemma vals_eof F v n s s' : k_next F s = (s', Ok QEof) -> k_vals F v (S n) s = (s', Ok []).
Proof. intro H. cbn [k_vals]. unfold kbind at 1. rewrite H. reflexivity. Qed.
Lemma vals_open F v n s s1 s2 s3 x r : k_next F s = (s1, Ok QOpen) -> v QOpen s1 = (s2, Ok x) -> k_vals F v n s2 = (s3, Ok r) ->
  k_vals F v (S n) s = (s3, Ok (x :: r)).
Proof. intros H H1 H2. cbn [k_vals]. unfold kbind at 1. rewrite H. unfold kbind at 1. rewrite H1. unfold kbind at 1. rewrite H2. reflexivity. Qed.
Lemma val_open F n s s' l : k_vals F (k_val F n) n s = (s', Ok l) -> k_val F (S n) QOpen s = (s', Ok (TVArr l)).
Proof. intro H. cbn [k_val]. unfold kbind at 1. rewrite H. reflexivity. Qed.
Lemma deep_val F k : forall n (s : qst * nat), k + 1 < n -> q_inp (fst s) = repeat c_lbr k ->
  exists q, k_val F n QOpen s = ((q, snd s + 3 * k + 1), Ok (nest k)) /\ q_inp q = [].
Proof.
  induction k as [|k IH]; intros n s Hn E; (destruct n as [|[|n]]; [lia..|]).
  - destruct (next_eof_ F s E) as (q & Eq & Hq). exists q. split; [|exact Hq]. apply val_open, vals_eof. rewrite Eq.
    replace (snd s + 3 * 0 + 1) with (snd s + 1) by lia. reflexivity.
  - destruct (next_open_ F c_lbr _ s E eq_refl) as (q & Eq & Hq).
    destruct (IH (S n) (q, snd s + 2) ltac:(lia) Hq) as (q1 & E1 & H1). cbn [snd] in E1. destruct n as [|n]; [lia|].
    destruct (next_eof_ F (q1, snd s + 2 + 3 * k + 1) H1) as (q2 & E2 & H2). exists q2. split; [|exact H2].
    cbn [nest]. apply val_open. eapply vals_open; [exact Eq|exact E1|]. apply vals_eof. rewrite E2. cbn [snd].
    replace (snd s + 3 * S k + 1) with (snd s + 2 + 3 * k + 1 + 1) by lia. reflexivity.
Qed.
Theorem C87_tight F show k n : let text := chars "a=[" ++ repeat c_lbr k in length text < n ->
  counted_toml F show n text = (3 * length text - 1, Ok [(chars "a", nest k)]).
Proof.
  cbv zeta. set (R := repeat c_lbr k). intro Hn. assert (LR : length R = k) by apply repeat_length.
  rewrite app_length in *. change (length (chars "a=[")) with 3 in *. rewrite LR in *.
  unfold counted_toml. destruct n as [|[|n]]; [lia..|].
  assert (S1 : exists q, k_next F (q_start (chars "a=[" ++ R), 0) = ((q, 2), Ok (QIdent (chars "a"))) /\ q_inp q = chars "=[" ++ R).
  { unfold k_next, q_next. cbn [fst snd q_start q_inp]. set (m := S _).
    assert (X : q_scan F m (chars "a=[" ++ R) = (chars "=[" ++ R, inl (QIdent (chars "a")))) by reflexivity.
    rewrite X. eexists. split. { cbn [q_inp]. replace (0 + 1 + (length (chars "a=[" ++ R) - length (chars "=[" ++ R))) with 2 by (rewrite !app_length; change (length (chars "a=[")) with 3; change (length (chars "=[")) with 2; lia). reflexivity. } reflexivity. }
  destruct S1 as (q & E & H).
  assert (S2 : exists q', k_next F (q, 2) = ((q', 4), Ok QEq) /\ q_inp q' = c_lbr :: R).
  { unfold k_next, q_next. cbn [fst snd]. rewrite H. set (m := S _).
    assert (X : q_scan F m (chars "=[" ++ R) = (c_lbr :: R, inl QEq)) by reflexivity.
    rewrite X. eexists. split. { cbn [q_inp]. replace (2 + 1 + (length (chars "=[" ++ R) - length (c_lbr :: R))) with 4 by (rewrite app_length; change (length (chars "=[")) with 2; cbn [length]; lia). reflexivity. } reflexivity. }
  destruct S2 as (q2 & E2 & H2).
  destruct (next_open_ F c_lbr _ (q2, 4) H2 eq_refl) as (q3 & E3 & H3). cbn [snd Nat.add] in E3.
  destruct (deep_val F k (S n) (q3, 6) ltac:(lia) H3) as (q4 & E4 & H4). cbn [snd] in E4.
  set (o := {| o_map := []; o_active := None |}).
  assert (KV : k_key_value F (S n) [] (chars "a") o (q, 2) = ((q4, 6 + 3 * k + 1), Ok (o_insert (chars "a") (nest k) o))).
  { unfold k_key_value. change (o_check o) with (@None panic). cbv match. unfold kbind at 1. rewrite E2. unfold kbind at 1. rewrite E3. unfold kbind at 1. rewrite E4. reflexivity. }
  assert (L1 : k_line F show (S n) [] o (q_start (chars "a=[" ++ R), 0) = ((q4, 6 + 3 * k + 1), Ok (Some ([], o_insert (chars "a") (nest k) o)))).
  { unfold k_line. unfold kbind at 1. rewrite E. unfold kbind at 1. cbn [q_text]. rewrite KV. reflexivity. }
  destruct (next_eof_ F (q4, 6 + 3 * k + 1) H4) as (q5 & E5 & H5). cbn [snd] in E5.
  assert (L2 : k_line F show n [] (o_insert (chars "a") (nest k) o) (q4, 6 + 3 * k + 1) = ((q5, 6 + 3 * k + 1 + 1), Ok None)).
  { unfold k_line. unfold kbind at 1. rewrite E5. reflexivity. }
  change (k_lines F show (S (S n)) [] o) with (kbind (k_line F show (S n) [] o) (fun r => match r with None => kret (o_map o) | Some (scope', o') => k_lines F show (S n) scope' o' end)).
  unfold kbind at 1. rewrite L1.
  change (k_lines F show (S n) [] (o_insert (chars "a") (nest k) o)) with (kbind (k_line F show n [] (o_insert (chars "a") (nest k) o)) (fun r => match r with None => kret (o_map (o_insert (chars "a") (nest k) o)) | Some (scope', o') => k_lines F show n scope' o' end)).
  unfold kbind at 1. rewrite L2. cbn [kret snd]. replace (3 * (3 + k) - 1) with (6 + 3 * k + 1 + 1) by lia. reflexivity.
Qed.

Print Assumptions C87_counted.
Print Assumptions C87_linear.
Print Assumptions C87_always.
Print Assumptions C87_tight.

(** ** Concrete cases *)
(** Two calls for nearly every character: brackets that are never closed all end at
    the end of the text, each with a call of its own. *)
Example C87_ex_deep : counted_toml no_flt dec 9 (chars "a=[[[[[[") = (3 * 8 - 1, Ok [(chars "a", TVArr [TVArr [TVArr [TVArr [TVArr [TVArr []]]]]])]).
Proof. vm_compute. reflexivity. Qed.
(** The empty text meets the bound. *)
Example C87_ex_empty : counted_toml no_flt dec 1 [] = (1, Ok []).
Proof. reflexivity. Qed.
(** An error and a panic. *)
Example C87_ex_err : fst (counted_toml no_flt dec 20 (chars "a=[1,=")) = 6 + 6 /\ exists e, snd (counted_toml no_flt dec 20 (chars "a=[1,=")) = Err e.
Proof. split; [vm_compute; reflexivity|]. eexists. vm_compute. reflexivity. Qed.
Example C87_ex_panic : counted_toml no_flt dec 20 (chars "a=1[[a]]") = (16, Panic PUnreachable).
Proof. vm_compute. reflexivity. Qed.
(** What is not counted is the copying of names: every key below a scope holds it. *)
Example C87_ex_keys :
  let text := chars "[scopescope]" ++ chars "a=1 b=1 c=1 d=1 e=1 f=1 " in
  match toml_parse no_flt dec text with Ok m => length text < length (concat (map fst m)) | _ => False end.
Proof. vm_compute. apply le_n_S. repeat constructor. Qed.
