(** Tokenizing what the writers produce. *)
From Verif Require Import Base Utf8 Types BinModel Text TextModel TextSim TextToks.
Local Open Scope N_scope.

(** ** Decimal digits *)

Definition digits_from (a : N) (l : str) : N := fold_left (fun a c => 10 * a + (c - 48)) l a.
Lemma digits_from_app a l m : digits_from a (l ++ m) = digits_from (digits_from a l) m.
Proof. apply fold_left_app. Qed.

Lemma is_digit_48 d : d < 10 -> is_digit (48 + d) = true.
Proof. intro H. unfold is_digit. rewrite andb_true_iff, !N.leb_le. lia. Qed.

Lemma dec_go_spec : forall k n acc, (1 <= k)%nat -> n < 10 ^ N.of_nat k ->
  exists d, dec_go k n acc = d ++ acc /\ d <> [] /\ forallb is_digit d = true /\ digits_val d = n /\
            (d = [48] \/ cur d <> 48) /\ (length d <= k)%nat.
Proof.
  induction k as [|k IH]; intros n acc Hk Hn; [lia|].
  cbn [dec_go]. pose proof (N.mod_lt n 10 ltac:(lia)) as Hm.
  destruct (n <? 10) eqn:E.
  - apply N.ltb_lt in E. rewrite N.mod_small by lia. exists [48 + n].
    split; [reflexivity|]. split; [discriminate|].
    split; [cbn [forallb]; rewrite is_digit_48 by lia; reflexivity|].
    split; [unfold digits_val; cbn [fold_left]; lia|].
    split; [|simpl; lia]. destruct (N.eq_dec n 0) as [->|Hz]; [left; reflexivity | right; cbn [cur]; lia].
  - apply N.ltb_ge in E.
    destruct k as [|k]; [simpl in Hn; lia|].
    assert (Hd : n / 10 < 10 ^ N.of_nat (S k)).
    { apply N.div_lt_upper_bound; [lia|]. rewrite <- N.pow_succ_r'. rewrite <- Nnat.Nat2N.inj_succ. exact Hn. }
    destruct (IH (n / 10) ((48 + n mod 10) :: acc) ltac:(lia) Hd) as (d & E1 & E2 & E3 & E4 & E5 & E6).
    exists (d ++ [48 + n mod 10]). split; [rewrite E1, <- app_assoc; reflexivity|].
    split; [destruct d; discriminate|].
    split; [rewrite forallb_app, E3; cbn [forallb]; rewrite is_digit_48 by lia; reflexivity|].
    split.
    { unfold digits_val in *. rewrite fold_left_app, E4. cbn [fold_left].
      pose proof (N.div_mod n 10 ltac:(lia)). lia. }
    split; [|rewrite app_length; simpl; lia].
    right. destruct E5 as [->|E5].
    + exfalso. unfold digits_val in E4. cbn in E4. assert (1 <= n / 10) by (apply N.div_le_lower_bound; lia). lia.
    + destruct d; [congruence | exact E5].
Qed.

Lemma size_pow10 n : n < 10 ^ N.of_nat (S (N.size_nat n)).
Proof.
  assert (H : n < 2 ^ N.of_nat (N.size_nat n)).
  { destruct n as [|p]; [simpl; lia|]. cbn [N.size_nat].
    pose proof (Pos.size_gt p) as H. pose proof (Pos.size_nat_monotone p p) as _.
    assert (Hs : N.of_nat (Pos.size_nat p) = N.pos (Pos.size p)).
    { clear H. induction p as [p IH|p IH|]; cbn [Pos.size_nat Pos.size]; [| |reflexivity];
        rewrite Nnat.Nat2N.inj_succ, IH; lia. }
    rewrite Hs. change (2 ^ N.pos (Pos.size p)) with (N.pos (2 ^ Pos.size p)). lia. }
  eapply N.lt_le_trans; [exact H|].
  transitivity (2 ^ N.of_nat (S (N.size_nat n))).
  - apply N.pow_le_mono_r; lia.
  - apply N.pow_le_mono_l. lia.
Qed.

Lemma dec_spec n : exists d, dec n = d /\ d <> [] /\ forallb is_digit d = true /\ digits_val d = n /\
  (d = [48] \/ cur d <> 48).
Proof.
  unfold dec. destruct (dec_go_spec (S (N.size_nat n)) n [] ltac:(lia) (size_pow10 n))
    as (d & E1 & E2 & E3 & E4 & E5 & _).
  rewrite app_nil_r in E1. exists d. repeat split; assumption.
Qed.

Lemma dec_nonempty n : dec n <> [].
Proof. destruct (dec_spec n) as (d & -> & H & _). exact H. Qed.
Lemma dec_digits n : forallb is_digit (dec n) = true.
Proof. destruct (dec_spec n) as (d & -> & _ & H & _). exact H. Qed.
Lemma dec_val n : digits_val (dec n) = n.
Proof. destruct (dec_spec n) as (d & -> & _ & _ & H & _). exact H. Qed.
Lemma dec_nozero n : dec n = [48] \/ cur (dec n) <> 48.
Proof. destruct (dec_spec n) as (d & -> & _ & _ & _ & H). exact H. Qed.
Lemma dec_head n : exists x r, dec n = x :: r /\ is_digit x = true.
Proof.
  pose proof (dec_nonempty n). pose proof (dec_digits n) as D. destruct (dec n) as [|x r]; [congruence|].
  cbn [forallb] in D. apply andb_prop in D as [D _]. eauto.
Qed.

Lemma digit_range c : is_digit c = true <-> 48 <= c <= 57.
Proof. unfold is_digit. rewrite andb_true_iff, !N.leb_le. tauto. Qed.

Lemma parse_u64_dec n : n < 2 ^ 64 -> parse_u64 (dec n) = Some n.
Proof.
  intro H. unfold parse_u64. destruct (dec_head n) as (x & r & E & D).
  rewrite E. apply digit_range in D. replace (x =? c_plus) with false by (symmetry; apply N.eqb_neq; unfold c_plus; lia).
  rewrite <- E, dec_digits, dec_val. apply N.ltb_lt in H. rewrite H. reflexivity.
Qed.
Lemma parse_i64_dec n : n <= 2 ^ 63 -> parse_i64 (c_minus :: dec n) = Some (- Z.of_N n)%Z.
Proof.
  intro H. unfold parse_i64. destruct (dec_head n) as (x & r & E & D). rewrite E, <- E.
  rewrite dec_digits, dec_val, N.eqb_refl. apply N.leb_le in H. rewrite H. reflexivity.
Qed.

(** ** Runs of characters *)
Lemma take_while_app p a b : forallb p a = true -> (b = [] \/ p (cur b) = false) ->
  take_while p (a ++ b) = a.
Proof.
  intros Ha Hb. induction a as [|x a IH]; simpl in *.
  - destruct b as [|y b]; [reflexivity|]. destruct Hb as [Hb|Hb]; [discriminate|]. simpl in *. rewrite Hb. reflexivity.
  - apply andb_prop in Ha as [-> Ha]. rewrite IH by assumption. reflexivity.
Qed.
Lemma drop_while_app p a b : forallb p a = true -> (b = [] \/ p (cur b) = false) ->
  drop_while p (a ++ b) = b.
Proof.
  intros Ha Hb. induction a as [|x a IH]; simpl in *.
  - destruct b as [|y b]; [reflexivity|]. destruct Hb as [Hb|Hb]; [discriminate|]. simpl in *. rewrite Hb. reflexivity.
  - apply andb_prop in Ha as [-> Ha]. apply IH; assumption.
Qed.

(** Text after a token that ends it: end of text, white space, punctuation, a comment. *)
Definition bound_char (c : N) : bool :=
  is_ws c || (c =? c_comma) || (c =? c_colon) || (c =? c_rbr) || (c =? c_rcur) ||
  (c =? c_rpar) || (c =? c_lpar) || (c =? c_slash).
Definition boundary (l : str) : Prop := l = [] \/ bound_char (cur l) = true.

Lemma bound_cases c : bound_char c = true ->
  c = 10 \/ c = 13 \/ c = 9 \/ c = 32 \/ c = 44 \/ c = 58 \/ c = 93 \/ c = 125 \/ c = 41 \/ c = 40 \/ c = 47.
Proof.
  unfold bound_char, is_ws, c_nl, c_cr, c_tab, c_sp, c_comma, c_colon, c_rbr, c_rcur, c_rpar, c_lpar, c_slash.
  rewrite !orb_true_iff, !N.eqb_eq. lia.
Qed.
Lemma boundary_no_digit l : boundary l -> l = [] \/ is_digit (cur l) = false.
Proof.
  intros [->|H]; [left; reflexivity|right]. apply bound_cases in H.
  repeat (destruct H as [-> | H]; [reflexivity|]). rewrite H. reflexivity.
Qed.
Lemma boundary_no_id fm l : boundary l -> l = [] \/ id_char fm (cur l) = false.
Proof.
  intros [->|H]; [left; reflexivity|right]. apply bound_cases in H.
  repeat (destruct H as [-> | H]; [destruct fm; reflexivity|]). rewrite H. destruct fm; reflexivity.
Qed.
Lemma boundary_no_num l : boundary l -> (cur l =? c_dot) = false /\ (cur l =? 101) = false /\ (cur l =? 69) = false.
Proof.
  intros [->|H]; [auto|]. apply bound_cases in H.
  repeat (destruct H as [-> | H]; [auto|]). rewrite H. auto.
Qed.

Section Lexes.
  Variable F : flt.
  Variable fm : fmt.
  Notation lexs := (lexs F fm).
  Notation lex1 := (lex1 F fm).

  Definition cat (l : list ltok) (p : list ltok * bool) : list ltok * bool := (l ++ fst p, snd p).

  (** The text [out] yields the tokens [l] whatever follows / when something that ends a token follows. *)
  Definition lexes_any (out : str) (l : list ltok) : Prop :=
    forall rest, lexs (out ++ rest) = cat l (lexs rest).
  Definition lexes (out : str) (l : list ltok) : Prop :=
    forall rest, boundary rest -> lexs (out ++ rest) = cat l (lexs rest).

  Lemma cat_app a b p : cat a (cat b p) = cat (a ++ b) p.
  Proof. unfold cat; cbn [fst snd]. rewrite app_assoc. reflexivity. Qed.
  Lemma cat_nil p : cat [] p = p.
  Proof. destruct p; reflexivity. Qed.

  Lemma lexes_any_nil : lexes_any [] [].
  Proof. intro rest. simpl. rewrite cat_nil. reflexivity. Qed.
  Lemma lexes_weak o l : lexes_any o l -> lexes o l.
  Proof. intros H rest _. apply H. Qed.
  Lemma lexes_any_app a b la lb : lexes_any a la -> lexes_any b lb -> lexes_any (a ++ b) (la ++ lb).
  Proof. intros Ha Hb rest. rewrite <- app_assoc, Ha, Hb, cat_app. reflexivity. Qed.
  Lemma lexes_app_r a b la lb : lexes_any a la -> lexes b lb -> lexes (a ++ b) (la ++ lb).
  Proof. intros Ha Hb rest Hr. rewrite <- app_assoc, Ha, Hb, cat_app by assumption. reflexivity. Qed.
  Lemma lexes_app_l a b la lb : lexes a la -> lexes_any b lb -> b <> [] -> boundary b -> lexes_any (a ++ b) (la ++ lb).
  Proof.
    intros Ha Hb Hne Hbd rest. rewrite <- app_assoc, Ha, Hb, cat_app; [reflexivity|].
    destruct Hbd as [->|Hbd]; [congruence|]. right. destruct b; [congruence | exact Hbd].
  Qed.
  Lemma lexes_app a b la lb : lexes a la -> lexes b lb -> boundary b -> lexes (a ++ b) (la ++ lb).
  Proof.
    intros Ha Hb Hbd rest Hr. rewrite <- app_assoc, Ha, Hb, cat_app; [reflexivity|assumption|].
    destruct b as [|x b]; [exact Hr|]. destruct Hbd as [Hbd|Hbd]; [discriminate|]. right; exact Hbd.
  Qed.
  Lemma lexes_end o l : lexes o l -> lexs o = (l, false).
  Proof.
    intro H. specialize (H [] (or_introl eq_refl)). rewrite app_nil_r in H. rewrite H.
    rewrite (lexs_eof F fm [] [] (cur0_eof F fm [] eq_refl)). unfold cat; cbn [fst snd]. rewrite app_nil_r. reflexivity.
  Qed.

  (** *** Single tokens *)
  Lemma not_ws_drop x r : is_ws x = false -> drop_while is_ws (x :: r) = x :: r.
  Proof. intro H. simpl. rewrite H. reflexivity. Qed.

  Lemma lexs_cons l l' t : lex1 l = (l', Some t) -> t <> LP KEof -> lexs l = cat [t] (lexs l').
  Proof. intros H Ht. rewrite (lexs_tok F fm _ _ _ H Ht). unfold cat. reflexivity. Qed.

  Lemma punct_not_ws x t : punct fm x = Some t -> is_ws x = false /\ (x =? 0) = false /\ (x =? c_slash) = false /\ t <> KEof.
  Proof.
    unfold punct.
    assert (Hd : forall k, (x =? k) = true -> x = k) by (intros; apply N.eqb_eq; assumption).
    destruct (x =? c_colon) eqn:E1; [rewrite (Hd _ E1); intro H; inversion H; subst; repeat split; discriminate|].
    destruct (x =? c_comma) eqn:E2; [rewrite (Hd _ E2); intro H; inversion H; subst; repeat split; discriminate|].
    destruct (x =? c_lbr) eqn:E3; [rewrite (Hd _ E3); intro H; inversion H; subst; repeat split; discriminate|].
    destruct (x =? c_rbr) eqn:E4; [rewrite (Hd _ E4); intro H; inversion H; subst; repeat split; discriminate|].
    destruct (x =? c_lcur) eqn:E5; [rewrite (Hd _ E5); intro H; inversion H; subst; repeat split; discriminate|].
    destruct (x =? c_rcur) eqn:E6; [rewrite (Hd _ E6); intro H; inversion H; subst; repeat split; discriminate|].
    destruct fm; [discriminate|].
    destruct (x =? c_lpar) eqn:E7; [rewrite (Hd _ E7); intro H; inversion H; subst; repeat split; discriminate|].
    destruct (x =? c_rpar) eqn:E8; [rewrite (Hd _ E8); intro H; inversion H; subst; repeat split; discriminate|].
    discriminate.
  Qed.

  Lemma lexes_punct x t : punct fm x = Some t -> lexes_any [x] [LP t].
  Proof.
    intros H rest. destruct (punct_not_ws _ _ H) as (H1 & H2 & H3 & H4).
    apply lexs_cons; [|congruence]. unfold TextToks.lex1. cbn [app length scan].
    rewrite not_ws_drop by assumption. cbn [cur tl]. rewrite H2, H3, H. reflexivity.
  Qed.

  Lemma lexs_ws x rest : is_ws x = true -> lexs (x :: rest) = lexs rest.
  Proof.
    intro H. rewrite (lexs_unfold F fm (x :: rest)), (lexs_unfold F fm rest).
    assert (E : lex1 (x :: rest) = lex1 rest).
    { unfold TextToks.lex1. 
      destruct (scan_spec F fm (length rest) rest (S (length rest)) (S (length (x :: rest))) KBof KBof) as (_ & _ & A & _);
        try (simpl; lia).
      rewrite (A eq_refl). cbn [length scan drop_while]. rewrite H. reflexivity. }
    rewrite E. reflexivity.
  Qed.
  Lemma lexes_ws w : forallb is_ws w = true -> lexes_any w [].
  Proof.
    intro H. induction w as [|x w IH]; intro rest; [rewrite cat_nil; reflexivity|].
    cbn [forallb] in H. apply andb_prop in H as [H1 H2]. cbn [app]. rewrite lexs_ws by assumption. apply IH. assumption.
  Qed.

  (** Numbers *)
  Lemma num_start_cases x : num_start fm x = true -> is_ws x = false /\ (x =? 0) = false /\ (x =? c_slash) = false /\ punct fm x = None.
  Proof.
    intro H.
    assert (Hx : x = 45 \/ x = 43 \/ x = 46 \/ 48 <= x <= 57).
    { unfold num_start in H. rewrite !orb_true_iff, !N.eqb_eq, digit_range in H. unfold c_minus, c_plus, c_dot in H.
      destruct fm; [destruct H as [H|H]; [lia|discriminate]|rewrite N.eqb_eq in H; lia]. }
    assert (Hne : forall k, (x = k -> False) -> (x =? k) = false) by (intros; apply N.eqb_neq; assumption).
    unfold is_ws, punct, c_nl, c_cr, c_tab, c_sp, c_slash, c_colon, c_comma, c_lbr, c_rbr, c_lcur, c_rcur, c_lpar, c_rpar.
    rewrite !Hne by lia. destruct fm; auto.
  Qed.
  Lemma lexes_num buf t : buf <> [] -> num_start fm (cur buf) = true ->
    (forall rest, boundary rest -> exists fl, scan_num (buf ++ rest) = (buf, rest, fl) /\ num_tok F buf fl = Some t) ->
    lexes buf [LP t].
  Proof.
    intros Hne Hs H rest Hr. destruct buf as [|x buf]; [congruence|]. cbn [cur] in Hs.
    destruct (num_start_cases _ Hs) as (H1 & H2 & H3 & H4).
    destruct (H rest Hr) as (fl & E1 & E2).
    assert (Ht : t <> KEof).
    { unfold num_tok in E2. destruct fl; [|destruct (cur _ =? c_minus)].
      - destruct (f64_parse F _); cbn in E2; inversion E2; subst; discriminate.
      - destruct (parse_i64 _); cbn in E2; inversion E2; subst; discriminate.
      - destruct (parse_u64 _); cbn in E2; inversion E2; subst; discriminate. }
    apply lexs_cons; [|congruence]. unfold TextToks.lex1. cbn [app length scan]. rewrite not_ws_drop by assumption.
    cbn [cur tl]. rewrite H2, H3, H4, Hs. cbn [app] in E1. rewrite E1, E2. reflexivity.
  Qed.

  (** sign, digits, fraction, exponent *)
  Lemma scan_num_parts sg ip fr ex rest :
    (sg = [] \/ sg = [c_minus]) -> ip <> [] -> forallb is_digit ip = true ->
    (fr = [] \/ exists d, fr = c_dot :: d /\ forallb is_digit d = true) ->
    (ex = [] \/ exists e s d, ex = e :: s ++ d /\ (e = 101 \/ e = 69) /\ (s = [] \/ s = [c_minus]) /\ d <> [] /\ forallb is_digit d = true) ->
    boundary rest ->
    scan_num (sg ++ ip ++ fr ++ ex ++ rest) =
      (sg ++ ip ++ fr ++ ex, rest, match fr, ex with [], [] => false | _, _ => true end).
  Proof.
    intros Hsg Hip Hdi Hfr Hex Hr. unfold scan_num. unfold str in *.
    assert (Hi0 : exists x r, ip = x :: r /\ 48 <= x <= 57).
    { destruct ip as [|x r]; [congruence|]. cbn [forallb] in Hdi. apply andb_prop in Hdi as [Hd _].
      apply digit_range in Hd. eauto. }
    assert (E0 : (if (cur (sg ++ ip ++ fr ++ ex ++ rest) =? c_minus) || (cur (sg ++ ip ++ fr ++ ex ++ rest) =? c_plus)
                  then ([cur (sg ++ ip ++ fr ++ ex ++ rest)], tl (sg ++ ip ++ fr ++ ex ++ rest))
                  else ([], sg ++ ip ++ fr ++ ex ++ rest)) = (sg, ip ++ fr ++ ex ++ rest)).
    { destruct Hsg as [-> | ->].
      - destruct Hi0 as (x & r & -> & Hx). cbn [app cur tl].
        replace (x =? c_minus) with false by (symmetry; apply N.eqb_neq; unfold c_minus; lia).
        replace (x =? c_plus) with false by (symmetry; apply N.eqb_neq; unfold c_plus; lia). reflexivity.
      - cbn [app cur tl]. reflexivity. }
    rewrite E0. clear E0.
    destruct (boundary_no_num _ Hr) as (B1 & B2 & B3).
    assert (Hex0 : ex ++ rest = [] \/ is_digit (cur (ex ++ rest)) = false).
    { destruct Hex as [->|(e & s & d & -> & He & _)]; [apply boundary_no_digit; assumption|]. right. destruct He as [-> | ->]; reflexivity. }
    assert (Hfr0 : fr ++ ex ++ rest = [] \/ is_digit (cur (fr ++ ex ++ rest)) = false).
    { destruct Hfr as [->|(d & -> & _)]; [assumption|]. right. reflexivity. }
    rewrite (take_while_app is_digit ip _ Hdi Hfr0), (drop_while_app is_digit ip _ Hdi Hfr0).
    match goal with |- context [if cur (fr ++ ex ++ rest) =? c_dot then ?a else ?b] =>
      assert (E1 : (if cur (fr ++ ex ++ rest) =? c_dot then a else b) = (fr, ex ++ rest, match fr with [] => false | _ => true end));
      [|rewrite E1; clear E1]
    end.
    { destruct Hfr as [->|(d & -> & Hd)].
      - cbn [app]. replace (cur (ex ++ rest) =? c_dot) with false; [reflexivity|].
        destruct Hex as [->|(e & s & d & -> & He & _)]; [symmetry; exact B1 | destruct He as [-> | ->]; reflexivity].
      - cbn [app cur tl]. rewrite N.eqb_refl, take_while_app, drop_while_app by assumption. reflexivity. }
    destruct Hex as [->|(e & s & d & -> & He & Hs & Hd1 & Hd2)].
    - cbn [app]. rewrite B2, B3. cbn [orb]. destruct fr; reflexivity.
    - cbn [app cur tl]. replace ((e =? 101) || (e =? 69)) with true by (destruct He as [-> | ->]; reflexivity).
      assert (Hh : (cur ((s ++ d) ++ rest) =? c_minus) = match s with [] => false | _ => true end).
      { destruct Hs as [-> | ->]; [|reflexivity]. destruct d as [|x d]; [congruence|]. cbn [app cur].
        cbn [forallb] in Hd2. apply andb_prop in Hd2 as [Hx _]. apply digit_range in Hx.
        apply N.eqb_neq. unfold c_minus. lia. }
      rewrite Hh.
      destruct Hs as [-> | ->]; cbn [app tl];
        (rewrite take_while_app, drop_while_app by (try assumption; apply boundary_no_digit; assumption));
        destruct fr; reflexivity.
  Qed.

  Lemma lexes_dec n : n < 2 ^ 64 -> lexes (dec n) [LP (KU64 n)].
  Proof.
    intro H. destruct (dec_head n) as (x & r & E & D). apply lexes_num.
    - apply dec_nonempty.
    - rewrite E. cbn [cur]. unfold num_start. rewrite D. rewrite !orb_true_r. reflexivity.
    - intros rest Hr. exists false. split.
      + pose proof (scan_num_parts [] (dec n) [] [] rest (or_introl eq_refl) (dec_nonempty n) (dec_digits n)
          (or_introl eq_refl) (or_introl eq_refl) Hr) as P. cbn [app] in P. rewrite app_nil_r in P. exact P.
      + unfold num_tok. replace (cur (dec n) =? c_minus) with false.
        * rewrite parse_u64_dec by assumption. reflexivity.
        * rewrite E. cbn [cur]. apply digit_range in D. symmetry. apply N.eqb_neq. unfold c_minus. lia.
  Qed.
  Lemma lexes_neg n : n <= 2 ^ 63 -> lexes (c_minus :: dec n) [LP (KI64 (- Z.of_N n))].
  Proof.
    intro H. apply lexes_num.
    - discriminate.
    - reflexivity.
    - intros rest Hr. exists false. split.
      + pose proof (scan_num_parts [c_minus] (dec n) [] [] rest (or_intror eq_refl) (dec_nonempty n) (dec_digits n)
          (or_introl eq_refl) (or_introl eq_refl) Hr) as P. cbn [app] in P. rewrite app_nil_r in P. exact P.
      + unfold num_tok. cbn [cur]. rewrite N.eqb_refl, parse_i64_dec by assumption. reflexivity.
  Qed.

  (** Identifiers *)
  Lemma alpha_cases x : is_alpha x = true -> is_ws x = false /\ (x =? 0) = false /\ (x =? c_slash) = false /\
    punct fm x = None /\ num_start fm x = false.
  Proof.
    intro H. assert (Hx : 65 <= x <= 90 \/ 97 <= x <= 122 \/ x = 95).
    { unfold is_alpha in H. rewrite !orb_true_iff, !andb_true_iff, !N.leb_le, N.eqb_eq in H. lia. }
    assert (Hne : forall k, (x = k -> False) -> (x =? k) = false) by (intros; apply N.eqb_neq; assumption).
    assert (Hd : is_digit x = false).
    { destruct (is_digit x) eqn:E; [|reflexivity]. apply digit_range in E. lia. }
    unfold is_ws, punct, num_start, c_nl, c_cr, c_tab, c_sp, c_slash, c_colon, c_comma, c_lbr, c_rbr, c_lcur, c_rcur, c_lpar, c_rpar, c_minus, c_plus, c_dot.
    rewrite Hd, !Hne by lia. destruct fm; auto.
  Qed.
  Lemma lexes_word id t : id <> [] -> is_alpha (cur id) = true -> forallb (id_char fm) id = true ->
    id_tok fm id KBof = LTok t -> lexes id [t].
  Proof.
    intros Hne Ha Hid Ht rest Hr. destruct id as [|x id]; [congruence|]. cbn [cur] in Ha.
    destruct (alpha_cases _ Ha) as (H1 & H2 & H3 & H4 & H5).
    apply lexs_cons; [|eapply id_tok_not_eof; exact Ht].
    unfold TextToks.lex1. cbn [app length scan]. rewrite not_ws_drop by assumption. cbn [cur tl].
    rewrite H2, H3, H4, H5, Ha.
    rewrite (app_comm_cons id rest x).
    rewrite take_while_app, drop_while_app by (try assumption; apply boundary_no_id; assumption).
    rewrite Ht. reflexivity.
  Qed.

  (** Strings *)
  Lemma hexval_hexdig d : d < 16 -> hexval (hexdig d) = Some d.
  Proof.
    intro H. unfold hexval, hexdig. destruct (d <? 10) eqn:E.
    - apply N.ltb_lt in E. rewrite is_digit_48 by assumption. f_equal. lia.
    - apply N.ltb_ge in E. replace (is_digit (87 + d)) with false.
      + replace (97 <=? 87 + d) with true by (symmetry; apply N.leb_le; lia).
        replace (87 + d <=? 102) with true by (symmetry; apply N.leb_le; lia). cbn [andb]. f_equal. lia.
      + symmetry. destruct (is_digit (87 + d)) eqn:E2; [|reflexivity]. apply digit_range in E2. lia.
  Qed.
  Lemma xdigits_hex4 n rest : n < 65536 -> xdigits 4 0 (hex4 n ++ rest) = (rest, Some n).
  Proof.
    intro H. unfold hex4. cbn [app xdigits cur tl].
    rewrite !hexval_hexdig by (apply N.mod_lt; lia). cbn [xdigits cur tl].
    f_equal. f_equal.
    pose proof (N.div_mod n 16 ltac:(lia)).
    pose proof (N.div_mod (n / 16) 16 ltac:(lia)).
    pose proof (N.div_mod (n / 256) 16 ltac:(lia)).
    assert (E1 : n / 256 = n / 16 / 16) by (rewrite N.div_div by lia; reflexivity).
    assert (E2 : n / 4096 = n / 256 / 16) by (rewrite N.div_div by lia; reflexivity).
    assert (E3 : (n / 4096) mod 16 = n / 4096).
    { apply N.mod_small. apply N.div_lt_upper_bound; lia. }
    rewrite E3. lia.
  Qed.
  Lemma hex_unescape_hex4 n rest : n < 0xd800 -> hex_unescape (hex4 n ++ rest) = (rest, Some n).
  Proof.
    intro H. unfold hex_unescape. rewrite xdigits_hex4 by lia.
    replace (n <? 0xd800) with true by (symmetry; apply N.ltb_lt; assumption). reflexivity.
  Qed.

  Definition addc (c : N) (r : str * option str) : str * option str :=
    match r with (l, Some s) => (l, Some (c :: s)) | e => e end.
  Ltac fin := cbn; unfold addc; match goal with |- context [scan_str ?n ?r] => destruct (scan_str n r) as [? [?|]]; reflexivity end.
  Lemma scan_str_esc x n rest : scan_str (S n) (esc_char fm x ++ rest) = addc x (scan_str n rest).
  Proof.
    assert (Hraw : (x =? c_quote) = false -> (x =? c_bslash) = false -> (x =? 0) = false ->
              scan_str (S n) ([x] ++ rest) = addc x (scan_str n rest)).
    { intros A B C. cbn [app scan_str]. rewrite A, B, C. fin. }
    assert (Hd : forall k, (x =? k) = true -> x = k) by (intros; apply N.eqb_eq; assumption).
    unfold esc_char. destruct fm.
    - destruct (x =? 8) eqn:E1; [rewrite (Hd _ E1); fin|].
      destruct (x =? 12) eqn:E2; [rewrite (Hd _ E2); fin|].
      destruct (x =? 10) eqn:E3; [rewrite (Hd _ E3); fin|].
      destruct (x =? 13) eqn:E4; [rewrite (Hd _ E4); fin|].
      destruct (x =? 9) eqn:E5; [rewrite (Hd _ E5); fin|].
      destruct ((x <? 32) || (x =? 127)) eqn:E6.
      + assert (Hx : x < 0xd800) by (rewrite orb_true_iff, N.ltb_lt, N.eqb_eq in E6; lia).
        change (chars "\u") with [c_bslash; 117]. cbn [app].
        cbn [scan_str cur tl]. change (c_bslash =? c_quote) with false. rewrite N.eqb_refl.
        change (117 =? 0) with false. cbn iota. rewrite hex_unescape_hex4 by assumption. fin.
      + destruct (x =? c_bslash) eqn:E7; [rewrite (Hd _ E7); fin|].
        destruct (x =? c_quote) eqn:E8; [rewrite (Hd _ E8); fin|].
        apply Hraw; auto. apply N.eqb_neq. rewrite orb_false_iff, N.ltb_ge in E6. lia.
    - destruct (x =? 10) eqn:E3; [rewrite (Hd _ E3); fin|].
      destruct (x =? 13) eqn:E4; [rewrite (Hd _ E4); fin|].
      destruct (x =? 9) eqn:E5; [rewrite (Hd _ E5); fin|].
      destruct (x =? 0) eqn:E6; [rewrite (Hd _ E6); fin|].
      destruct (x =? c_bslash) eqn:E7; [rewrite (Hd _ E7); fin|].
      destruct (x =? c_quote) eqn:E8; [rewrite (Hd _ E8); fin|].
      apply Hraw; auto.
  Qed.
  Lemma scan_str_quote n rest : scan_str (S n) (c_quote :: rest) = (rest, Some []).
  Proof. reflexivity. Qed.
  Lemma esc_nonempty x : (1 <= length (esc_char fm x))%nat.
  Proof.
    unfold esc_char. destruct fm; repeat match goal with |- context [if ?b then _ else _] => destruct b end; simpl; lia.
  Qed.
  Lemma scan_str_escs s n rest : (length s < n)%nat ->
    scan_str n (flat_map (esc_char fm) s ++ c_quote :: rest) = (rest, Some s).
  Proof.
    revert n; induction s as [|x s IH]; intros n Hn.
    - destruct n; [lia|]. apply scan_str_quote.
    - destruct n as [|n]; [simpl in Hn; lia|]. cbn [flat_map]. rewrite <- app_assoc, scan_str_esc.
      rewrite IH by (simpl in Hn; lia). reflexivity.
  Qed.
  Lemma esc_length s : (length s <= length (flat_map (esc_char fm) s))%nat.
  Proof.
    induction s as [|x s IH]; simpl; [lia|]. rewrite app_length. pose proof (esc_nonempty x). lia.
  Qed.

  Lemma lex_quote body s rest : scan_str (length (body ++ c_quote :: rest)) (body ++ c_quote :: rest) = (rest, Some s) ->
    lex1 (c_quote :: body ++ c_quote :: rest) = (rest, Some (LStr s)).
  Proof.
    intro H. unfold TextToks.lex1. cbn [length scan].
    rewrite not_ws_drop by reflexivity. cbn [cur tl].
    change (c_quote =? 0) with false. change (c_quote =? c_slash) with false.
    replace (punct fm c_quote) with (@None tok) by (destruct fm; reflexivity).
    replace (num_start fm c_quote) with false by (destruct fm; reflexivity).
    change (is_alpha c_quote) with false. rewrite N.eqb_refl. cbn iota. rewrite H. reflexivity.
  Qed.

  Lemma lexes_str s : lexes_any (esc_str fm s) [LStr s].
  Proof.
    intro rest. unfold esc_str. cbn [app]. rewrite <- app_assoc. cbn [app].
    apply lexs_cons; [|discriminate]. apply lex_quote. apply scan_str_escs.
    rewrite app_length. pose proof (esc_length s). simpl. lia.
  Qed.

  (** A quoted name without characters that need escaping. *)
  Definition plain (c : N) : bool := negb ((c =? c_quote) || (c =? c_bslash) || (c =? 0)).
  Lemma scan_str_plain s n rest : forallb plain s = true -> (length s < n)%nat ->
    scan_str n (s ++ c_quote :: rest) = (rest, Some s).
  Proof.
    revert n; induction s as [|x s IH]; intros n Hp Hn.
    - destruct n; [lia|]. apply scan_str_quote.
    - destruct n as [|n]; [simpl in Hn; lia|]. cbn [forallb] in Hp. apply andb_prop in Hp as [Hx Hp].
      unfold plain in Hx. rewrite negb_true_iff, !orb_false_iff in Hx. destruct Hx as [[X1 X2] X3].
      cbn [app scan_str]. rewrite X1, X2, X3, IH by (simpl in Hn; auto; lia). reflexivity.
  Qed.
  Lemma lexes_plain s : forallb plain s = true -> lexes_any (c_quote :: s ++ [c_quote]) [LStr s].
  Proof.
    intros Hp rest. cbn [app]. rewrite <- app_assoc. cbn [app].
    apply lexs_cons; [|discriminate]. apply lex_quote. apply scan_str_plain; [assumption|].
    rewrite app_length. simpl. lia.
  Qed.
End Lexes.
