(** The TOML reader on documents of the grammar of SpecToml.v. *)
From Verif Require Import Base Utf8 Types Text TextModel TextToks TextLex SpecText SpecGram TextGram TomlModel SpecToml.
Local Open Scope N_scope.

Lemma digits_snoc d x : digits_val (d ++ [x]) = 10 * digits_val d + (x - 48).
Proof. unfold digits_val. rewrite fold_left_app. reflexivity. Qed.
Lemma digits_pos d : Forall (fun x => 48 <= x <= 57) d -> d <> [] -> cur d <> 48 -> 0 < digits_val d.
Proof.
  intro H. induction d as [|x d IH] using rev_ind; [congruence|]. intros _ Hc. rewrite digits_snoc. apply Forall_app in H as [H1 H2]. inversion H2; subst.
  destruct d as [|y d]; [cbn [app cur] in Hc; lia|]. specialize (IH H1 ltac:(discriminate) Hc). lia.
Qed.
Lemma digits_inj a : forall b, Forall (fun x => 48 <= x <= 57) a -> Forall (fun x => 48 <= x <= 57) b ->
  (a = [] \/ cur a <> 48) -> (b = [] \/ cur b <> 48) -> digits_val a = digits_val b -> a = b.
Proof.
  induction a as [|x a IH] using rev_ind; intros b Ha Hb Ca Cb E.
  - destruct Cb as [-> |Cb]; [reflexivity|]. destruct b as [|y b]; [reflexivity|]. pose proof (digits_pos (y :: b) Hb ltac:(discriminate) Cb).
    cbn [digits_val fold_left] in E. unfold digits_val in *. cbn in E, H. lia.
  - destruct Ca as [Ca|Ca]; [destruct a; discriminate|].
    assert (0 < digits_val (a ++ [x])) by (apply digits_pos; [assumption | destruct a; discriminate | assumption]).
    destruct Cb as [-> |Cb]; [rewrite E in H; cbn in H; lia|].
    destruct b as [|y b _] using rev_ind; [rewrite E in H; cbn in H; lia|].
    rewrite !digits_snoc in E. apply Forall_app in Ha as [Ha1 Ha2]. apply Forall_app in Hb as [Hb1 Hb2]. inversion Ha2; inversion Hb2; subst.
    assert (X : digits_val a = digits_val b /\ x = y) by lia. destruct X as [X ->]. f_equal. apply IH; try assumption.
    + destruct a; [auto | right; exact Ca].
    + destruct b; [auto | right; exact Cb].
Qed.
Lemma dec_decimal d : all_digits d -> no_leading_zero d -> dec (decimal d) = d.
Proof.
  intros [Hn Hd] Hz. rewrite decimal_val. destruct Hz as [-> |Hz]; [reflexivity|].
  assert (Cd : cur d <> 48) by (destruct d as [|x r]; [congruence|]; cbn [cur]; intros ->; apply (Hz r); reflexivity).
  pose proof (digits_pos d Hd Hn Cd) as Hp.
  apply digits_inj; [|exact Hd| |auto|apply dec_val].
  - apply Forall_forall. intros x Hx. pose proof (dec_digits (digits_val d)) as H. rewrite forallb_forall in H. apply H in Hx. unfold is_digit in Hx. lia.
  - right. destruct (dec_nozero (digits_val d)) as [E|E]; [|exact E]. pose proof (dec_val (digits_val d)) as V. rewrite E in V. cbn in V. lia.
Qed.

Section Tokens.
  Variable F : flt.
  (** From [l] the token [t] is read and [r] is left. *)
  Definition reads (l : str) (t : ttok) (r : str) : Prop :=
    forall n, (length l < n)%nat -> q_scan F n l = (r, inl t).

  Lemma scan_ws n x l : ws_char x -> q_scan F n (x :: l) = q_scan F n l \/ n = O.
  Proof.
    intro H. destruct n; [auto|]. left. cbn [q_scan drop_while]. replace (is_ws x) with true; [reflexivity|].
    symmetry. unfold is_ws. destruct H as [-> | [-> | [-> | ->]]]; reflexivity.
  Qed.
  Lemma drop_comment body r : Forall (fun x => x <> 10 /\ x <> 0) body -> r = [] \/ cur r = 10 ->
    drop_while (fun c => negb (c =? c_nl) && negb (c =? 0)) (35 :: body ++ r) = r.
  Proof.
    intros H Hr. change (35 :: body ++ r) with ((35 :: body) ++ r). apply drop_while_app.
    - cbn [forallb]. apply andb_true_intro. split; [reflexivity|]. apply forallb_forall. rewrite Forall_forall in H. intros x Hx. apply H in Hx.
      unfold c_nl. lia.
    - destruct Hr as [-> |Hr]; [auto|]. right. rewrite Hr. reflexivity.
  Qed.
  Lemma scan_comment n body r : Forall (fun x => x <> 10 /\ x <> 0) body -> r = [] \/ cur r = 10 ->
    q_scan F (S n) (35 :: body ++ r) = q_scan F n r.
  Proof.
    intros H Hr. cbn [q_scan]. change (drop_while is_ws (35 :: body ++ r)) with (35 :: body ++ r). cbn [cur].
    change (35 =? 0) with false. change (35 =? c_comma) with false. change (35 =? c_lbr) with false. change (35 =? c_rbr) with false.
    change (35 =? c_eq) with false. change (35 =? c_hash) with true. cbv iota. rewrite drop_comment by assumption. reflexivity.
  Qed.
  Lemma reads_gap g l t r : tgap g -> reads l t r -> reads (g ++ l) t r.
  Proof.
    intros Hg H. induction Hg as [|x g Hx Hg IH|body g Hb Hg IH]; [exact H| |].
    - intros n Hn. cbn [app length] in *. destruct (scan_ws n x (g ++ l) Hx) as [-> | ->]; [|lia]. apply IH. lia.
    - intros n Hn. cbn [app length] in *. rewrite <- app_assoc in *. cbn [app] in *. rewrite app_length in Hn. cbn [length] in Hn.
      destruct n as [|n]; [lia|]. rewrite scan_comment by auto.
      destruct (scan_ws n 10 (g ++ l) ltac:(right; right; left; reflexivity)) as [-> | ->]; [|lia]. apply IH. lia.
  Qed.
  Lemma blanks_gap s : blanks s -> tgap s.
  Proof. induction 1 as [|x s Hx H IH]; constructor; [|exact IH]. unfold ws_char. tauto. Qed.
  Lemma reads_punct x t r :
    (x = 44 /\ t = QComma) \/ (x = 91 /\ t = QOpen) \/ (x = 93 /\ t = QClose) \/ (x = 61 /\ t = QEq) -> reads (x :: r) t r.
  Proof.
    intros H n Hn. destruct n; [lia|]. destruct H as [[-> ->] | [[-> ->] | [[-> ->] | [-> ->]]]]; reflexivity.
  Qed.
  Lemma reads_eof : reads [] QEof [].
  Proof. intros n Hn. destruct n; [lia|]. reflexivity. Qed.

  (** Words *)
  Definition more (c : N) : bool := q_ident c || (c =? c_dot).
  Lemma term_stop r : r = [] \/ q_term (cur r) = true -> r = [] \/ more (cur r) = false.
  Proof.
    intros [H|H]; [auto|]. right. unfold q_term in H. unfold more.
    assert (X : cur r = 32 \/ cur r = 9 \/ cur r = 13 \/ cur r = 10 \/ cur r = 0 \/ cur r = 61 \/ cur r = c_rbr) by lia.
    destruct X as [-> | [-> | [-> | [-> | [-> | [-> | ->]]]]]]; reflexivity.
  Qed.
  Lemma term_cur r : r = [] \/ q_term (cur r) = true -> q_term (cur r) = true.
  Proof. intros [-> |H]; [reflexivity | exact H]. Qed.
  Definition word_tok (w : str) : ttok :=
    if str_eqb w (chars "true") then QBool true
    else if str_eqb w (chars "false") then QBool false
    else if str_eqb w (chars "inf") then QInf false
    else if str_eqb w (chars "nan") then QNan false
    else QIdent w.
  Lemma q_word_app st w r : forallb more w = true -> r = [] \/ q_term (cur r) = true ->
    q_word st (w ++ r) = (r, inl (word_tok (st ++ w))).
  Proof.
    intros Hw Hr. unfold q_word. fold more. rewrite take_while_app, drop_while_app by (auto using term_stop).
    rewrite (term_cur r Hr). reflexivity.
  Qed.
  (** The branches of [next_tok] before words and numbers do not apply. *)
  Definition plain (x : N) : bool :=
    negb (is_ws x) && negb (x =? 0) && negb (x =? c_comma) && negb (x =? c_lbr) && negb (x =? c_rbr) && negb (x =? c_eq) && negb (x =? c_hash).
  Lemma scan_plain n x r : plain x = true -> q_scan F (S n) (x :: r) =
    if (x =? c_plus) || (x =? c_minus) || is_digit x then q_num F (x :: r)
    else if x =? c_quote then q_string r
    else if q_ident x then q_word [] (x :: r)
    else (x :: r, inr (chars "tokenizer")).
  Proof.
    unfold plain. intro H. repeat (apply andb_prop in H as [H ?]). cbn [q_scan drop_while].
    destruct (is_ws x); [discriminate|]. cbn [cur tl].
    destruct (x =? 0); [discriminate|]. destruct (x =? c_comma); [discriminate|]. destruct (x =? c_lbr); [discriminate|].
    destruct (x =? c_rbr); [discriminate|]. destruct (x =? c_eq); [discriminate|]. destruct (x =? c_hash); [discriminate|]. reflexivity.
  Qed.
  Lemma ident_plain x : q_ident x = true -> plain x = true /\ (x =? c_plus) = false /\ (x =? c_quote) = false.
  Proof.
    intro H.
    assert (X : forall y, q_ident y = false -> (x =? y) = false) by (intros y Hy; apply N.eqb_neq; intros ->; congruence).
    unfold plain, is_ws, c_nl, c_cr, c_tab, c_sp, c_comma, c_lbr, c_rbr, c_eq, c_hash, c_plus, c_quote.
    rewrite !X by reflexivity. auto.
  Qed.
  Lemma reads_word x w r : q_ident x = true -> is_digit x = false -> x <> 45 -> forallb more w = true ->
    r = [] \/ q_term (cur r) = true -> reads ((x :: w) ++ r) (word_tok (x :: w)) r.
  Proof.
    intros Hx Hd Hm Hw Hr n Hn. destruct n; [lia|]. destruct (ident_plain x Hx) as (H1 & H2 & H3). cbn [app]. rewrite scan_plain by exact H1.
    rewrite H2, H3, Hx, Hd. unfold c_minus. rewrite (proj2 (N.eqb_neq x 45) Hm). cbn [orb].
    change (x :: w ++ r) with ((x :: w) ++ r). rewrite q_word_app; [reflexivity| |exact Hr]. cbn [forallb]. rewrite Hw. unfold more. rewrite Hx. reflexivity.
  Qed.

  (** Strings *)
  Lemma body_single b s : tchars b s -> forall n r, (length (b ++ 34%N :: r) < n)%nat -> q_body n false (b ++ 34 :: r) = (34 :: r, Some s).
  Proof.
    induction 1 as [|x t s H1 H2 H3 H IH|x t s H1 H IH]; intros n r Hn; (destruct n as [|n]; [cbn in Hn; lia|]).
    - reflexivity.
    - cbn [app q_body cur tl length] in *. unfold c_quote, c_bslash. rewrite (proj2 (N.eqb_neq x 34) H1), (proj2 (N.eqb_neq x 92) H2), (proj2 (N.eqb_neq x 0) H3).
      cbn [andb]. rewrite IH by lia. reflexivity.
    - cbn [app q_body cur tl length] in *. change (92 =? c_quote) with false. change (92 =? c_bslash) with true. cbn [andb].
      rewrite IH by lia. reflexivity.
  Qed.
  Lemma reads_string b s r : tchars b s -> b <> [] -> reads ((34 :: b ++ [34]) ++ r) (QStr s) r.
  Proof.
    intros H Hb n Hn. destruct n; [lia|]. cbn [app]. rewrite scan_plain by reflexivity.
    change ((34 =? c_plus) || (34 =? c_minus) || is_digit 34) with false. change (34 =? c_quote) with true. cbv iota.
    rewrite <- app_assoc. cbn [app]. unfold q_string.
    assert (E : (cur (b ++ 34 :: r) =? c_quote) = false).
    { inversion H; subst; [congruence | cbn [app cur]; apply N.eqb_neq; assumption | reflexivity]. }
    rewrite E. rewrite (body_single b s H) by lia. reflexivity.
  Qed.

  (** Numbers *)
  Definition num_ends (r : str) : Prop := r = [] \/ (q_ident (cur r) = false /\ cur r <> 46).
  Lemma num_ends_us r : num_ends r -> r = [] \/ dig_us (cur r) = false.
  Proof.
    intros [H|[H _]]; [auto|]. right. unfold dig_us, is_digit, c_us. unfold q_ident, within in H. lia.
  Qed.
  Lemma dig_us_all u : Forall (fun x => 48 <= x <= 57 \/ x = 95) u -> forallb dig_us u = true.
  Proof. intro H. apply forallb_forall. rewrite Forall_forall in H. intros x Hx. apply H in Hx. unfold dig_us, is_digit, c_us. lia. Qed.
  (** What [parse_num] does after the sign, on digits. *)
  Definition num_after (neg : bool) (num l2 : str) : qout :=
    if cur l2 =? c_dot then
      (drop_while dig_us (tl l2), match f64_parse F (num ++ c_dot :: q_digits (tl l2)) with
           | Some b => inl (QF64 b)
           | None => inr (chars "number")
           end)
    else if cur l2 =? c_minus then
      let date := fun c => is_digit c || (c =? c_colon) || (c =? c_minus) || (c =? 84) in
      (drop_while date (tl l2), inl (QDate (num ++ c_minus :: take_while date (tl l2))))
    else if q_ident (cur l2) then q_word num l2
    else (l2, match neg, q_i64 num with
              | true, Some z => inl (QI64 z)
              | false, Some z => inl (QU64 (Z.to_N z))
              | _, None => inr (chars "tokenizer")
              end).
  Lemma q_num_digits sg neg x u r : sign sg neg -> 48 <= x <= 57 ->
    Forall (fun x => 48 <= x <= 57 \/ x = 95) u -> (r = [] \/ dig_us (cur r) = false) ->
    q_num F (sg ++ (x :: u) ++ r) = num_after neg (minus neg ++ filter (fun x => negb (x =? 95)) (x :: u)) r.
  Proof.
    intros Hs Hx Hu Hr. unfold q_num.
    assert (E1 : (cur (sg ++ (x :: u) ++ r) =? c_minus) = neg).
    { destruct Hs as [[-> ->] | [[-> ->] | [-> ->]]]; cbn [app cur]; unfold c_minus; try reflexivity. apply N.eqb_neq. lia. }
    rewrite E1.
    assert (E2 : (if neg || (cur (sg ++ (x :: u) ++ r) =? c_plus) then tl (sg ++ (x :: u) ++ r) else sg ++ (x :: u) ++ r) = (x :: u) ++ r).
    { destruct Hs as [[-> ->] | [[-> ->] | [-> ->]]]; cbn [app cur orb tl]; try reflexivity. unfold c_plus. rewrite (proj2 (N.eqb_neq x 43)) by lia. reflexivity. }
    rewrite E2. cbn [app cur]. rewrite (proj2 (N.eqb_neq x 110)), (proj2 (N.eqb_neq x 105)) by lia. cbv iota. cbn [q_eat andb].
    change (x :: u ++ r) with ((x :: u) ++ r).
    assert (Hall : forallb dig_us (x :: u) = true) by (apply dig_us_all; constructor; auto).
    assert (Ed : q_digits ((x :: u) ++ r) = filter (fun c => negb (c =? c_us)) (x :: u)).
    { unfold q_digits. rewrite take_while_app by assumption. reflexivity. }
    rewrite Ed. rewrite drop_while_app by assumption. reflexivity.
  Qed.
  Lemma sign_start sg neg x l : sign sg neg -> 48 <= x <= 57 \/ sg <> [] -> exists y l', sg ++ x :: l = y :: l' /\ plain y = true /\
    (y =? c_plus) || (y =? c_minus) || is_digit y = true.
  Proof.
    intros Hs Hx. destruct Hs as [[-> ->] | [[-> ->] | [-> ->]]]; cbn [app]; eexists; eexists; (split; [reflexivity|]); try (split; reflexivity).
    destruct Hx as [Hx|Hx]; [|congruence]. unfold plain, is_ws, is_digit, c_nl, c_cr, c_tab, c_sp, c_comma, c_lbr, c_rbr, c_eq, c_hash, c_plus, c_minus. lia.
  Qed.
  Lemma scan_num n sg neg x l : sign sg neg -> 48 <= x <= 57 \/ sg <> [] -> q_scan F (S n) (sg ++ x :: l) = q_num F (sg ++ x :: l).
  Proof.
    intros Hs Hx. destruct (sign_start sg neg x l Hs Hx) as (y & l' & -> & Hp & Hn). rewrite scan_plain by exact Hp. rewrite Hn. reflexivity.
  Qed.
  Lemma spread_digits d u : spread d u -> forallb is_digit d = true.
  Proof.
    intros [H ->]. induction H as [|x u Hx H IH]; [reflexivity|]. cbn [filter]. destruct (N.eqb_spec x 95); cbn [negb]; [exact IH|].
    cbn [forallb]. rewrite IH. unfold is_digit. lia.
  Qed.
  Lemma reads_num sg neg d u r t : sign sg neg -> number_of d u -> (r = [] \/ dig_us (cur r) = false) ->
    forall r', num_after neg (minus neg ++ d) r = (r', inl t) -> reads (sg ++ u ++ r) t r'.
  Proof.
    intros Hs [[Hu ->] (x & u' & -> & Hx)] Hr r' E n Hn. destruct n; [lia|]. cbn [app].
    rewrite (scan_num n sg neg x (u' ++ r) Hs (or_introl Hx)). inversion Hu; subst.
    change (sg ++ x :: u' ++ r) with (sg ++ (x :: u') ++ r). rewrite (q_num_digits sg neg x u' r Hs Hx) by assumption. exact E.
  Qed.
  Lemma after_int neg num r : num_ends r -> num_after neg num r =
    (r, match neg, q_i64 num with
        | true, Some z => inl (QI64 z)
        | false, Some z => inl (QU64 (Z.to_N z))
        | _, None => inr (chars "tokenizer")
        end).
  Proof.
    intros Hr. unfold num_after.
    assert (E : (cur r =? c_dot) = false /\ (cur r =? c_minus) = false /\ q_ident (cur r) = false).
    { destruct Hr as [-> |[H1 H2]]; [repeat split|]. split; [apply N.eqb_neq; exact H2|]. split; [|exact H1].
      apply N.eqb_neq. intro E. rewrite E in H1. discriminate. }
    destruct E as (-> & -> & ->). reflexivity.
  Qed.
  Lemma num_first d u : number_of d u -> exists x r, d = x :: r /\ 48 <= x <= 57.
  Proof.
    intros [[Hu ->] (x & u' & -> & Hx)]. cbn [filter]. rewrite (proj2 (N.eqb_neq x 95)) by lia. cbn [negb]. eauto.
  Qed.
  Lemma reads_int sg neg d u r : sign sg neg -> number_of d u -> num_ends r ->
    (if neg then decimal d <= 2 ^ 63 else decimal d < 2 ^ 63) ->
    reads (sg ++ u ++ r) (if neg then QI64 (- Z.of_N (decimal d)) else QU64 (decimal d)) r.
  Proof.
    intros Hs Hd Hr Hv. apply (reads_num sg neg d u r _ Hs Hd (num_ends_us r Hr)). rewrite after_int by exact Hr.
    destruct (num_first d u Hd) as (x & d' & -> & Hx). pose proof (spread_digits _ _ (proj1 Hd)) as Hall.
    rewrite decimal_val in *. destruct neg; cbn [minus app].
    - assert (E : q_i64 (45 :: x :: d') = Some (- Z.of_N (digits_val (x :: d')))%Z).
      { unfold q_i64. change (45 =? c_minus) with true. cbv iota. unfold parse_i64. change (45 =? c_minus) with true.
        rewrite Hall. rewrite (proj2 (N.leb_le _ _) Hv). reflexivity. }
      rewrite E. reflexivity.
    - assert (E : q_i64 (x :: d') = Some (Z.of_N (digits_val (x :: d')))).
      { unfold q_i64. unfold c_minus. rewrite (proj2 (N.eqb_neq x 45)) by lia. rewrite Hall. rewrite (proj2 (N.ltb_lt _ _) Hv). reflexivity. }
      rewrite E. rewrite N2Z.id. reflexivity.
  Qed.
  Lemma reads_float sg neg d u e w b r : sign sg neg -> number_of d u -> spread e w -> num_ends r ->
    f64_parse F (minus neg ++ d ++ 46 :: e) = Some b -> reads ((sg ++ u ++ 46 :: w) ++ r) (QF64 b) r.
  Proof.
    intros Hs Hd He Hr Hb. rewrite <- !app_assoc. cbn [app]. apply (reads_num sg neg d u (46 :: w ++ r) _ Hs Hd ltac:(right; reflexivity)).
    unfold num_after. cbn [cur tl]. change (46 =? c_dot) with true. cbv iota. destruct He as [Hw ->].
    assert (Hall : forallb dig_us w = true) by (apply dig_us_all; exact Hw).
    unfold q_digits. rewrite take_while_app, drop_while_app by (auto using num_ends_us). rewrite <- app_assoc. unfold c_dot, c_us. rewrite Hb. reflexivity.
  Qed.
  Lemma digits_number d : all_digits d -> number_of d d.
  Proof.
    intros [Hn H]. split; [split|].
    - eapply Forall_impl; [|exact H]. cbn. auto.
    - clear Hn. induction H as [|x d Hx H IH]; [reflexivity|]. cbn [filter]. rewrite (proj2 (N.eqb_neq x 95)) by lia. cbn [negb]. congruence.
    - destruct H as [|x d Hx H]; [congruence|]. eauto.
  Qed.
  Lemma reads_date d w r : all_digits d -> Forall date_char w -> num_ends r -> cur r <> 58 ->
    reads ((d ++ 45 :: w) ++ r) (QDate (d ++ 45 :: w)) r.
  Proof.
    intros Hd Hw Hr Hc. rewrite <- app_assoc. cbn [app].
    apply (reads_num [] false d d (45 :: w ++ r) _ ltac:(left; auto) (digits_number d Hd) ltac:(right; reflexivity)).
    unfold num_after. cbn [cur tl]. change (45 =? c_dot) with false. change (45 =? c_minus) with true. cbv iota zeta.
    rewrite take_while_app, drop_while_app; [reflexivity| | | |].
    all: try (apply forallb_forall; rewrite Forall_forall in Hw; intros x Hx; apply Hw in Hx; unfold date_char, is_digit, c_colon, c_minus in *; lia).
    all: destruct Hr as [-> |[H1 H2]]; [auto|]; right; unfold q_ident, within in H1; unfold is_digit, c_colon, c_minus; lia.
  Qed.
  Lemma reads_mixed d x w r : all_digits d -> q_ident x = true -> is_digit x = false -> x <> 45 -> x <> 95 -> forallb more w = true ->
    r = [] \/ q_term (cur r) = true -> reads ((d ++ x :: w) ++ r) (word_tok (d ++ x :: w)) r.
  Proof.
    intros Hd Hx Hdg Hm Hus Hw Hr. rewrite <- app_assoc. cbn [app].
    apply (reads_num [] false d d (x :: w ++ r) _ ltac:(left; auto) (digits_number d Hd)).
    { right. cbn [cur]. unfold dig_us. rewrite Hdg. unfold c_us. rewrite (proj2 (N.eqb_neq x 95) Hus). reflexivity. }
    unfold num_after. cbn [cur]. assert (x <> 46) by (intros ->; discriminate). unfold c_dot, c_minus.
    rewrite (proj2 (N.eqb_neq x 46)), (proj2 (N.eqb_neq x 45) Hm) by assumption. rewrite Hx. cbn [minus app].
    change (x :: w ++ r) with ((x :: w) ++ r). apply q_word_app; [|exact Hr]. cbn [forallb]. rewrite Hw. unfold more. rewrite Hx. reflexivity.
  Qed.
  (** Signed words *)
  Lemma reads_signed sg neg (isnan : bool) r : sign sg neg -> sg <> [] -> r = [] \/ q_term (cur r) = true ->
    reads ((sg ++ (if isnan then chars "nan" else chars "inf")) ++ r) (if isnan then QNan neg else QInf neg) r.
  Proof.
    intros Hs Hn Hr n Hl. destruct n; [lia|]. rewrite <- app_assoc.
    assert (E : exists x l, (if isnan then chars "nan" else chars "inf") ++ r = x :: l) by (destruct isnan; cbn; eauto).
    destruct E as (x & l & E). rewrite E. rewrite (scan_num n sg neg x l Hs (or_intror Hn)). rewrite <- E.
    destruct Hs as [[-> _] | [[-> ->] | [-> ->]]]; [congruence| |]; destruct isnan; unfold q_num; cbn; rewrite (term_cur r Hr); reflexivity.
  Qed.

  (** ** Values *)
  Lemma ends_num r : follows NumEnd r -> num_ends r /\ cur r <> 58.
  Proof.
    cbn [follows]. intros [-> |H]; [split; [left; reflexivity | discriminate]|].
    cbn [In] in H. destruct H as [H|[H|[H|[H|[H|[H|[H|[H|[]]]]]]]]]; rewrite <- H; (split; [right; split; [rewrite <- H; reflexivity | rewrite <- H; discriminate] | discriminate]).
  Qed.
  Lemma ends_word r : follows WordEnd r -> r = [] \/ q_term (cur r) = true.
  Proof.
    cbn [follows]. intros [-> |H]; [left; reflexivity|]. right.
    cbn [In] in H. destruct H as [H|[H|[H|[H|[H|[H|[]]]]]]]; rewrite <- H; reflexivity.
  Qed.
  Lemma term_num r : r = [] \/ q_term (cur r) = true -> num_ends r /\ cur r <> 58.
  Proof.
    intros [-> |H]; [split; [left; reflexivity | discriminate]|]. unfold q_term in H.
    assert (X : cur r = 32 \/ cur r = 9 \/ cur r = 13 \/ cur r = 10 \/ cur r = 0 \/ cur r = 61 \/ cur r = 93) by (unfold c_rbr in H; lia).
    unfold num_ends. destruct X as [-> | [-> | [-> | [-> | [-> | [-> | ->]]]]]]; (split; [right; split; [reflexivity | discriminate] | discriminate]).
  Qed.
  Lemma next_reads l t r ln : reads l t r -> exists ln', q_next F {| q_inp := l; q_ln := ln |} = ({| q_inp := r; q_ln := ln' |}, Ok t).
  Proof. intro H. unfold q_next. cbn [q_inp q_ln]. rewrite H by lia. eauto. Qed.
  Lemma bind_reads {A} (f : ttok -> qm A) l t r ln : reads l t r ->
    exists ln', qbind (q_next F) f {| q_inp := l; q_ln := ln |} = f t {| q_inp := r; q_ln := ln' |}.
  Proof. intro H. destruct (next_reads l t r ln H) as [ln' E]. exists ln'. unfold qbind. rewrite E. reflexivity. Qed.

  (** [t] is the first token of a value [v]; after it [l] is left, after the value [r]. *)
  Definition vtok (t : ttok) : Prop := t <> QClose /\ t <> QEof /\ t <> QComma.
  Definition val_at (t : ttok) (l : str) (v : toml) (r : str) : Prop :=
    exists N, forall n, (N <= n)%nat -> forall ln, exists ln', q_val F n t {| q_inp := l; q_ln := ln |} = ({| q_inp := r; q_ln := ln' |}, Ok v).
  Definition vreads (l : str) (v : toml) (r : str) : Prop := exists t l1, reads l t l1 /\ vtok t /\ val_at t l1 v r.
  Definition lreads (l : str) (vs : list toml) (r : str) : Prop :=
    exists N, forall n m, (N <= n)%nat -> (N <= m)%nat -> forall ln, exists ln',
      q_vals F (q_val F m) n {| q_inp := l; q_ln := ln |} = ({| q_inp := r; q_ln := ln' |}, Ok vs).
  Lemma vreads_one l t r v : reads l t r -> vtok t -> (forall n ln, q_val F (S n) t {| q_inp := r; q_ln := ln |} = ({| q_inp := r; q_ln := ln |}, Ok v)) -> vreads l v r.
  Proof.
    intros H Ht Hv. exists t, r. split; [exact H|]. split; [exact Ht|]. exists 1%nat. intros [|n] Hn ln; [lia|]. exists ln. apply Hv.
  Qed.
  Lemma vreads_gap g l v r : tgap g -> vreads l v r -> vreads (g ++ l) v r.
  Proof. intros Hg (t & l1 & H & Ht & Hv). exists t, l1. split; [apply reads_gap; assumption|]. auto. Qed.
  Ltac tok := repeat split; discriminate.
  Lemma follow_app k a b : follows k (a ++ [b]) -> forall r, follows k (a ++ b :: r).
  Proof.
    intros H r. assert (E : cur (a ++ b :: r) = cur (a ++ [b])) by (destruct a; reflexivity).
    assert (N : a ++ [b] <> []) by (destruct a; discriminate).
    destruct k; cbn [follows] in *; [exact I| |]; destruct H as [H|H]; try contradiction; right; rewrite E; exact H.
  Qed.
  Lemma value_reads :
    (forall x v k, tvalue F x v k -> forall r, follows k r -> vreads (x ++ r) v r) /\
    (forall s l, titems F s l -> forall r, lreads (s ++ 93 :: r) l r).
  Proof.
    apply tvalue_mutind.
    - intros b s H Hb r _. apply (vreads_one _ (QStr s)); [apply reads_string; assumption | tok | reflexivity].
    - intros r Hr. apply (vreads_one _ (QBool true)); [|tok | reflexivity].
      apply (reads_word 116 (chars "rue") r eq_refl eq_refl ltac:(discriminate) eq_refl (ends_word r Hr)).
    - intros r Hr. apply (vreads_one _ (QBool false)); [|tok | reflexivity].
      apply (reads_word 102 (chars "alse") r eq_refl eq_refl ltac:(discriminate) eq_refl (ends_word r Hr)).
    - intros sg neg Hs r Hr. apply (vreads_one _ (QNan neg)); [|tok | destruct neg; reflexivity].
      destruct sg as [|y sg'] eqn:Esg.
      + destruct Hs as [[_ ->] | [[? _] | [? _]]]; try discriminate.
        apply (reads_word 110 (chars "an") r eq_refl eq_refl ltac:(discriminate) eq_refl (ends_word r Hr)).
      + rewrite <- Esg in *. apply (reads_signed sg neg true r Hs ltac:(rewrite Esg; discriminate) (ends_word r Hr)).
    - intros sg neg Hs r Hr. apply (vreads_one _ (QInf neg)); [|tok | destruct neg; reflexivity].
      destruct sg as [|y sg'] eqn:Esg.
      + destruct Hs as [[_ ->] | [[? _] | [? _]]]; try discriminate.
        apply (reads_word 105 (chars "nf") r eq_refl eq_refl ltac:(discriminate) eq_refl (ends_word r Hr)).
      + rewrite <- Esg in *. apply (reads_signed sg neg false r Hs ltac:(rewrite Esg; discriminate) (ends_word r Hr)).
    - intros sg neg d u Hs Hd Hb r Hr. destruct (ends_num r Hr) as [Hr1 _].
      rewrite <- app_assoc. pose proof (reads_int sg neg d u r Hs Hd Hr1 Hb) as H.
      destruct neg; (eapply vreads_one; [exact H | tok | reflexivity]).
    - intros sg neg d u e w b Hs Hd He Hb r Hr. destruct (ends_num r Hr) as [Hr1 _].
      eapply vreads_one; [eapply reads_float; eassumption | tok | reflexivity].
    - intros d w Hd Hw r Hr. destruct (ends_num r Hr) as [Hr1 Hr2].
      eapply vreads_one; [apply reads_date; assumption | tok | reflexivity].
    - intros s l _ IH r _. destruct (IH r) as [N HN]. exists QOpen, ((s ++ [93]) ++ r).
      split; [apply reads_punct; auto|]. split; [tok|]. exists (S N). intros [|n] Hn ln; [lia|].
      cbn [q_val]. rewrite <- app_assoc. cbn [app]. destruct (HN n n ltac:(lia) ltac:(lia) ln) as [ln' E]. exists ln'.
      unfold qbind. rewrite E. reflexivity.
    - intros g Hg r. exists 1%nat. intros [|n] m Hn Hm ln; [lia|]. cbn [q_vals].
      destruct (bind_reads (fun t => match t with
        | QClose | QEof => qret []
        | QComma => q_vals F (q_val F m) n
        | _ => qbind (q_val F m t) (fun v => qbind (q_vals F (q_val F m) n) (fun r => qret (v :: r)))
        end) (g ++ 93 :: r) QClose r ln ltac:(apply reads_gap; [exact Hg | apply reads_punct; auto])) as [ln' E].
      exists ln'. exact E.
    - intros a x v k b Ha _ IH Hb Hf r.
      destruct (vreads_gap a _ v _ Ha (IH (b ++ 93 :: r) (follow_app k b 93 Hf r))) as (t & l1 & Ht & (V1 & V2 & V3) & [N HN]).
      exists (S (S N)). intros [|[|n]] m Hn Hm ln; try lia.
      assert (E2 : forall ln, exists ln', q_vals F (q_val F m) (S n) {| q_inp := b ++ 93 :: r; q_ln := ln |} = ({| q_inp := r; q_ln := ln' |}, Ok [])).
      { intro ln0. cbn [q_vals]. destruct (next_reads (b ++ 93 :: r) QClose r ln0 ltac:(apply reads_gap; [exact Hb | apply reads_punct; auto])) as [ln' E].
        exists ln'. unfold qbind. rewrite E. reflexivity. }
      remember (S n) as n1. cbn [q_vals]. rewrite <- !app_assoc.
      destruct (next_reads _ t l1 ln Ht) as [ln1 E1]. destruct (HN m ltac:(lia) ln1) as [ln2 Ev]. destruct (E2 ln2) as [ln3 E3].
      exists ln3. unfold qbind at 1. rewrite E1.
      destruct t; try congruence; unfold qbind; rewrite Ev, E3; reflexivity.
    - intros a x v k b s l Ha _ IH Hb Hf _ IHs r.
      destruct (vreads_gap a _ v _ Ha (IH (b ++ 44 :: s ++ 93 :: r) (follow_app k b 44 Hf _))) as (t & l1 & Ht & (V1 & V2 & V3) & [N HN]).
      destruct (IHs r) as [M HM].
      exists (S (S (N + M))). intros [|[|n]] m Hn Hm ln; try lia.
      assert (E2 : forall ln, exists ln', q_vals F (q_val F m) (S n) {| q_inp := b ++ 44 :: s ++ 93 :: r; q_ln := ln |} = ({| q_inp := r; q_ln := ln' |}, Ok l)).
      { intro ln0. cbn [q_vals]. destruct (next_reads (b ++ 44 :: s ++ 93 :: r) QComma (s ++ 93 :: r) ln0 ltac:(apply reads_gap; [exact Hb | apply reads_punct; auto])) as [ln' E].
        destruct (HM n m ltac:(lia) ltac:(lia) ln') as [ln2 E2].
        exists ln2. unfold qbind. rewrite E. exact E2. }
      remember (S n) as n1. cbn [q_vals]. rewrite <- !app_assoc. cbn [app].
      destruct (next_reads _ t l1 ln Ht) as [ln1 E1]. destruct (HN m ltac:(lia) ln1) as [ln2 Ev]. destruct (E2 ln2) as [ln3 E3].
      exists ln3. unfold qbind at 1. rewrite E1.
      destruct t; try congruence; unfold qbind; rewrite Ev, E3; reflexivity.
  Qed.

  (** ** Keys *)
  Variable show : N -> str.
  Definition ktok (t : ttok) (k : str) (kk : keykind) : Prop :=
    q_text show t = k /\
    match kk with
    | Bare => t = QIdent k
    | Quoted => t = QStr k
    | NumberLike => match t with QU64 _ | QBool _ | QNan _ | QInf _ | QDate _ => True | _ => False end
    end.
  Lemma key_chars w : Forall key_char w -> forallb more w = true.
  Proof.
    intro H. apply forallb_forall. rewrite Forall_forall in H. intros x Hx. unfold more. destruct (H x Hx) as [E| ->]; [rewrite E|]; reflexivity || apply orb_true_r.
  Qed.
  Lemma word_not_special w : ~ special w -> word_tok w = QIdent w.
  Proof.
    intro H. unfold word_tok.
    repeat match goal with
    | |- context [str_eqb w ?x] => rewrite (proj2 (str_eqb_neq w x)); [|intros ->; apply H; unfold special; cbn [In]; tauto]
    end. reflexivity.
  Qed.
  Lemma key_reads kt k kk r : tkey kt k kk -> r = [] \/ q_term (cur r) = true -> exists t, reads (kt ++ r) t r /\ ktok t k kk.
  Proof.
    intros H Hr. destruct (term_num r Hr) as [Hn Hc]. destruct H as [x w Hx Hd Hm Hw Hs|d x w Hd Hx Hg Hm Hu Hw|w Hs|d Hd Hz Hb|d w Hd Hw|b s Hc' Hb].
    - exists (QIdent (x :: w)). split; [|split; reflexivity]. rewrite <- (word_not_special _ Hs).
      apply reads_word; try assumption; [unfold is_digit; lia | apply key_chars; exact Hw].
    - exists (QIdent (d ++ x :: w)). split; [|split; reflexivity].
      assert (Hs : ~ special (d ++ x :: w)).
      { destruct Hd as [Hd0 Hd]. destruct Hd as [|y d' Hy Hd]; [congruence|]. unfold special. cbn [app In]. intros [E|[E|[E|[E|[]]]]]; injection E; intros; subst; lia. }
      rewrite <- (word_not_special _ Hs). apply reads_mixed; try assumption; [unfold is_digit; lia | apply key_chars; exact Hw].
    - unfold special in Hs. cbn [In] in Hs. destruct Hs as [<- |[<- |[<- |[<- |[]]]]].
      + exists (QBool true). split; [|split; reflexivity || exact I]. apply (reads_word 116 (chars "rue") r eq_refl eq_refl ltac:(discriminate) eq_refl Hr).
      + exists (QBool false). split; [|split; reflexivity || exact I]. apply (reads_word 102 (chars "alse") r eq_refl eq_refl ltac:(discriminate) eq_refl Hr).
      + exists (QInf false). split; [|split; reflexivity || exact I]. apply (reads_word 105 (chars "nf") r eq_refl eq_refl ltac:(discriminate) eq_refl Hr).
      + exists (QNan false). split; [|split; reflexivity || exact I]. apply (reads_word 110 (chars "an") r eq_refl eq_refl ltac:(discriminate) eq_refl Hr).
    - exists (QU64 (decimal d)). split; [|split; [|exact I]].
      + apply (reads_int [] false d d r ltac:(left; auto) (digits_number d Hd) Hn Hb).
      + cbn [q_text]. apply dec_decimal; assumption.
    - exists (QDate (d ++ 45 :: w)). split; [|split; [reflexivity|exact I]]. apply reads_date; assumption.
    - exists (QStr s). split; [|split; reflexivity]. apply reads_string; assumption.
  Qed.
End Tokens.
