(** The tokens and texts of SpecTomlAcc.v are exactly those the TOML reader reads. *)
From Verif Require Import Base Utf8 Types Text TextModel TextToks TextLex SpecText SpecGram TextGram TomlModel SpecToml TomlRead TomlDoc TomlTerm SpecTomlAcc.
Local Open Scope N_scope.

Lemma take_all p l : forallb p (take_while p l) = true.
Proof. induction l as [|x l IH]; cbn [take_while]; [reflexivity|]. destruct (p x) eqn:E; [|reflexivity]. cbn [forallb]. rewrite E. exact IH. Qed.
Lemma drop_stop p l : drop_while p l = [] \/ p (cur (drop_while p l)) = false.
Proof. induction l as [|x l IH]; cbn [drop_while]; [auto|]. destruct (p x) eqn:E; [exact IH|]. right. exact E. Qed.
Lemma cur_cons l c : cur l = c -> c <> 0 -> l = c :: tl l.
Proof. destruct l as [|x l]; cbn [cur tl]; [congruence | intros ->; reflexivity]. Qed.
Lemma Forall_forallb (P : N -> Prop) p l : (forall x, P x <-> p x = true) -> (Forall P l <-> forallb p l = true).
Proof. intro H. rewrite forallb_forall, Forall_forall. split; intros X x Hx; apply H, X, Hx. Qed.

Section Lexer.
  Variable F : flt.
  (** Words *)
  Lemma word_end_term r : word_end r <-> q_term (cur r) = true.
  Proof.
    unfold word_end, q_term, c_rbr. cbn [In]. split.
    - intros [-> |H]; [reflexivity|]. lia.
    - intro H. right. lia.
  Qed.
  Lemma word_token_tok w t : word_token w t <-> t = word_tok w.
  Proof.
    split.
    - intros [ | | | |w' H]; try reflexivity. symmetry. apply word_not_special. exact H.
    - intros ->. unfold word_tok.
      destruct (str_eqb w (chars "true")) eqn:E1; [apply str_eqb_eq in E1; subst; constructor|].
      destruct (str_eqb w (chars "false")) eqn:E2; [apply str_eqb_eq in E2; subst; constructor|].
      destruct (str_eqb w (chars "inf")) eqn:E3; [apply str_eqb_eq in E3; subst; constructor|].
      destruct (str_eqb w (chars "nan")) eqn:E4; [apply str_eqb_eq in E4; subst; constructor|].
      apply str_eqb_neq in E1, E2, E3, E4. constructor. unfold special. cbn [In]. intros [X|[X|[X|[X|[]]]]]; congruence.
  Qed.
  Lemma more_key x : key_char x <-> more x = true.
  Proof. unfold key_char, more, c_dot. rewrite orb_true_iff, N.eqb_eq. tauto. Qed.
  Lemma q_word_inv st l r t : q_word st l = (r, inl t) -> exists w, l = w ++ r /\ Forall key_char w /\ word_token (st ++ w) t /\ word_end r.
  Proof.
    unfold q_word. fold more. intro H. destruct (q_term (cur (drop_while more l))) eqn:E; [|discriminate]. inversion H; subst.
    exists (take_while more l). split; [symmetry; apply take_drop|].
    split; [apply (Forall_forallb _ more _ more_key), take_all|]. split; [apply word_token_tok; reflexivity | apply word_end_term; exact E].
  Qed.
  Lemma q_word_of st w r t : Forall key_char w -> word_token (st ++ w) t -> word_end r -> q_word st (w ++ r) = (r, inl t).
  Proof.
    intros Hw Ht Hr. apply word_token_tok in Ht. subst. apply q_word_app; [apply (Forall_forallb _ more _ more_key); exact Hw | right; apply word_end_term; exact Hr].
  Qed.

  (** Strings *)
  Lemma body_short_inv n : forall l r s, q_body n false l = (r, Some s) -> exists b r', l = b ++ 34 :: r' /\ r = 34 :: r' /\ short_body b s.
  Proof.
    induction n as [|n IH]; intros l r s H; [discriminate|]. cbn [q_body] in H.
    destruct (cur l =? c_quote) eqn:Eq; cbn [andb negb] in H.
    - inversion H; subst. apply N.eqb_eq in Eq. exists [], (tl r). cbn [app]. rewrite <- (cur_cons r 34 Eq) by discriminate. split; [reflexivity|]. split; [reflexivity|]. constructor.
    - destruct (cur l =? c_bslash) eqn:Eb.
      + apply N.eqb_eq in Eb. destruct (q_body n false (tl (tl l))) as [r' [s'|]] eqn:E; [|discriminate]. inversion H; subst.
        destruct (IH _ _ _ E) as (b & r' & El & -> & Hb).
        pose proof (cur_cons l 92 Eb ltac:(discriminate)) as E0. destruct (tl l) as [|x l2] eqn:E1; [cbn [tl] in El; destruct b; discriminate|].
        cbn [tl] in El. exists (92 :: x :: b), r'. subst l2. split; [rewrite E0; reflexivity|]. split; [reflexivity|]. constructor. exact Hb.
      + destruct (cur l =? 0) eqn:E0; [discriminate|]. destruct (q_body n false (tl l)) as [r' [s'|]] eqn:E; [|discriminate]. inversion H; subst.
        destruct (IH _ _ _ E) as (b & r' & El & -> & Hb).
        apply N.eqb_neq in Eq, Eb, E0. pose proof (cur_cons l (cur l) eq_refl E0) as E1. exists (cur l :: b), r'.
        split; [rewrite E1 at 1; rewrite El; reflexivity|]. split; [reflexivity|]. constructor; assumption.
  Qed.
  Lemma body_short_of b s : short_body b s -> forall n r, (length (b ++ 34%N :: r) < n)%nat -> q_body n false (b ++ 34 :: r) = (34 :: r, Some s).
  Proof.
    induction 1 as [|x t s H1 H2 H3 H IH|x t s H IH]; intros n r Hn; (destruct n as [|n]; [cbn in Hn; lia|]).
    - reflexivity.
    - cbn [app q_body cur tl length] in *. unfold c_quote, c_bslash. rewrite (proj2 (N.eqb_neq x 34) H1), (proj2 (N.eqb_neq x 92) H2), (proj2 (N.eqb_neq x 0) H3).
      cbn [andb]. rewrite IH by lia. reflexivity.
    - cbn [app q_body cur tl length] in *. change (92 =? c_quote) with false. change (92 =? c_bslash) with true. cbn [andb].
      rewrite IH by lia. reflexivity.
  Qed.
  Lemma quotes_all q : Forall (eq 34) q <-> forallb (fun x => x =? c_quote) q = true.
  Proof. apply Forall_forallb. intro x. unfold c_quote. rewrite N.eqb_eq. split; congruence. Qed.
  Lemma three_quotes (q : str) : Forall (eq 34) q -> length q = 3%nat -> q = [34; 34; 34].
  Proof. intros H L. destruct q as [|a [|b [|c [|d q]]]]; try discriminate. inversion H as [|? ? ? H2]; subst. inversion H2 as [|? ? ? H3]; subst. inversion H3; subst. reflexivity. Qed.
  Lemma body_long_inv n : forall l r s, q_body n true l = (r, Some s) -> exists b, l = b ++ [34; 34; 34] ++ r /\ long_body b s /\ cur r <> 34.
  Proof.
    induction n as [|n IH]; intros l r s H; [discriminate|]. cbn [q_body] in H. rewrite andb_false_r in H.
    destruct (cur l =? c_quote) eqn:Eq.
    - pose proof (take_drop (fun x => x =? c_quote) l) as Etd. pose proof (proj2 (quotes_all _) (take_all (fun x => x =? c_quote) l)) as Hq.
      pose proof (drop_stop (fun x => x =? c_quote) l) as Hs.
      assert (Hne : take_while (fun x => x =? c_quote) l <> []).
      { destruct l as [|x l]; [discriminate|]. cbn [cur] in Eq. cbn [take_while]. rewrite Eq. discriminate. }
      set (q := take_while (fun x => x =? c_quote) l) in *. set (r0 := drop_while (fun x => x =? c_quote) l) in *.
      assert (Hc : cur r0 <> 34) by (destruct Hs as [-> |Hs]; [discriminate | apply N.eqb_neq; exact Hs]).
      destruct (Nat.eqb_spec (length q) 3) as [E3|E3].
      + inversion H; subst r s. exists []. rewrite (three_quotes q Hq E3) in Etd. split; [symmetry; exact Etd|]. split; [constructor | exact Hc].
      + destruct (q_body n true (tl r0)) as [r' [s'|]] eqn:E; [|discriminate]. inversion H; subst r' s.
        destruct (IH _ _ _ E) as (b & El & Hb & Hr). destruct r0 as [|x r1]; [cbn [tl] in El; destruct b; discriminate|]. cbn [tl cur] in *.
        exists (q ++ x :: b). split; [rewrite <- Etd, El, <- app_assoc; reflexivity|]. split; [constructor; assumption | exact Hr].
    - destruct (cur l =? c_bslash) eqn:Eb.
      + apply N.eqb_eq in Eb. destruct (q_body n true (tl (tl l))) as [r' [s'|]] eqn:E; [|discriminate]. inversion H; subst.
        destruct (IH _ _ _ E) as (b & El & Hb & Hr).
        pose proof (cur_cons l 92 Eb ltac:(discriminate)) as E0. destruct (tl l) as [|x l2] eqn:E1; [cbn [tl] in El; destruct b; discriminate|].
        cbn [tl] in El. exists (92 :: x :: b). subst l2. split; [rewrite E0; reflexivity|]. split; [constructor; exact Hb | exact Hr].
      + destruct (cur l =? 0) eqn:E0; [discriminate|]. destruct (q_body n true (tl l)) as [r' [s'|]] eqn:E; [|discriminate]. inversion H; subst.
        destruct (IH _ _ _ E) as (b & El & Hb & Hr).
        apply N.eqb_neq in Eq, Eb, E0. pose proof (cur_cons l (cur l) eq_refl E0) as E1. exists (cur l :: b).
        split; [rewrite E1 at 1; rewrite El; reflexivity|]. split; [constructor; assumption | exact Hr].
  Qed.
  Lemma body_long_of b s : long_body b s -> forall n r, cur r <> 34 -> (length (b ++ [34; 34; 34]%N ++ r) < n)%nat -> q_body n true (b ++ [34; 34; 34] ++ r) = (r, Some s).
  Proof.
    induction 1 as [|x t s H1 H2 H3 H IH|x t s H IH|q x t s Hq Hne H3 Hx H IH]; intros n r Hr Hn; (destruct n as [|n]; [cbn in Hn; lia|]).
    - cbn [q_body app]. change (cur (34 :: 34 :: 34 :: r) =? c_quote) with true. cbn [andb negb].
      change (34 :: 34 :: 34 :: r) with ([34; 34; 34] ++ r). rewrite take_while_app, drop_while_app; try reflexivity; right; apply N.eqb_neq; exact Hr.
    - cbn [app q_body cur tl length] in *. unfold c_quote, c_bslash. rewrite (proj2 (N.eqb_neq x 34) H1), (proj2 (N.eqb_neq x 92) H2), (proj2 (N.eqb_neq x 0) H3).
      cbn [andb]. rewrite IH by (exact Hr || lia). reflexivity.
    - cbn [app q_body cur tl length] in *. change (92 =? c_quote) with false. change (92 =? c_bslash) with true. cbn [andb].
      rewrite IH by (exact Hr || lia). reflexivity.
    - cbn [q_body]. rewrite <- app_assoc in *. cbn [app] in *.
      assert (Ec : (cur (q ++ x :: t ++ 34 :: 34 :: 34 :: r) =? c_quote) = true) by (destruct q; [congruence|]; inversion Hq; subst; reflexivity).
      rewrite Ec. cbn [andb negb].
      assert (Hstop : x :: t ++ 34 :: 34 :: 34 :: r = [] \/ (cur (x :: t ++ 34 :: 34 :: 34 :: r) =? c_quote) = false) by (right; apply N.eqb_neq; exact Hx).
      rewrite take_while_app, drop_while_app; try exact Hstop; try (apply quotes_all; exact Hq).
      destruct (Nat.eqb_spec (length q) 3); [contradiction|]. cbn [cur tl]. rewrite app_length in Hn. cbn [length] in Hn.
      rewrite IH by (exact Hr || lia). reflexivity.
  Qed.
  Lemma short_head b s : short_body b s -> b <> [] -> (cur b =? c_quote) = false.
  Proof. intros [|x t s' H1 H2 H3 H|x t s' H] Hb; [congruence | apply N.eqb_neq; exact H1 | reflexivity]. Qed.
  Lemma cur_app a b : a <> [] -> cur (a ++ b) = cur a.
  Proof. destruct a; [congruence | reflexivity]. Qed.
  Lemma q_string_inv l r t : q_string l = (r, inl t) -> exists s, t = QStr s /\ string_at (34 :: l) s r.
  Proof.
    unfold q_string. destruct (cur l =? c_quote) eqn:E1; [destruct (cur (tl l) =? c_quote) eqn:E2|].
    - apply N.eqb_eq in E1, E2. destruct (q_body _ _ _) as [r0 [s|]] eqn:E; [|discriminate]. intro H. inversion H; subst. exists s. split; [reflexivity|].
      apply body_long_inv in E as (b & El & Hb & Hc).
      rewrite (cur_cons l 34 E1), (cur_cons (tl l) 34 E2) by discriminate. rewrite El.
      apply (sa_long b s r0 Hb Hc).
    - apply N.eqb_eq in E1. apply N.eqb_neq in E2. destruct (q_body _ _ _) as [r0 [s|]] eqn:E; [|discriminate]. intro H. inversion H; subst. exists s. split; [reflexivity|].
      apply body_short_inv in E as (b & r' & El & -> & Hb). rewrite (cur_cons l 34 E1) by discriminate. rewrite El. cbn [tl].
      apply (sa_short [34; 34] b s r'); [auto | exact Hb|]. intros ->. apply E2. rewrite El. reflexivity.
    - apply N.eqb_neq in E1. destruct (q_body _ _ _) as [r0 [s|]] eqn:E; [|discriminate]. intro H. inversion H; subst. exists s. split; [reflexivity|].
      apply body_short_inv in E as (b & r' & El & -> & Hb). rewrite El. cbn [tl].
      apply (sa_short [34] b s r'); [auto | exact Hb|]. intros ->. apply E1. rewrite El. reflexivity.
  Qed.
  Lemma q_string_of l s r : string_at l s r -> exists l', l = 34 :: l' /\ q_string l' = (r, inl (QStr s)).
  Proof.
    intros [q b s' r' Hq Hb Hne|b s' r' Hb Hc].
    - pose proof (short_head b s' Hb Hne) as Eh. destruct Hq as [-> | ->]; cbn [app]; eexists; (split; [reflexivity|]); unfold q_string.
      + rewrite cur_app, Eh by exact Hne. rewrite (body_short_of b s' Hb) by lia. reflexivity.
      + cbn [cur tl]. change (34 =? c_quote) with true. cbv iota. rewrite cur_app, Eh by exact Hne. rewrite (body_short_of b s' Hb) by lia. reflexivity.
    - cbn [app]. eexists. split; [reflexivity|]. unfold q_string. cbn [cur tl]. change (34 =? c_quote) with true. cbv iota.
      change (b ++ 34 :: 34 :: 34 :: r') with (b ++ [34; 34; 34] ++ r'). rewrite (body_long_of b s' Hb) by (exact Hc || lia). reflexivity.
  Qed.

  (** Numbers *)
  Lemma num_char_us x : num_char x <-> dig_us x = true.
  Proof. unfold num_char, dig_us, is_digit, c_us. lia. Qed.
  Lemma stop_us l : ~ num_char (cur l) <-> l = [] \/ dig_us (cur l) = false.
  Proof.
    rewrite num_char_us. split; [intro H; right; destruct (dig_us (cur l)); congruence|]. intros [-> |H]; [discriminate | congruence].
  Qed.
  Lemma spread_take l : spread (q_digits l) (take_while dig_us l).
  Proof.
    split; [|reflexivity]. pose proof (take_all dig_us l) as H. rewrite forallb_forall in H. apply Forall_forall. intros x Hx. apply H in Hx.
    unfold dig_us, is_digit, c_us in Hx. lia.
  Qed.
  Lemma spread_app d u l : spread d u -> ~ num_char (cur l) -> q_digits (u ++ l) = d /\ drop_while dig_us (u ++ l) = l.
  Proof.
    intros [H ->] Hl. apply stop_us in Hl. pose proof (dig_us_all u H) as Ha. unfold q_digits. rewrite take_while_app, drop_while_app by assumption. auto.
  Qed.
  Definition dchar (c : N) : bool := is_digit c || (c =? c_colon) || (c =? c_minus) || (c =? 84).
  Lemma dchar_date x : date_char x <-> dchar x = true.
  Proof. unfold date_char, dchar, is_digit, c_colon, c_minus. lia. Qed.
  (** What was eaten of [nan] or [inf]. *)
  Definition eaten (p : str) : Prop := exists q, p ++ q = chars "nan" \/ p ++ q = chars "inf".
  Lemma eaten_nil p d : eaten p -> forallb is_digit (p ++ d) = true -> p = [].
  Proof.
    intros (q & H) Hd. destruct p as [|x p]; [reflexivity|]. exfalso. destruct H as [H|H]; injection H as E _; subst x; discriminate.
  Qed.
  Lemma after_inv neg p d l r t : eaten p -> forallb is_digit d = true -> ~ num_char (cur l) ->
    num_after F neg (minus neg ++ p ++ d) l = (r, inl t) -> after_digits F neg (minus neg ++ p ++ d) p d l t r.
  Proof.
    intros Hp Hd Hl H. unfold num_after in H. remember (minus neg ++ p ++ d) as s eqn:Es. destruct (cur l =? c_dot) eqn:E1; [|destruct (cur l =? c_minus) eqn:E2; [|destruct (q_ident (cur l)) eqn:E3]].
    - apply N.eqb_eq in E1. destruct (f64_parse F _) as [b|] eqn:Eb; [|discriminate]. inversion H; subst t r.
      rewrite (cur_cons l 46 E1) at 1 by discriminate. rewrite <- (take_drop dig_us (tl l)) at 1.
      eapply ad_float; [apply spread_take | | exact Eb]. apply stop_us, drop_stop.
    - apply N.eqb_eq in E2. cbv zeta in H. fold dchar in H. inversion H; subst t r.
      rewrite (cur_cons l 45 E2) at 1 by discriminate. rewrite <- (take_drop dchar (tl l)) at 1.
      apply ad_date; [apply (Forall_forallb _ dchar _ dchar_date), take_all|].
      rewrite dchar_date. destruct (drop_stop dchar (tl l)) as [-> | ->]; discriminate.
    - apply q_word_inv in H as (w & El & Hw & Ht & Hr). apply N.eqb_neq in E2.
      destruct w as [|x w]; [cbn [app] in El; subst l; apply word_end_term in Hr; destruct (term_stop r (or_intror Hr)) as [-> |X]; [discriminate E3 | unfold more in X; rewrite E3 in X; discriminate]|].
      subst l. cbn [cur app] in *. inversion Hw; subst. apply ad_word; assumption.
    - apply N.eqb_neq in E1, E2. inversion H as [[H1 H2]]. subst r. clear H. destruct neg; cbn [minus app] in Es; subst s.
      + destruct (q_i64 _) as [z|] eqn:Eq; [|discriminate]. injection H2 as <-. unfold q_i64 in Eq. change (45 =? c_minus) with true in Eq. cbv iota in Eq.
        unfold parse_i64 in Eq. destruct (p ++ d) as [|y z'] eqn:Epd; [discriminate|]. rewrite <- Epd in *. change (45 =? c_minus) with true in Eq. cbn [andb] in Eq.
        destruct (forallb is_digit (p ++ d)) eqn:Ed; [|discriminate]. cbn [andb] in Eq. destruct (N.leb_spec (digits_val (p ++ d)) (2 ^ 63)); [|discriminate]. injection Eq as <-.
        apply (eaten_nil p d Hp) in Ed. subst p. cbn [app] in *. rewrite <- decimal_val in *. apply ad_neg; try assumption. intros ->. discriminate.
      + destruct (q_i64 _) as [z|] eqn:Eq; [|discriminate]. injection H2 as <-. unfold q_i64 in Eq. destruct (p ++ d) as [|y z'] eqn:Epd; [discriminate|].
        assert (Ed : forallb is_digit (y :: z') = true /\ digits_val (y :: z') < 2 ^ 63 /\ z = Z.of_N (digits_val (y :: z'))).
        { destruct (y =? c_minus) eqn:Ey.
          - exfalso. apply N.eqb_eq in Ey. subst y. destruct p as [|x p]; cbn [app] in Epd.
            + subst d. discriminate.
            + injection Epd as -> _. destruct Hp as (q & [X|X]); discriminate.
          - destruct (forallb is_digit (y :: z')) eqn:Ed; [|discriminate]. cbn [andb] in Eq. destruct (N.ltb_spec (digits_val (y :: z')) (2 ^ 63)); [|discriminate]. injection Eq as <-. auto. }
        destruct Ed as (Ed & Hb & ->). rewrite N2Z.id. rewrite <- Epd in *. apply (eaten_nil p d Hp) in Ed. subst p. cbn [app] in *. rewrite <- decimal_val in *. apply ad_pos; try assumption. intros ->. discriminate.
  Qed.
  Lemma after_of neg p d l r t : eaten p -> forallb is_digit d = true -> ~ num_char (cur l) ->
    after_digits F neg (minus neg ++ p ++ d) p d l t r -> num_after F neg (minus neg ++ p ++ d) l = (r, inl t).
  Proof.
    intros Hp Hd Hl H. remember (minus neg ++ p ++ d) as s eqn:Es.
    destruct H as [neg s p d e w b r He Hr Hb|neg s p d w r Hw Hr|neg s p d x w t r Hx Hx2 Hw Ht Hr|s d r Hne Hb Hi Hc|s d r Hne Hb Hi Hc]; unfold num_after.
    - cbn [cur tl]. change (46 =? c_dot) with true. cbv iota. destruct (spread_app e w r He Hr) as [E1 E2]. rewrite E1, E2. unfold c_dot. rewrite Hb. reflexivity.
    - cbn [cur tl]. change (45 =? c_dot) with false. change (45 =? c_minus) with true. cbv iota zeta. fold dchar.
      assert (Hs : r = [] \/ dchar (cur r) = false) by (rewrite dchar_date in Hr; right; destruct (dchar (cur r)); congruence).
      rewrite take_while_app, drop_while_app; try exact Hs; try (apply (Forall_forallb _ dchar _ dchar_date); exact Hw). reflexivity.
    - cbn [cur]. assert (Hd2 : x <> 46) by (intros ->; discriminate). unfold c_dot, c_minus. rewrite (proj2 (N.eqb_neq x 46) Hd2), (proj2 (N.eqb_neq x 45) Hx2), Hx.
      apply (q_word_of s (x :: w) r t); try assumption. constructor; [left; exact Hx | exact Hw].
    - unfold c_dot. rewrite (proj2 (N.eqb_neq _ _) Hc), Hi.
      assert (Hm : (cur r =? c_minus) = false) by (apply N.eqb_neq; intro E; rewrite E in Hi; discriminate). rewrite Hm.
      cbn [minus app] in Es. subst s. unfold q_i64. destruct d as [|y d]; [congruence|].
      assert (Hy : (y =? c_minus) = false) by (apply N.eqb_neq; intros ->; discriminate). rewrite Hy, Hd. rewrite decimal_val in *. rewrite (proj2 (N.ltb_lt _ _) Hb). cbn [andb]. rewrite N2Z.id. reflexivity.
    - unfold c_dot. rewrite (proj2 (N.eqb_neq _ _) Hc), Hi.
      assert (Hm : (cur r =? c_minus) = false) by (apply N.eqb_neq; intro E; rewrite E in Hi; discriminate). rewrite Hm.
      cbn [minus app] in Es. subst s. unfold q_i64. change (45 =? c_minus) with true. cbv iota. unfold parse_i64. destruct d as [|y d]; [congruence|].
      change (45 =? c_minus) with true. cbn [andb]. rewrite Hd. rewrite decimal_val in *. rewrite (proj2 (N.leb_le _ _) Hb). reflexivity.
  Qed.
  (** The prefixes of [nan] and [inf] *)
  Lemma eat_spec w : forall l b l' w', q_eat w l = (b, l', w') -> l = b ++ l' /\ w = b ++ w' /\ (w' = [] \/ l' = [] \/ cur l' <> cur w').
  Proof.
    induction w as [|x w IH]; intros l b l' w' H; [inversion H; auto|]. destruct l as [|c r]; [inversion H; auto|]. cbn [q_eat] in H.
    destruct (N.eqb_spec c x) as [-> |E]; [|inversion H; subst; auto]. destruct (q_eat w r) as [[b1 l1] w1] eqn:Ee. inversion H; subst.
    destruct (IH _ _ _ _ Ee) as (-> & -> & H3). auto.
  Qed.
  Lemma eat_of b : forall w' l', (w' = [] \/ l' = [] \/ cur l' <> cur w') -> q_eat (b ++ w') (b ++ l') = (b, l', w').
  Proof.
    induction b as [|x b IH]; intros w' l' H; cbn [app].
    - destruct w' as [|y w]; [destruct l'; reflexivity|]. destruct l' as [|c r]; [reflexivity|]. cbn [q_eat]. destruct H as [H|[H|H]]; try discriminate. cbn [cur] in H.
      rewrite (proj2 (N.eqb_neq _ _) H). reflexivity.
    - cbn [q_eat]. rewrite N.eqb_refl, IH by exact H. reflexivity.
  Qed.
  Definition num_word (l : str) : str := if cur l =? 110 then chars "nan" else if cur l =? 105 then chars "inf" else [].
  Lemma q_num_eq sg neg l0 : sign sg neg -> (sg = [] -> 48 <= cur l0 <= 57) -> q_num F (sg ++ l0) =
    let '(b1, l1, rest) := q_eat (num_word l0) l0 in
    if (match num_word l0, rest with _ :: _, [] => true | _, _ => false end) && q_term (cur l1)
    then (l1, inl (if cur l0 =? 110 then QNan neg else QInf neg))
    else num_after F neg (minus neg ++ b1 ++ q_digits l1) (drop_while dig_us l1).
  Proof.
    intros Hs Hd. unfold q_num.
    assert (E1 : (cur (sg ++ l0) =? c_minus) = neg).
    { destruct Hs as [[-> ->] | [[-> ->] | [-> ->]]]; cbn [app cur]; unfold c_minus; try reflexivity. specialize (Hd eq_refl). apply N.eqb_neq. lia. }
    rewrite E1.
    assert (E2 : (if neg || (cur (sg ++ l0) =? c_plus) then tl (sg ++ l0) else sg ++ l0) = l0).
    { destruct Hs as [[-> ->] | [[-> ->] | [-> ->]]]; cbn [app cur orb tl]; try reflexivity. specialize (Hd eq_refl). unfold c_plus. rewrite (proj2 (N.eqb_neq _ 43)) by lia. reflexivity. }
    rewrite E2. fold (num_word l0). reflexivity.
  Qed.
  Lemma nan_inf_of l0 b1 l1 rest : q_eat (num_word l0) l0 = (b1, l1, rest) -> nan_inf b1 l1 /\ eaten b1.
  Proof.
    intro H. apply eat_spec in H as (-> & E & H). unfold num_word in E.
    destruct (cur (b1 ++ l1) =? 110) eqn:E1; [|destruct (cur (b1 ++ l1) =? 105) eqn:E2].
    - apply N.eqb_eq in E1. assert (Hne : b1 <> []).
      { intros ->. cbn [app] in *. subst rest. destruct H as [H|[H|H]]; [discriminate | subst l1; discriminate | apply H; exact E1]. }
      split; [right; split; [exact Hne|]; exists rest; split; [left; symmetry; exact E|] | exists rest; left; symmetry; exact E].
      destruct H as [H|[-> |H]]; auto. destruct rest as [|y rest]; [auto|]. right. cbn [cur]. intros <-.
      destruct b1 as [|? [|? [|? [|? ?]]]]; cbn in E; inversion E.
    - apply N.eqb_eq in E2. assert (Hne : b1 <> []).
      { intros ->. cbn [app] in *. subst rest. destruct H as [H|[H|H]]; [discriminate | subst l1; discriminate | apply H; exact E2]. }
      split; [right; split; [exact Hne|]; exists rest; split; [right; symmetry; exact E|] | exists rest; right; symmetry; exact E].
      destruct H as [H|[-> |H]]; auto. destruct rest as [|y rest]; [auto|]. right. cbn [cur]. intros <-.
      destruct b1 as [|? [|? [|? [|? ?]]]]; cbn in E; inversion E.
    - symmetry in E. apply app_eq_nil in E as [-> ->]. cbn [app] in *. apply N.eqb_neq in E1, E2. split; [left; auto | exists (chars "nan"); left; reflexivity].
  Qed.
  Lemma nan_inf_eat p l1 : nan_inf p l1 -> eaten p /\ exists rest, num_word (p ++ l1) = p ++ rest /\ q_eat (num_word (p ++ l1)) (p ++ l1) = (p, l1, rest) /\
    (match num_word (p ++ l1), rest with _ :: _, [] => p = chars "nan" \/ p = chars "inf" | _, _ => True end).
  Proof.
    intros [(-> & H1 & H2)|(Hne & q & Hq & H)].
    - split; [exists (chars "nan"); left; reflexivity|]. exists []. unfold num_word. cbn [app]. rewrite (proj2 (N.eqb_neq _ _) H1), (proj2 (N.eqb_neq _ _) H2).
      split; [reflexivity|]. split; [destruct l1; reflexivity | exact I].
    - split; [exists q; exact Hq|]. exists q.
      assert (E : num_word (p ++ l1) = p ++ q).
      { unfold num_word. rewrite cur_app by exact Hne. destruct p as [|x p]; [congruence|]. cbn [cur]. destruct Hq as [Hq|Hq]; rewrite Hq; injection Hq as -> _; reflexivity. }
      split; [exact E|]. rewrite E. split; [apply eat_of; tauto|]. destruct q; [rewrite app_nil_r in *; destruct p; [exact I | exact Hq] | destruct (p ++ _); exact I].
  Qed.
  Lemma q_num_inv l r t : (cur l =? c_plus) || (cur l =? c_minus) || is_digit (cur l) = true -> q_num F l = (r, inl t) -> number_at F l t r.
  Proof.
    intros Hc H.
    assert (Hs : exists sg neg l0, sign sg neg /\ (sg = [] -> 48 <= cur l0 <= 57) /\ l = sg ++ l0).
    { destruct (N.eqb_spec (cur l) c_plus) as [E|_]; [|destruct (N.eqb_spec (cur l) c_minus) as [E|_]].
      - exists [43], false, (tl l). split; [right; left; auto|]. split; [discriminate | apply (cur_cons l 43 E); discriminate].
      - exists [45], true, (tl l). split; [right; right; auto|]. split; [discriminate | apply (cur_cons l 45 E); discriminate].
      - exists [], false, l. cbn [orb] in Hc. split; [left; auto|]. split; [|reflexivity]. intros _. unfold is_digit in Hc. lia. }
    destruct Hs as (sg & neg & l0 & Hs & Hd & ->). rewrite (q_num_eq sg neg l0 Hs Hd) in H.
    destruct (q_eat (num_word l0) l0) as [[b1 l1] rest] eqn:Ee. pose proof (nan_inf_of _ _ _ _ Ee) as [Hn He]. pose proof (eat_spec _ _ _ _ _ Ee) as (El & Ew & _).
    destruct (_ && q_term (cur l1)) eqn:Et.
    - inversion H; subst r. apply andb_prop in Et as [E1 E2]. destruct rest as [|? ?]; [|destruct (num_word l0); discriminate]. rewrite app_nil_r in Ew. rewrite El at 1.
      apply na_word with (neg := neg); [exact Hs | | | apply word_end_term; exact E2].
      + intros ->. specialize (Hd eq_refl). unfold num_word in E1. rewrite (proj2 (N.eqb_neq (cur l0) 110)), (proj2 (N.eqb_neq (cur l0) 105)) in E1 by lia. discriminate.
      + unfold num_word in *. destruct (cur l0 =? 110); [left; auto|]. destruct (cur l0 =? 105); [right; auto | discriminate].
    - rewrite El at 1. rewrite <- (take_drop dig_us l1) at 1. 
      eapply na_num; [exact Hs | | | apply spread_take | apply stop_us, drop_stop | apply after_inv; [exact He | apply (spread_digits _ (take_while dig_us l1)), spread_take | apply stop_us, drop_stop | exact H]].
      + intro X. specialize (Hd X). unfold num_word in Ew. rewrite (proj2 (N.eqb_neq (cur l0) 110)), (proj2 (N.eqb_neq (cur l0) 105)) in Ew by lia. symmetry in Ew. apply app_eq_nil in Ew as [-> ->]. cbn [app] in *. subst l0.
        destruct l1 as [|x l1]; [cbn [cur] in Hd; lia|]. cbn [cur] in Hd. cbn [take_while]. replace (dig_us x) with true by (symmetry; apply num_char_us; left; exact Hd). exact Hd.
      + rewrite take_drop. exact Hn.
  Qed.
  Lemma q_num_of l t r : number_at F l t r -> q_num F l = (r, inl t).
  Proof.
    intros [sg neg p r' t' Hs Hne Hp Hr|sg neg p d u l' t' r' Hs Hd Hn Hu Hl Ha].
    - rewrite (q_num_eq sg neg _ Hs) by congruence. apply word_end_term in Hr.
      destruct Hp as [[-> ->]|[-> ->]]; unfold num_word; cbn [app cur]; cbn; rewrite Hr; reflexivity.
    - assert (Hd' : sg = [] -> 48 <= cur (p ++ u ++ l') <= 57).
      { intro X. specialize (Hd X). rewrite app_assoc. destruct (p ++ u); [cbn in Hd; lia | exact Hd]. }
      rewrite (q_num_eq sg neg _ Hs Hd'). destruct (nan_inf_eat p (u ++ l') Hn) as (He & rest & Ew & -> & Hm).
      destruct (spread_app d u l' Hu Hl) as [E1 E2]. rewrite E1, E2.
      destruct (_ && q_term _) eqn:Et.
      + exfalso. apply andb_prop in Et as [Et1 Et]. destruct u as [|x u].
        * cbn [app] in Et. destruct Ha as [? ? ? ? e w b r1 He' Hr1 Hb|? ? ? ? w r1 Hw Hr1|? ? ? ? x w t1 r1 Hx Hx2 Hw Ht Hr1|s d r1 Hne Hb Hi Hc|s d r1 Hne Hb Hi Hc]; try discriminate Et.
          -- cbn [cur] in Et. destruct (term_stop (x :: w ++ r1) (or_intror Et)) as [X|X]; [discriminate|]. cbn [cur] in X. unfold more in X. rewrite Hx in X. discriminate.
          -- destruct Hu as [_ ->]. apply Hne. reflexivity.
          -- destruct Hu as [_ ->]. apply Hne. reflexivity.
        * cbn [app cur] in Et. destruct Hu as [Hu _]. inversion Hu; subst. assert (X : dig_us x = true) by (apply num_char_us; assumption). unfold q_term, dig_us, is_digit, c_us, c_rbr in *. lia.
      + apply after_of; [exact He | apply (spread_digits d u Hu) | exact Hl | exact Ha].
  Qed.

  (** Tokens *)
  Lemma first_gap g l t r : tgap g -> first_token F l t r -> first_token F (g ++ l) t r.
  Proof.
    intros Hg H. destruct H; rewrite ?app_assoc; try (constructor; try assumption; apply tgap_app; assumption).
  Qed.
  Lemma scan_first n : forall l r t, q_scan F n l = (r, inl t) -> first_token F l t r.
  Proof.
    induction n as [|n IH]; intros l0 r t H; [discriminate|]. cbn [q_scan] in H.
    destruct (ws_tgap l0) as (g & Hg & Eg). set (l := drop_while is_ws l0) in *. rewrite Eg. apply first_gap; [exact Hg|]. clearbody l. clear g Hg Eg l0.
    assert (P : forall x t0, cur l = x -> In (x, t0) [(44, QComma); (91, QOpen); (93, QClose); (61, QEq)] -> first_token F l t0 (tl l)).
    { intros x t0 Hx Hin. rewrite (cur_cons l x Hx) at 1 by (cbn [In] in Hin; intros ->; repeat (destruct Hin as [Hin|Hin]; [discriminate|]); destruct Hin).
      apply (ft_punct F [] x t0 (tl l) tg_nil Hin). }
    destruct (N.eqb_spec (cur l) 0) as [E0|E0]; [inversion H; subst; apply (ft_end F [] _ tg_nil E0)|].
    destruct (N.eqb_spec (cur l) c_comma) as [E|E1]; [inversion H; subst; apply (P 44); [exact E | cbn [In]; tauto]|].
    destruct (N.eqb_spec (cur l) c_lbr) as [E|E2]; [inversion H; subst; apply (P 91); [exact E | cbn [In]; tauto]|].
    destruct (N.eqb_spec (cur l) c_rbr) as [E|E3]; [inversion H; subst; apply (P 93); [exact E | cbn [In]; tauto]|].
    destruct (N.eqb_spec (cur l) c_eq) as [E|E4]; [inversion H; subst; apply (P 61); [exact E | cbn [In]; tauto]|]. clear P.
    destruct (N.eqb_spec (cur l) c_hash) as [E|E5].
    - pose proof (cur_cons l 35 E ltac:(discriminate)) as El. rewrite El in H |- *. set (l1 := tl l) in *. clearbody l1. clear E0 E1 E2 E3 E4 E El.
      set (p := fun c => negb (c =? c_nl) && negb (c =? 0)) in *. change (drop_while p (35 :: l1)) with (drop_while p l1) in H.
      assert (Hb : Forall (fun x => x <> 10 /\ x <> 0) (take_while p l1)).
      { apply (Forall_forallb _ p); [|apply take_all]. intro x. unfold p, c_nl. lia. }
      rewrite <- (take_drop p l1). pose proof (drop_stop p l1) as Hs.
      assert (Hc : cur (drop_while p l1) = 10 \/ cur (drop_while p l1) = 0).
      { destruct Hs as [-> |Hs]; [auto|]. unfold p in Hs at 1. unfold c_nl in Hs. lia. }
      destruct Hc as [Hc|Hc].
      + rewrite (cur_cons _ 10 Hc) in H |- * by discriminate. destruct (scan_ws F n 10 (tl (drop_while p l1)) ltac:(right; right; left; reflexivity)) as [X|X].
        * rewrite X in H. apply IH in H. pose proof (first_gap (35 :: take_while p l1 ++ 10 :: []) _ _ _ (tg_comment _ [] Hb tg_nil) H) as Y.
          cbn [app] in Y. rewrite <- app_assoc in Y. exact Y.
        * subst n. discriminate.
      + destruct n as [|n]; [discriminate|]. cbn [q_scan] in H.
        assert (Ew : drop_while is_ws (drop_while p l1) = drop_while p l1).
        { destruct (drop_while p l1) as [|x l2]; [reflexivity|]. cbn [cur] in Hc. subst x. reflexivity. }
        rewrite Ew, Hc in H. change (0 =? 0) with true in H. cbv iota in H. inversion H; subst r t. apply (ft_end_comment F [] _ _ tg_nil Hb Hc).
    - destruct (_ || _ || _) eqn:En; [apply (ft_number F [] _ _ _ tg_nil); apply q_num_inv; assumption|].
      destruct (N.eqb_spec (cur l) c_quote) as [E|E6].
      + apply q_string_inv in H as (s & -> & H). apply (ft_string F [] l s r tg_nil). rewrite (cur_cons l 34 E) by discriminate. exact H.
      + destruct (q_ident (cur l)) eqn:Ei; [|discriminate]. apply q_word_inv in H as (w & El & Hw & Ht & Hr).
        apply orb_false_iff in En as [En En2]. apply orb_false_iff in En as [_ En]. apply N.eqb_neq in En.
        destruct w as [|x w]; [cbn [app] in El; subst r; apply word_end_term in Hr; destruct (term_stop l (or_intror Hr)) as [X|X]; [rewrite X in E0; destruct (E0 eq_refl) | unfold more in X; rewrite Ei in X; discriminate]|].
        rewrite El in *. cbn [cur app] in *. inversion Hw; subst. apply (ft_word F [] x w t r tg_nil); try assumption. unfold is_digit in En2. lia.
  Qed.
  Lemma first_reads l t r : first_token F l t r -> reads F l t r.
  Proof.
    intros [g r' Hg Hr|g body r' Hg Hb Hr|g x t' r' Hg Hin|g l' t' r' Hg H|g l' s r' Hg H|g x w t' r' Hg Hx Hd Hm Hw Ht Hr]; apply reads_gap; try exact Hg.
    - intros n Hn. destruct n; [lia|]. cbn [q_scan]. replace (drop_while is_ws r') with r'; [rewrite Hr; reflexivity|].
      destruct r' as [|x r']; [reflexivity|]. cbn [cur] in Hr. subst x. reflexivity.
    - intros n Hn. destruct n as [|n]; [lia|]. cbn [q_scan]. change (drop_while is_ws (35 :: body ++ r')) with (35 :: body ++ r'). cbn [cur].
      change (35 =? 0) with false. change (35 =? c_comma) with false. change (35 =? c_lbr) with false. change (35 =? c_rbr) with false.
      change (35 =? c_eq) with false. change (35 =? c_hash) with true. cbv iota.
      set (p := fun c => negb (c =? c_nl) && negb (c =? 0)).
      assert (E : drop_while p (35 :: body ++ r') = r').
      { change (35 :: body ++ r') with ((35 :: body) ++ r'). apply drop_while_app.
        - cbn [forallb]. apply andb_true_intro. split; [reflexivity|]. apply (Forall_forallb (fun x => x <> 10 /\ x <> 0)); [|exact Hb]. intro x. unfold p, c_nl. lia.
        - right. rewrite Hr. reflexivity. }
      rewrite E. destruct n as [|n]; [cbn in Hn; lia|]. cbn [q_scan]. replace (drop_while is_ws r') with r'; [rewrite Hr; reflexivity|].
      destruct r' as [|x r']; [reflexivity|]. cbn [cur] in Hr. subst x. reflexivity.
    - apply reads_punct. cbn [In] in Hin. repeat (destruct Hin as [Hin|Hin]; [inversion Hin; subst; tauto|]). destruct Hin.
    - intros n Hn. destruct n; [lia|].
      assert (Hs : exists y l2, l' = y :: l2 /\ plain y = true /\ (y =? c_plus) || (y =? c_minus) || is_digit y = true).
      { assert (S : forall sg neg l0, sign sg neg -> (sg = [] -> 48 <= cur l0 <= 57) -> exists y l2, sg ++ l0 = y :: l2 /\ plain y = true /\ (y =? c_plus) || (y =? c_minus) || is_digit y = true).
        { intros sg neg [|x l0] Hs Hd.
          - destruct Hs as [[-> _] | [[-> _] | [-> _]]]; [specialize (Hd eq_refl); cbn in Hd; lia| |]; eexists; eexists; (split; [reflexivity|]); split; reflexivity.
          - apply (sign_start sg neg x l0 Hs). destruct sg; [left; apply Hd; reflexivity | right; discriminate]. }
        destruct H as [sg neg p r1 t1 Hs Hne Hp Hr|sg neg p d u l1 t1 r1 Hs Hd Hn' Hu Hl Ha].
        - apply (S sg neg (p ++ r1) Hs). congruence.
        - apply (S sg neg _ Hs). intro X. specialize (Hd X). rewrite app_assoc. destruct (p ++ u); [cbn in Hd; lia | exact Hd]. }
      destruct Hs as (y & l2 & -> & Hp & Hy). rewrite scan_plain by exact Hp. rewrite Hy. apply q_num_of. exact H.
    - intros n Hn. destruct n; [lia|]. apply q_string_of in H as (l2 & -> & E). rewrite scan_plain by reflexivity.
      change ((34 =? c_plus) || (34 =? c_minus) || is_digit 34) with false. change (34 =? c_quote) with true. cbv iota. exact E.
    - apply word_token_tok in Ht. subst t'. apply (reads_word F x w r' Hx); [unfold is_digit; lia | exact Hm | apply (Forall_forallb _ more _ more_key); exact Hw | right; apply word_end_term; exact Hr].
  Qed.
  Lemma first_fun l t r t' r' : first_token F l t r -> first_token F l t' r' -> t = t' /\ r = r'.
  Proof.
    intros H H'. apply first_reads in H, H'. specialize (H (S (length l)) ltac:(lia)). specialize (H' (S (length l)) ltac:(lia)). rewrite H in H'. inversion H'. auto.
  Qed.
  Lemma next_first s s' t : q_next F s = (s', Ok t) -> first_token F (q_inp s) t (q_inp s').
  Proof.
    unfold q_next. destruct (q_scan F (S (length (q_inp s))) (q_inp s)) as [l' o] eqn:E. destruct o as [t'|w]; intro H; inversion H; subst. cbn [q_inp].
    eapply scan_first. exact E.
  Qed.
End Lexer.

(** ** Values *)
Section Values.
  Variable F : flt.
  Lemma tok_vtok t v : tok_value F t v -> vtok t.
  Proof. intros []; repeat split; discriminate. Qed.
  Lemma value_at_reads :
    (forall l v r, value_at F l v r -> vreads F l v r) /\ (forall l vs r, values_at F l vs r -> lreads F l vs r).
  Proof.
    apply value_at_mutind.
    - intros l t v r Ht Hv. apply (vreads_one F l t r v (first_reads F l t r Ht) (tok_vtok t v Hv)). intros n ln.
      destruct Hv as [s|n0|z|b|b|neg|neg|s]; try reflexivity; destruct neg; reflexivity.
    - intros l l1 vs r Ht _ [N HN]. exists QOpen, l1. split; [apply first_reads; exact Ht|]. split; [repeat split; discriminate|].
      exists (S N). intros [|n] Hn ln; [lia|]. cbn [q_val]. destruct (HN n n ltac:(lia) ltac:(lia) ln) as [ln' E]. exists ln'. unfold qbind. rewrite E. reflexivity.
    - intros l r Ht. exists 1%nat. intros [|n] m Hn Hm ln; [lia|]. cbn [q_vals]. destruct (next_reads F l _ r ln (first_reads F _ _ _ Ht)) as [ln' E]. exists ln'.
      unfold qbind. rewrite E. reflexivity.
    - intros l r Ht. exists 1%nat. intros [|n] m Hn Hm ln; [lia|]. cbn [q_vals]. destruct (next_reads F l _ r ln (first_reads F _ _ _ Ht)) as [ln' E]. exists ln'.
      unfold qbind. rewrite E. reflexivity.
    - intros l l1 vs r Ht _ [N HN]. exists (S N). intros [|n] m Hn Hm ln; [lia|]. cbn [q_vals]. destruct (next_reads F l _ l1 ln (first_reads F _ _ _ Ht)) as [ln1 E].
      destruct (HN n m ltac:(lia) ltac:(lia) ln1) as [ln2 E2]. exists ln2. unfold qbind at 1. rewrite E. exact E2.
    - intros l v l1 vs r _ (t & l2 & Ht & (V1 & V2 & V3) & [N HN]) _ [M HM]. exists (S (N + M)). intros [|n] m Hn Hm ln; [lia|]. cbn [q_vals].
      destruct (next_reads F l t l2 ln Ht) as [ln1 E1]. destruct (HN m ltac:(lia) ln1) as [ln2 Ev]. destruct (HM n m ltac:(lia) ltac:(lia) ln2) as [ln3 E3].
      exists ln3. unfold qbind at 1. rewrite E1. destruct t; try congruence; unfold qbind; rewrite Ev, E3; reflexivity.
  Qed.
  Lemma bind_inv {A B} (m : qm A) (f : A -> qm B) s s' b : qbind m f s = (s', Ok b) -> exists s1 a, m s = (s1, Ok a) /\ f a s1 = (s', Ok b).
  Proof. unfold qbind. destruct (m s) as [s1 [a|e|p|]]; intro H; try discriminate. eauto. Qed.
  Lemma bind_panic {A B} (m : qm A) (f : A -> qm B) s s' p : qbind m f s = (s', Panic p) -> m s = (s', Panic p) \/ exists s1 a, m s = (s1, Ok a) /\ f a s1 = (s', Panic p).
  Proof. unfold qbind. destruct (m s) as [s1 [a|e|q|]]; intro H; try discriminate; [eauto | left; inversion H; reflexivity]. Qed.
  Lemma vals_at (val : ttok -> qm toml) : (forall t l s s' v, first_token F l t (q_inp s) -> val t s = (s', Ok v) -> value_at F l v (q_inp s')) ->
    forall n s s' vs, q_vals F val n s = (s', Ok vs) -> values_at F (q_inp s) vs (q_inp s').
  Proof.
    intros Hv. induction n as [|n IH]; intros s s' vs H; [discriminate|]. cbn [q_vals] in H. apply bind_inv in H as (s1 & t & Ht & H). apply next_first in Ht.
    assert (V : qbind (val t) (fun v => qbind (q_vals F val n) (fun r => qret (v :: r))) s1 = (s', Ok vs) -> values_at F (q_inp s) vs (q_inp s')).
    { intro X. apply bind_inv in X as (s2 & v & E1 & X). apply bind_inv in X as (s3 & r & E2 & X). inversion X; subst. eapply ia_value; [eapply Hv; eassumption | apply IH; exact E2]. }
    destruct t; try (apply V; exact H).
    - inversion H; subst. apply ia_close. exact Ht.
    - eapply ia_comma; [exact Ht | apply IH; exact H].
    - inversion H; subst. apply ia_end. exact Ht.
  Qed.
  Lemma val_at_of n : forall t l s s' v, first_token F l t (q_inp s) -> q_val F n t s = (s', Ok v) -> value_at F l v (q_inp s').
  Proof.
    induction n as [|n IH]; intros t l s s' v Ht H; [discriminate|]. cbn [q_val] in H.
    destruct t; try discriminate H; try (inversion H; subst; eapply va_tok; [exact Ht|]; constructor).
    - apply bind_inv in H as (s1 & vs & E & H). inversion H; subst. eapply va_arr; [exact Ht|]. eapply vals_at; [exact IH | exact E].
  Qed.
  (** No panics but those of [start_array] *)
  Definition calm {A} (m : qm A) : Prop := forall s s' p, m s <> (s', Panic p).
  Lemma calm_bind {A B} (m : qm A) (f : A -> qm B) : calm m -> (forall a, calm (f a)) -> calm (qbind m f).
  Proof. intros Hm Hf s s' p H. apply bind_panic in H as [H|(s1 & a & _ & H)]; [exact (Hm _ _ _ H) | exact (Hf _ _ _ _ H)]. Qed.
  Lemma calm_ret {A} (a : A) : calm (qret a).
  Proof. intros s s' p. discriminate. Qed.
  Lemma calm_err {A} t : calm (@q_err A t).
  Proof. intros s s' p. discriminate. Qed.
  Lemma calm_next : calm (q_next F).
  Proof. intros s s' p. unfold q_next. destruct (q_scan _ _ _) as [l [t|w]]; discriminate. Qed.
  Lemma calm_vals val : (forall t, calm (val t)) -> forall n, calm (q_vals F val n).
  Proof.
    intros Hv. induction n as [|n IH]; [intros s s' p; discriminate|]. cbn [q_vals]. apply calm_bind; [apply calm_next|]. intro t.
    destruct t; try apply calm_ret; try exact IH; (apply calm_bind; [apply Hv|]; intro v; apply calm_bind; [exact IH | intro; apply calm_ret]).
  Qed.
  Lemma calm_val n : forall t, calm (q_val F n t).
  Proof.
    induction n as [|n IH]; intro t; [intros s s' p; discriminate|]. cbn [q_val]. destruct t; try apply calm_ret; try apply calm_err.
    apply calm_bind; [apply calm_vals, IH | intro; apply calm_ret].
  Qed.
  Lemma calm_close : calm (q_close F).
  Proof. apply calm_bind; [apply calm_next|]. intro t. destruct t; try apply calm_err; apply calm_ret. Qed.
  Lemma close_first s s' u : q_close F s = (s', Ok u) -> first_token F (q_inp s) QClose (q_inp s').
  Proof. unfold q_close. intro H. apply bind_inv in H as (s1 & t & Ht & H). apply next_first in Ht. destruct t; try discriminate H. inversion H; subst. exact Ht. Qed.

  (** ** Values are determined by the text *)
  Lemma value_first l v r : value_at F l v r -> exists t r1, first_token F l t r1 /\ vtok t.
  Proof. intros [l' t v' r' Ht Hv|l' l1 vs r' Ht _]; eexists; eexists; (split; [exact Ht|]); [eapply tok_vtok; exact Hv | repeat split; discriminate]. Qed.
  Lemma value_fun : (forall l v r, value_at F l v r -> forall v' r', value_at F l v' r' -> v = v' /\ r = r') /\
    (forall l vs r, values_at F l vs r -> forall vs' r', values_at F l vs' r' -> vs = vs' /\ r = r').
  Proof.
    apply value_at_mutind.
    - intros l t v r Ht Hv v' r' H. inversion H as [? t' ? ? Ht' Hv'|? l1 vs ? Ht' Hvs]; subst; destruct (first_fun F _ _ _ _ _ Ht Ht') as [-> ->].
      + split; [|reflexivity]. destruct Hv; inversion Hv'; reflexivity.
      + inversion Hv.
    - intros l l1 vs r Ht _ IH v' r' H. inversion H as [? t' ? ? Ht' Hv'|? l1' vs' ? Ht' Hvs]; subst; destruct (first_fun F _ _ _ _ _ Ht Ht') as [E ->].
      + subst t'. inversion Hv'.
      + destruct (IH _ _ Hvs) as [-> ->]. auto.
    - intros l r Ht vs' r' H. inversion H as [? ? Ht'|? ? Ht'|? l1 vs ? Ht' Hvs|? v l1 vs ? Hv Hvs]; subst.
      4: destruct (value_first _ _ _ Hv) as (t & r1 & Ht' & (V1 & V2 & V3)). all: destruct (first_fun F _ _ _ _ _ Ht Ht') as [E E']; try discriminate E; auto. congruence.
    - intros l r Ht vs' r' H. inversion H as [? ? Ht'|? ? Ht'|? l1 vs ? Ht' Hvs|? v l1 vs ? Hv Hvs]; subst.
      4: destruct (value_first _ _ _ Hv) as (t & r1 & Ht' & (V1 & V2 & V3)). all: destruct (first_fun F _ _ _ _ _ Ht Ht') as [E E']; try discriminate E; auto. congruence.
    - intros l l1 vs r Ht _ IH vs' r' H. inversion H as [? ? Ht'|? ? Ht'|? l1' vs2 ? Ht' Hvs|? v l1' vs2 ? Hv Hvs]; subst.
      4: destruct (value_first _ _ _ Hv) as (t & r1 & Ht' & (V1 & V2 & V3)). all: destruct (first_fun F _ _ _ _ _ Ht Ht') as [E E']; try discriminate E; try congruence. subst l1'. auto.
    - intros l v l1 vs r Hv IHv _ IH vs' r' H. destruct (value_first _ _ _ Hv) as (t & r1 & Ht & (V1 & V2 & V3)).
      inversion H as [? ? Ht'|? ? Ht'|? l1' vs2 ? Ht' Hvs|? v2 l1' vs2 ? Hv2 Hvs]; subst.
      4: { destruct (IHv _ _ Hv2) as [-> ->]. destruct (IH _ _ Hvs) as [-> ->]. auto. }
      all: destruct (first_fun F _ _ _ _ _ Ht Ht') as [E E']; congruence.
  Qed.
End Values.

(** ** Documents *)
Section Documents.
  Variable F : flt. Variable show : N -> str.
  Definition step (e : entry) (scope : str) (o : out) : res qerr (str * out) :=
    match e with
    | ETable k => Ok (k, o)
    | ETables k => match start_array k o with Ok o' => Ok ([], o') | Err e => Err e | Panic p => Panic p | NoFuel => NoFuel end
    | ESet k v => match o_check o with Some p => Panic p | None => Ok (scope, o_insert (full_key scope k) v o) end
    end.
  Fixpoint steps (es : list entry) (scope : str) (o : out) : res qerr (str * out) :=
    match es with
    | [] => Ok (scope, o)
    | e :: r => match step e scope o with Ok (sc, o') => steps r sc o' | Err e => Err e | Panic p => Panic p | NoFuel => NoFuel end
    end.
  Lemma run_steps es : forall scope o, run es scope o = match steps es scope o with Ok (_, o') => Ok (o_map o') | Err e => Err e | Panic p => Panic p | NoFuel => NoFuel end.
  Proof.
    induction es as [|e es IH]; intros scope o; [reflexivity|]. cbn [run steps]. destruct e as [k|k|k v]; cbn [step].
    - apply IH.
    - destruct (start_array k o); try reflexivity. apply IH.
    - destruct (o_check o); [reflexivity | apply IH].
  Qed.
  Lemma line_none n scope o s s' : q_line_ F show n scope o s = (s', Ok None) -> first_token F (q_inp s) QEof (q_inp s').
  Proof.
    unfold q_line_. intro H. apply bind_inv in H as (s1 & t & Ht & H). apply next_first in Ht. destruct t; try discriminate H.
    all: try (apply bind_inv in H as (? & ? & _ & H); discriminate H).
    - apply bind_inv in H as (s2 & t2 & _ & H). destruct t2; try discriminate H; try (apply bind_inv in H as (? & ? & _ & H); discriminate H).
      apply bind_inv in H as (s3 & t3 & _ & H). destruct t3; try discriminate H; apply bind_inv in H as (? & ? & _ & H); apply bind_inv in H as (? & ? & _ & H);
        match type of H with context [start_array ?k o] => destruct (start_array k o); discriminate H end.
    - inversion H; subst. exact Ht.
  Qed.
  Lemma key_value_at n scope k o s s' o' : q_key_value F n scope k o s = (s', Ok o') -> o_check o = None /\
    exists l2 v, first_token F (q_inp s) QEq l2 /\ value_at F l2 v (q_inp s') /\ o' = o_insert (full_key scope k) v o.
  Proof.
    unfold q_key_value. destruct (o_check o) eqn:Ec; [discriminate|]. intro H. split; [reflexivity|].
    apply bind_inv in H as (s1 & t & Ht & H). apply next_first in Ht. destruct t; try discriminate H.
    apply bind_inv in H as (s2 & t2 & Ht2 & H). apply next_first in Ht2. apply bind_inv in H as (s3 & v & Hv & H). inversion H; subst.
    exists (q_inp s1), v. split; [exact Ht|]. split; [eapply val_at_of; eassumption | reflexivity].
  Qed.
  Lemma tok_key_text t k : tok_key show t k -> q_text show t = k /\
    match t with QEq | QOpen | QClose | QComma | QEof => False | _ => True end.
  Proof. intros []; auto. Qed.
  Lemma text_tok_key t : match t with QEq | QOpen | QClose | QComma | QEof => False | _ => True end -> tok_key show t (q_text show t).
  Proof. destruct t as [s|s|n|z|b|b|neg|neg|s| | | | |]; cbn [q_text]; try contradiction; intros _; try constructor; try destruct b; try destruct neg; constructor. Qed.
  Lemma line_some n scope o s s' sc o' : q_line_ F show n scope o s = (s', Ok (Some (sc, o'))) ->
    exists e, entry_at F show (q_inp s) e (q_inp s') /\ step e scope o = Ok (sc, o').
  Proof.
    unfold q_line_. intro H. apply bind_inv in H as (s1 & t & Ht & H). apply next_first in Ht.
    assert (KV : match t with QEq | QOpen | QClose | QComma | QEof => False | _ => True end ->
      qbind (q_key_value F n scope (q_text show t) o) (fun o' => qret (Some (scope, o'))) s1 = (s', Ok (Some (sc, o'))) ->
      exists e, entry_at F show (q_inp s) e (q_inp s') /\ step e scope o = Ok (sc, o')).
    { intros Hk X. apply bind_inv in X as (s2 & o2 & E & X). inversion X; subst. apply key_value_at in E as (Ec & l2 & v & Hq & Hv & ->).
      exists (ESet (q_text show t) v). split; [eapply ea_set; [exact Ht | apply text_tok_key; exact Hk | exact Hq | exact Hv]|]. cbn [step]. rewrite Ec. reflexivity. }
    destruct t; try discriminate H; try (apply KV; [exact I | exact H]). clear KV.
    apply bind_inv in H as (s2 & t2 & Ht2 & H). apply next_first in Ht2. destruct t2; try discriminate H.
    - apply bind_inv in H as (s3 & u & Hc & H). apply close_first in Hc. inversion H; subst. exists (ETable sc). split; [|reflexivity]. eapply ea_table; [exact Ht | exact Ht2 | auto | exact Hc].
    - apply bind_inv in H as (s3 & u & Hc & H). apply close_first in Hc. inversion H; subst. exists (ETable sc). split; [|reflexivity]. eapply ea_table; [exact Ht | exact Ht2 | auto | exact Hc].
    - apply bind_inv in H as (s3 & t3 & Ht3 & H). apply next_first in Ht3.
      assert (AR : match t3 with QEq | QOpen | QClose | QComma | QEof => False | _ => True end -> (forall x, t3 <> QStr x) ->
        qbind (q_close F) (fun _ => qbind (q_close F) (fun _ => match start_array (q_text show t3) o with Ok o' => qret (Some ([], o')) | Err e => qfail (Err e) | Panic p => qfail (Panic p) | NoFuel => qfail NoFuel end)) s3 = (s', Ok (Some (sc, o'))) ->
        exists e, entry_at F show (q_inp s) e (q_inp s') /\ step e scope o = Ok (sc, o')).
      { intros Hk Hns X. apply bind_inv in X as (s4 & u & Hc & X). apply close_first in Hc. apply bind_inv in X as (s5 & u' & Hc' & X). apply close_first in Hc'.
        exists (ETables (q_text show t3)). cbn [step]. destruct (start_array (q_text show t3) o) as [o2|e|p|]; try discriminate X. inversion X; subst. split; [|reflexivity].
        eapply ea_tables; [exact Ht | exact Ht2 | exact Ht3 | apply text_tok_key; exact Hk | exact Hns | exact Hc | exact Hc']. }
      destruct t3; try discriminate H; apply AR; try exact I; try exact H; discriminate.
  Qed.
  Lemma line_panic n scope o s s' p : good o -> q_line_ F show n scope o s = (s', Panic p) ->
    exists e, entry_at F show (q_inp s) e (q_inp s') /\ step e scope o = Panic p.
  Proof.
    intro Hg. unfold q_line_. intro H. apply bind_panic in H as [H|(s1 & t & Ht & H)]; [destruct (calm_next F _ _ _ H)|]. apply next_first in Ht.
    assert (KV : forall k, qbind (q_key_value F n scope k o) (fun o' => qret (Some (scope, o'))) s1 <> (s', Panic p)).
    { intros k X. apply bind_panic in X as [X|(? & ? & _ & X)]; [|discriminate]. unfold q_key_value in X. rewrite Hg in X.
      apply bind_panic in X as [X|(s2 & t2 & _ & X)]; [exact (calm_next F _ _ _ X)|]. destruct t2; try discriminate X.
      apply bind_panic in X as [X|(s3 & t3 & _ & X)]; [exact (calm_next F _ _ _ X)|].
      apply bind_panic in X as [X|(s4 & v & _ & X)]; [exact (calm_val F _ _ _ _ _ X) | discriminate X]. }
    destruct t; try discriminate H; try (destruct (KV _ H)). clear KV.
    apply bind_panic in H as [H|(s2 & t2 & Ht2 & H)]; [destruct (calm_next F _ _ _ H)|]. apply next_first in Ht2. destruct t2; try discriminate H.
    - apply bind_panic in H as [H|(s3 & u & Hc & H)]; [destruct (calm_close F _ _ _ H) | discriminate H].
    - apply bind_panic in H as [H|(s3 & u & Hc & H)]; [destruct (calm_close F _ _ _ H) | discriminate H].
    - apply bind_panic in H as [H|(s3 & t3 & Ht3 & H)]; [destruct (calm_next F _ _ _ H)|]. apply next_first in Ht3.
      assert (AR : match t3 with QEq | QOpen | QClose | QComma | QEof => False | _ => True end -> (forall x, t3 <> QStr x) ->
        qbind (q_close F) (fun _ => qbind (q_close F) (fun _ => match start_array (q_text show t3) o with Ok o' => qret (Some (([] : str), o')) | Err e => qfail (Err e) | Panic p => qfail (Panic p) | NoFuel => qfail NoFuel end)) s3 = (s', Panic p) ->
        exists e, entry_at F show (q_inp s) e (q_inp s') /\ step e scope o = Panic p).
      { intros Hk Hns X. apply bind_panic in X as [X|(s4 & u & Hc & X)]; [destruct (calm_close F _ _ _ X)|]. apply close_first in Hc.
        apply bind_panic in X as [X|(s5 & u' & Hc' & X)]; [destruct (calm_close F _ _ _ X)|]. apply close_first in Hc'.
        exists (ETables (q_text show t3)). cbn [step]. destruct (start_array (q_text show t3) o) as [o2|e|q|]; try discriminate X. inversion X; subst. split; [|reflexivity].
        eapply ea_tables; [exact Ht | exact Ht2 | exact Ht3 | apply text_tok_key; exact Hk | exact Hns | exact Hc | exact Hc']. }
      destruct t3; try discriminate H; apply AR; try exact I; try exact H; discriminate.
  Qed.
  Lemma lines_ok n : forall scope o s s' m, q_lines F show n scope o s = (s', Ok m) ->
    exists es l, entries_at F show (q_inp s) es l /\ first_token F l QEof (q_inp s') /\ run es scope o = Ok m.
  Proof.
    induction n as [|n IH]; intros scope o s s' m H; [discriminate|]. cbn [q_lines] in H. apply bind_inv in H as (s1 & [[sc o']|] & E & H).
    - apply line_some in E as (e & He & Hs). destruct (IH _ _ _ _ _ H) as (es & l & Hes & Hl & Hr). exists (e :: es), l.
      split; [econstructor; eassumption|]. split; [exact Hl|]. rewrite run_steps in *. cbn [steps]. rewrite Hs. exact Hr.
    - inversion H; subst. apply line_none in E. exists [], (q_inp s). split; [constructor|]. split; [exact E | reflexivity].
  Qed.
  Lemma step_good e scope o sc o' : good o -> step e scope o = Ok (sc, o') -> good o'.
  Proof.
    intros Hg. destruct e as [k|k|k v]; cbn [step]; intro H.
    - inversion H; subst. exact Hg.
    - destruct (start_array k o) as [o2|?|?|] eqn:E; inversion H; subst. eapply good_array. exact E.
    - destruct (o_check o); inversion H; subst. apply good_insert. exact Hg.
  Qed.
  Lemma lines_panic n : forall scope o s s' p, good o -> q_lines F show n scope o s = (s', Panic p) ->
    exists es l, entries_at F show (q_inp s) es l /\ run es scope o = Panic p.
  Proof.
    induction n as [|n IH]; intros scope o s s' p Hg H; [discriminate|]. cbn [q_lines] in H. apply bind_panic in H as [H|(s1 & [[sc o']|] & E & H)]; [| |discriminate H].
    - apply (line_panic _ _ _ _ _ _ Hg) in H as (e & He & Hs). exists [e], (q_inp s'). split; [econstructor; [exact He | constructor]|]. rewrite run_steps. cbn [steps]. rewrite Hs. reflexivity.
    - apply line_some in E as (e & He & Hs). destruct (IH _ _ _ _ _ (step_good _ _ _ _ _ Hg Hs) H) as (es & l & Hes & Hr). exists (e :: es), l.
      split; [econstructor; eassumption|]. rewrite run_steps in *. cbn [steps]. rewrite Hs. exact Hr.
  Qed.

  (** The other way round. *)
  Lemma line_entry l e r : entry_at F show l e r -> forall scope o, exists N, forall n, (N <= n)%nat -> forall ln, exists s',
    q_line_ F show n scope o {| q_inp := l; q_ln := ln |} = (s', match step e scope o with Ok x => Ok (Some x) | Err e => Err e | Panic p => Panic p | NoFuel => NoFuel end) /\
    forall x, step e scope o = Ok x -> q_inp s' = r.
  Proof.
    intros [l0 t k l1 l2 v r' H1 Hk H2 Hv|l0 l1 t k l2 r' H1 H2 Ht H3|l0 l1 l2 t k l3 l4 r' H1 H2 H3 Hk Hns H4 H5] scope o; cbn [step].
    - apply first_reads in H1, H2. apply tok_key_text in Hk as [Hk Hkk]. destruct (proj1 (value_at_reads F) _ _ _ Hv) as (t2 & l3 & H3 & _ & [N HN]).
      assert (El : forall n ln, exists ln', q_line_ F show n scope o {| q_inp := l0; q_ln := ln |} =
        qbind (q_key_value F n scope k o) (fun o' => qret (Some (scope, o'))) {| q_inp := l1; q_ln := ln' |}).
      { intros n ln. unfold q_line_. destruct (next_reads F l0 t l1 ln H1) as [ln' E]. exists ln'. unfold qbind at 1. rewrite E. rewrite <- Hk. destruct t; try contradiction; reflexivity. }
      exists N. intros n Hn ln. destruct (El n ln) as [ln1 E]. rewrite E. unfold q_key_value. destruct (o_check o) as [p|]; [eexists; split; [reflexivity | discriminate]|].
      destruct (next_reads F l1 QEq l2 ln1 H2) as [ln2 E2]. destruct (next_reads F l2 t2 l3 ln2 H3) as [ln3 E3]. destruct (HN n Hn ln3) as [ln4 E4].
      exists {| q_inp := r'; q_ln := ln4 |}. split; [|reflexivity]. unfold qbind. rewrite E2, E3, E4. reflexivity.
    - apply first_reads in H1, H2, H3. exists O. intros n _ ln.
      destruct (next_reads F l0 _ l1 ln H1) as [ln1 E1]. destruct (next_reads F l1 _ l2 ln1 H2) as [ln2 E2]. destruct (next_reads F l2 _ r' ln2 H3) as [ln3 E3].
      exists {| q_inp := r'; q_ln := ln3 |}. split; [|reflexivity]. unfold q_line_, q_close, qbind. rewrite E1, E2. destruct Ht as [-> | ->]; rewrite E3; reflexivity.
    - apply first_reads in H1, H2, H3, H4, H5. apply tok_key_text in Hk as [Hk Hkk]. exists O. intros n _ ln.
      destruct (next_reads F l0 _ l1 ln H1) as [ln1 E1]. destruct (next_reads F l1 _ l2 ln1 H2) as [ln2 E2]. destruct (next_reads F l2 _ l3 ln2 H3) as [ln3 E3].
      destruct (close_reads F l3 l4 ln3 H4) as [ln4 E4]. destruct (close_reads F l4 r' ln4 H5) as [ln5 E5].
      exists {| q_inp := r'; q_ln := ln5 |}. split; [|reflexivity]. unfold q_line_, qbind. rewrite E1, E2, E3. subst k.
      destruct t; try contradiction; try (destruct (Hns _ eq_refl)); rewrite E4, E5; match goal with |- context [start_array ?a o] => destruct (start_array a o) end; reflexivity.
  Qed.
  Lemma entries_run text es l : entries_at F show text es l -> forall scope o, exists N, forall n, (N <= n)%nat -> forall ln,
    match steps es scope o with
    | Ok (sc, o') => exists ln', q_lines F show (length es + n) scope o {| q_inp := text; q_ln := ln |} = q_lines F show n sc o' {| q_inp := l; q_ln := ln' |}
    | Panic p => snd (q_lines F show (length es + n) scope o {| q_inp := text; q_ln := ln |}) = Panic p
    | _ => True
    end.
  Proof.
    induction 1 as [l|l e l1 es r He Hes IH]; intros scope o.
    - exists O. intros n _ ln. exists ln. reflexivity.
    - cbn [steps length]. destruct (line_entry l e l1 He scope o) as [N HN]. destruct (step e scope o) as [[sc o']|?|p|]; try (exists O; intros; exact I).
      + destruct (IH sc o') as [M HM]. exists (N + M)%nat. intros n Hn ln. destruct (HN (length es + n)%nat ltac:(lia) ln) as (s' & E & Ei). specialize (Ei _ eq_refl). destruct s' as [i ln1]. cbn [q_inp] in Ei. subst i.
        specialize (HM n ltac:(lia) ln1). cbn [Nat.add q_lines]. destruct (steps es sc o') as [[sc2 o2]|?|?|]; try exact I.
        * destruct HM as [ln2 E2]. exists ln2. unfold qbind. rewrite E. exact E2.
        * unfold qbind. rewrite E. exact HM.
      + exists N. intros n Hn ln. destruct (HN (length es + n)%nat ltac:(lia) ln) as (s' & E & _). cbn [Nat.add q_lines]. unfold qbind. rewrite E. reflexivity.
  Qed.
  Let o0 := {| o_map := []; o_active := None |}.
  Lemma parse_ok text m : toml_parse F show text = Ok m <-> exists es, toml_text F show text es /\ run es [] o0 = Ok m.
  Proof.
    split.
    - unfold toml_parse, parse_toml. destruct (q_lines _ _ _ _ _ _) as [s' r] eqn:E. cbn [snd]. intros ->. apply lines_ok in E as (es & l & He & Hl & Hr).
      exists es. split; [exists l, (q_inp s'); split; assumption | exact Hr].
    - intros (es & (l & r & He & Hl) & Hr). destruct (entries_run text es l He [] o0) as [N HN]. rewrite run_steps in Hr.
      rewrite <- (parse_enough F show text (length es + S (length text + N))) by lia. unfold parse_toml, q_start. specialize (HN (S (length text + N)) ltac:(lia) (lines_to (0 :: text) text)).
      destruct (steps es [] o0) as [[sc o']|?|?|]; try discriminate Hr. destruct HN as [ln' E]. fold o0. rewrite E. cbn [q_lines].
      destruct (line_end F show (length text + N) sc o' l ln' r (first_reads F _ _ _ Hl)) as [ln2 E2]. unfold qbind. rewrite E2. exact Hr.
  Qed.
  Lemma parse_panic text p : toml_parse F show text = Panic p <-> exists es l, entries_at F show text es l /\ run es [] o0 = Panic p.
  Proof.
    split.
    - unfold toml_parse, parse_toml. destruct (q_lines _ _ _ _ _ _) as [s' r] eqn:E. cbn [snd]. intros ->. apply lines_panic in E as (es & l & He & Hr); [|reflexivity].
      exists es, l. split; assumption.
    - intros (es & l & He & Hr). destruct (entries_run text es l He [] o0) as [N HN]. rewrite run_steps in Hr.
      rewrite <- (parse_enough F show text (length es + S (length text + N))) by lia. unfold parse_toml, q_start. specialize (HN (S (length text + N)) ltac:(lia) (lines_to (0 :: text) text)).
      destruct (steps es [] o0) as [[sc o']|?|?|]; try discriminate Hr. inversion Hr; subst. exact HN.
  Qed.
  Lemma entry_wf l e r : entry_at F show l e r -> wf_entry e.
  Proof. intros []; try exact I. cbn [wf_entry]. match goal with H : value_at _ _ ?v _ |- _ => destruct H as [? ? ? ? ? Hv|]; [destruct Hv|] end; exact I. Qed.
  Lemma entries_wf l es r : entries_at F show l es r -> Forall wf_entry es.
  Proof. induction 1; constructor; try assumption. eapply entry_wf; eassumption. Qed.
  Lemma means_fun es m m' : means es m -> means es m' -> m = m'.
  Proof.
    intros [S1 H1] [S2 H2]. apply sorted_ext; try assumption. intro k. destruct (t_get k m) as [v|] eqn:E.
    - symmetry. apply H2, H1, E.
    - destruct (t_get k m') as [v|] eqn:E2; [|reflexivity]. apply H2, H1 in E2. congruence.
  Qed.
  (** The entries are determined by the text. *)
  Lemma tok_key_fun t k k' : tok_key show t k -> tok_key show t k' -> k = k'.
  Proof. intros H H'. apply tok_key_text in H as [<- _], H' as [<- _]. reflexivity. Qed.
  Lemma entry_fun l e r e' r' : entry_at F show l e r -> entry_at F show l e' r' -> e = e' /\ r = r'.
  Proof.
    intros H H'. pose proof (fun a b c d x y z => first_fun F a b c d x y z) as FF.
    destruct H as [l0 t k l1 l2 v r H1 Hk H2 Hv|l0 l1 t k l2 r H1 H2 Ht H3|l0 l1 l2 t k l3 l4 r H1 H2 H3 Hk Hns H4 H5];
      inversion H' as [? t' k' l1' l2' v' ? H1' Hk' H2' Hv'|? l1' t' k' l2' ? H1' H2' Ht' H3'|? l1' l2' t' k' l3' l4' ? H1' H2' H3' Hk' Hns' H4' H5']; subst;
      destruct (first_fun F _ _ _ _ _ H1 H1') as [E1 E2]; try discriminate E1; subst.
    - rewrite (tok_key_fun _ _ _ Hk Hk') in *. destruct (first_fun F _ _ _ _ _ H2 H2') as [_ ->]. destruct (proj1 (value_fun F) _ _ _ Hv _ _ Hv') as [-> ->]. auto.
    - inversion Hk.
    - inversion Hk.
    - inversion Hk'.
    - destruct (first_fun F _ _ _ _ _ H2 H2') as [-> ->]. destruct (first_fun F _ _ _ _ _ H3 H3') as [_ ->]. split; [|reflexivity]. destruct Ht as [-> | ->], Ht' as [E|E]; inversion E; reflexivity.
    - destruct (first_fun F _ _ _ _ _ H2 H2') as [-> _]. destruct Ht as [E|E]; discriminate E.
    - inversion Hk'.
    - destruct (first_fun F _ _ _ _ _ H2 H2') as [E _]. subst t'. destruct Ht' as [E|E]; discriminate E.
    - destruct (first_fun F _ _ _ _ _ H2 H2') as [_ ->]. destruct (first_fun F _ _ _ _ _ H3 H3') as [-> ->]. rewrite (tok_key_fun _ _ _ Hk Hk').
      destruct (first_fun F _ _ _ _ _ H4 H4') as [_ ->]. destruct (first_fun F _ _ _ _ _ H5 H5') as [_ ->]. auto.
  Qed.
  Lemma entry_not_end l e r r' : entry_at F show l e r -> first_token F l QEof r' -> False.
  Proof.
    intros H H'. destruct H as [l0 t k l1 l2 v r H1 Hk H2 Hv|l0 l1 t k l2 r H1 H2 Ht H3|l0 l1 l2 t k l3 l4 r H1 H2 H3 Hk Hns H4 H5]; destruct (first_fun F _ _ _ _ _ H1 H') as [E _]; try discriminate E.
    subst t. inversion Hk.
  Qed.
  Lemma text_fun text es es' : toml_text F show text es -> toml_text F show text es' -> es = es'.
  Proof.
    intros (l & r & H & Hl) (l' & r' & H' & Hl'). revert es' H'. induction H as [l|l e l1 es r0 He Hes IH]; intros es' H'; inversion H' as [|? e' l1' es2 ? He' Hes']; subst.
    - reflexivity.
    - destruct (entry_not_end _ _ _ _ He' Hl).
    - destruct (entry_not_end _ _ _ _ He Hl').
    - destruct (entry_fun _ _ _ _ _ He He') as [-> ->]. f_equal. apply IH; assumption.
  Qed.
End Documents.
