(** The errors of SpecTomlErr.v are exactly those the TOML reader reports. *)
From Verif Require Import Base Utf8 Types Text TextModel TextToks TextLex SpecText SpecGram TextGram TomlModel SpecToml TomlRead TomlDoc TomlTerm SpecTomlAcc TomlAcc SpecTomlErr.
Local Open Scope N_scope.

Section Lexer.
  Variable F : flt.
  Lemma stop_more r : ~ key_char (cur r) <-> r = [] \/ more (cur r) = false.
  Proof.
    rewrite more_key. split; [intro H; right; destruct (more (cur r)); congruence|]. intros [-> |H]; [|congruence]. discriminate.
  Qed.
  Lemma word_bad_inv st l r w : q_word st l = (r, inr w) -> w = chars "tokenizer" /\ exists u, l = u ++ r /\ Forall key_char u /\ ~ key_char (cur r) /\ ~ word_end r.
  Proof.
    unfold q_word. fold more. intro H. destruct (q_term (cur (drop_while more l))) eqn:E; [discriminate|]. inversion H; subst. split; [reflexivity|].
    exists (take_while more l). split; [symmetry; apply take_drop|].
    split; [apply (Forall_forallb _ more _ more_key), take_all|]. split; [apply stop_more, drop_stop | rewrite word_end_term; congruence].
  Qed.
  Lemma word_bad_of st u r : Forall key_char u -> ~ key_char (cur r) -> ~ word_end r -> q_word st (u ++ r) = (r, inr (chars "tokenizer")).
  Proof.
    intros Hu Hk Hr. unfold q_word. fold more. apply stop_more in Hk. pose proof (proj1 (Forall_forallb _ more u more_key) Hu) as Hb.
    rewrite drop_while_app by assumption. rewrite word_end_term in Hr. destruct (q_term (cur r)); [congruence | reflexivity].
  Qed.

  (** Strings *)
  Lemma body_short_bad n : forall l r, (length l < n)%nat -> q_body n false l = (r, None) -> short_open l r.
  Proof.
    induction n as [|n IH]; intros l r Hn H; [lia|]. cbn [q_body] in H.
    destruct (cur l =? c_quote) eqn:Eq; cbn [andb negb] in H; [discriminate|].
    destruct (cur l =? c_bslash) eqn:Eb.
    - apply N.eqb_eq in Eb. destruct (q_body n false (tl (tl l))) as [r' [s'|]] eqn:E; [discriminate|]. inversion H; subst r'.
      pose proof (cur_cons l 92 Eb ltac:(discriminate)) as E0. destruct (tl l) as [|x l2] eqn:E1; cbn [tl] in E.
      + rewrite E0. destruct n as [|n]; [rewrite E0 in Hn; cbn in Hn; lia|]. cbn in E. inversion E; subst. apply so_cut.
      + rewrite E0. apply so_esc. apply IH; [rewrite E0 in Hn; cbn in Hn; lia | exact E].
    - destruct (cur l =? 0) eqn:E0; [inversion H; subst; apply N.eqb_eq in E0; apply so_end; exact E0|].
      destruct (q_body n false (tl l)) as [r' [s'|]] eqn:E; [discriminate|]. inversion H; subst r'.
      apply N.eqb_neq in Eq, Eb, E0. pose proof (cur_cons l (cur l) eq_refl E0) as E1. rewrite E1 in Hn |- *. cbn [tl] in Hn. apply so_plain; try assumption.
      apply IH; [cbn in Hn; lia | exact E].
  Qed.
  Lemma body_short_bad_of l r : short_open l r -> forall n, (length l < n)%nat -> q_body n false l = (r, None).
  Proof.
    induction 1 as [r Hr|x t r H1 H2 H3 H IH|x t r H IH|]; intros n Hn; (destruct n as [|n]; [lia|]); cbn [q_body cur tl].
    - rewrite Hr. reflexivity.
    - unfold c_quote, c_bslash. rewrite (proj2 (N.eqb_neq x 34) H1), (proj2 (N.eqb_neq x 92) H2), (proj2 (N.eqb_neq x 0) H3). cbn [andb].
      rewrite IH by (cbn in Hn; lia). reflexivity.
    - change (92 =? c_quote) with false. change (92 =? c_bslash) with true. cbn [andb]. rewrite IH by (cbn in Hn; lia). reflexivity.
    - change (92 =? c_quote) with false. change (92 =? c_bslash) with true. cbn [andb]. destruct n as [|n]; [cbn in Hn; lia|]. reflexivity.
  Qed.
  Lemma body_long_bad n : forall l r, (length l < n)%nat -> q_body n true l = (r, None) -> long_open l r.
  Proof.
    induction n as [|n IH]; intros l r Hn H; [lia|]. cbn [q_body] in H. rewrite andb_false_r in H.
    destruct (cur l =? c_quote) eqn:Eq.
    - pose proof (take_drop (fun x => x =? c_quote) l) as Etd. pose proof (proj2 (quotes_all _) (take_all (fun x => x =? c_quote) l)) as Hq.
      pose proof (drop_stop (fun x => x =? c_quote) l) as Hs.
      assert (Hne : take_while (fun x => x =? c_quote) l <> []).
      { destruct l as [|x l]; [discriminate|]. cbn [cur] in Eq. cbn [take_while]. rewrite Eq. discriminate. }
      set (q := take_while (fun x => x =? c_quote) l) in *. set (r0 := drop_while (fun x => x =? c_quote) l) in *. clearbody q r0.
      destruct (Nat.eqb_spec (length q) 3) as [E3|E3]; [discriminate|].
      destruct (q_body n true (tl r0)) as [r' [s'|]] eqn:E; [discriminate|]. inversion H; subst r'.
      assert (Lq : (0 < length q)%nat) by (destruct q; [congruence | cbn; lia]).
      rewrite <- Etd in Hn |- *. rewrite app_length in Hn. destruct r0 as [|x r1]; cbn [tl] in E.
      + rewrite app_nil_r. destruct n as [|n]; [lia|]. cbn in E. inversion E; subst. apply lo_quotes_cut; assumption.
      + apply lo_quotes; try assumption; [|apply IH; [cbn in Hn; lia | exact E]]. destruct Hs as [Hs|Hs]; [discriminate | apply N.eqb_neq; exact Hs].
    - destruct (cur l =? c_bslash) eqn:Eb.
      + apply N.eqb_eq in Eb. destruct (q_body n true (tl (tl l))) as [r' [s'|]] eqn:E; [discriminate|]. inversion H; subst r'.
        pose proof (cur_cons l 92 Eb ltac:(discriminate)) as E0. destruct (tl l) as [|x l2] eqn:E1; cbn [tl] in E.
        * rewrite E0. destruct n as [|n]; [rewrite E0 in Hn; cbn in Hn; lia|]. cbn in E. inversion E; subst. apply lo_cut.
        * rewrite E0. apply lo_esc. apply IH; [rewrite E0 in Hn; cbn in Hn; lia | exact E].
      + destruct (cur l =? 0) eqn:E0; [inversion H; subst; apply N.eqb_eq in E0; apply lo_end; exact E0|].
        destruct (q_body n true (tl l)) as [r' [s'|]] eqn:E; [discriminate|]. inversion H; subst r'.
        apply N.eqb_neq in Eq, Eb, E0. pose proof (cur_cons l (cur l) eq_refl E0) as E1. rewrite E1 in Hn |- *. cbn [tl] in Hn. apply lo_plain; try assumption.
        apply IH; [cbn in Hn; lia | exact E].
  Qed.
  Lemma quote_head q r : Forall (eq 34) q -> q <> [] -> (cur (q ++ r) =? c_quote) = true.
  Proof. intros H Hne. destruct q; [congruence|]. inversion H; subst. reflexivity. Qed.
  Lemma body_long_bad_of l r : long_open l r -> forall n, (length l < n)%nat -> q_body n true l = (r, None).
  Proof.
    induction 1 as [r Hr|x t r H1 H2 H3 H IH|x t r H IH| |q x t r Hq Hne H3 Hx H IH|q Hq Hne H3]; intros n Hn; (destruct n as [|n]; [lia|]); cbn [q_body cur tl].
    - rewrite Hr. reflexivity.
    - unfold c_quote, c_bslash. rewrite (proj2 (N.eqb_neq x 34) H1), (proj2 (N.eqb_neq x 92) H2), (proj2 (N.eqb_neq x 0) H3). cbn [andb].
      rewrite IH by (cbn in Hn; lia). reflexivity.
    - change (92 =? c_quote) with false. change (92 =? c_bslash) with true. cbn [andb]. rewrite IH by (cbn in Hn; lia). reflexivity.
    - change (92 =? c_quote) with false. change (92 =? c_bslash) with true. cbn [andb]. destruct n as [|n]; [cbn in Hn; lia|]. reflexivity.
    - rewrite (quote_head q (x :: t) Hq Hne). cbn [andb negb].
      assert (Hstop : x :: t = [] \/ (cur (x :: t) =? c_quote) = false) by (right; apply N.eqb_neq; exact Hx).
      rewrite take_while_app, drop_while_app; try exact Hstop; try (apply quotes_all; exact Hq).
      destruct (Nat.eqb_spec (length q) 3); [contradiction|]. cbn [cur tl]. rewrite app_length in Hn. cbn [length] in Hn.
      rewrite IH by lia. reflexivity.
    - rewrite <- (app_nil_r q). rewrite (quote_head q [] Hq Hne). cbn [andb negb].
      rewrite take_while_app, drop_while_app; auto; try (apply quotes_all; exact Hq).
      destruct (Nat.eqb_spec (length q) 3); [contradiction|]. cbn [cur tl]. destruct n as [|n]; [destruct q; [congruence | cbn in Hn; lia]|]. reflexivity.
  Qed.
  Lemma string_bad_inv l r w : q_string l = (r, inr w) -> w = chars "string" /\ open_string (34 :: l) r.
  Proof.
    unfold q_string. destruct (cur l =? c_quote) eqn:E1; [destruct (cur (tl l) =? c_quote) eqn:E2|].
    - apply N.eqb_eq in E1, E2. destruct (q_body _ _ _) as [r0 [s|]] eqn:E; [discriminate|]. intro H. inversion H; subst. split; [reflexivity|].
      apply body_long_bad in E; [|lia]. rewrite (cur_cons l 34 E1), (cur_cons (tl l) 34 E2) by discriminate. apply (os_long _ _ E).
    - apply N.eqb_eq in E1. apply N.eqb_neq in E2. destruct (q_body _ _ _) as [r0 [s|]] eqn:E; [discriminate|]. intro H. inversion H; subst. split; [reflexivity|].
      apply body_short_bad in E; [|lia]. rewrite (cur_cons l 34 E1) by discriminate. apply (os_short [34; 34]); auto.
    - apply N.eqb_neq in E1. destruct (q_body _ _ _) as [r0 [s|]] eqn:E; [discriminate|]. intro H. inversion H; subst. split; [reflexivity|].
      apply body_short_bad in E; [|lia]. apply (os_short [34]); auto.
  Qed.
  Lemma string_bad_of l r : open_string l r -> exists l', l = 34 :: l' /\ q_string l' = (r, inr (chars "string")).
  Proof.
    intros [q b r' Hq Hc Hb|b r' Hb].
    - apply N.eqb_neq in Hc. change 34 with c_quote in Hc. destruct Hq as [-> | ->]; cbn [app]; eexists; (split; [reflexivity|]); unfold q_string.
      + rewrite Hc, (body_short_bad_of b r' Hb) by lia. reflexivity.
      + cbn [cur tl]. change (34 =? c_quote) with true. cbv iota. rewrite Hc, (body_short_bad_of b r' Hb) by lia. reflexivity.
    - cbn [app]. eexists. split; [reflexivity|]. unfold q_string. cbn [cur tl]. change (34 =? c_quote) with true. cbv iota.
      rewrite (body_long_bad_of b r' Hb) by lia. reflexivity.
  Qed.

  (** Numbers *)
  Lemma i64_none neg p d : eaten p -> forallb is_digit d = true ->
    (q_i64 (minus neg ++ p ++ d) = None <-> p <> [] \/ d = [] \/ (if neg then 2 ^ 63 < decimal d else 2 ^ 63 <= decimal d)).
  Proof.
    intros Hp Hd. rewrite decimal_val. destruct p as [|x p].
    - cbn [app]. destruct d as [|y d].
      + destruct neg; cbn [minus app]; split; auto.
      + assert (Hy : (y =? c_minus) = false) by (apply N.eqb_neq; intros ->; discriminate). destruct neg; cbn [minus app].
        * unfold q_i64. change (45 =? c_minus) with true. cbv iota. unfold parse_i64. change (45 =? c_minus) with true. cbn [andb]. rewrite Hd. cbn [andb].
          destruct (N.leb_spec (digits_val (y :: d)) (2 ^ 63)); split; try discriminate; auto.
          intros [X|[X|X]]; [congruence | discriminate | lia].
        * unfold q_i64. rewrite Hy, Hd. cbn [andb]. destruct (N.ltb_spec (digits_val (y :: d)) (2 ^ 63)); split; try discriminate; auto.
          intros [X|[X|X]]; [congruence | discriminate | lia].
    - split; [left; discriminate|]. intros _.
      assert (Hn : forallb is_digit ((x :: p) ++ d) = false).
      { destruct (forallb is_digit ((x :: p) ++ d)) eqn:E; [|reflexivity]. apply (eaten_nil (x :: p) d Hp) in E. discriminate. }
      assert (Hx : (x =? c_minus) = false).
      { destruct Hp as (q & [X|X]); injection X as -> _; reflexivity. }
      destruct neg; cbn [minus app] in *.
      + unfold q_i64. change (45 =? c_minus) with true. cbv iota. unfold parse_i64. change (45 =? c_minus) with true. cbn [andb]. rewrite Hn. reflexivity.
      + unfold q_i64. rewrite Hx, Hn. reflexivity.
  Qed.
  Lemma after_bad_inv neg p d l r w : eaten p -> forallb is_digit d = true -> ~ num_char (cur l) ->
    num_after F neg (minus neg ++ p ++ d) l = (r, inr w) -> bad_after F neg (minus neg ++ p ++ d) p d l w r.
  Proof.
    intros Hp Hd Hl H. pose proof (i64_none neg p d Hp Hd) as Hi. unfold num_after in H. remember (minus neg ++ p ++ d) as s eqn:Es. destruct (cur l =? c_dot) eqn:E1; [|destruct (cur l =? c_minus) eqn:E2; [|destruct (q_ident (cur l)) eqn:E3]].
    - apply N.eqb_eq in E1. destruct (f64_parse F _) as [b|] eqn:Eb; [discriminate|]. inversion H; subst w r.
      rewrite (cur_cons l 46 E1) at 1 by discriminate. rewrite <- (take_drop dig_us (tl l)) at 1.
      eapply ba_float; [apply spread_take | | exact Eb]. apply stop_us, drop_stop.
    - discriminate.
    - apply word_bad_inv in H as (-> & u & El & Hu & Hk & Hr). apply N.eqb_neq in E2.
      destruct u as [|x u]; [cbn [app] in El; subst l; destruct Hk; left; exact E3|].
      subst l. cbn [cur app] in *. inversion Hu; subst. apply ba_word; assumption.
    - apply N.eqb_neq in E1. destruct (q_i64 s) as [z|] eqn:Eq; [destruct neg; discriminate|].
      assert (X : (l, inr (chars "tokenizer")) = (r, inr w) :> qout) by (destruct neg; exact H). inversion X; subst w r. apply ba_int; try assumption. apply Hi. reflexivity.
  Qed.
  Lemma after_bad_of neg p d l r w : eaten p -> forallb is_digit d = true -> ~ num_char (cur l) ->
    bad_after F neg (minus neg ++ p ++ d) p d l w r -> num_after F neg (minus neg ++ p ++ d) l = (r, inr w).
  Proof.
    intros Hp Hd Hl H. pose proof (i64_none neg p d Hp Hd) as Hi. remember (minus neg ++ p ++ d) as s eqn:Es.
    destruct H as [neg s p d e w r He Hr Hb|neg s p d x w r Hx Hx2 Hw Hk Hr|neg s p d r Hc Hc2 Hb]; unfold num_after.
    - cbn [cur tl]. change (46 =? c_dot) with true. cbv iota. destruct (spread_app e w r He Hr) as [E1 E2]. rewrite E1, E2. unfold c_dot. rewrite Hb. reflexivity.
    - cbn [cur]. assert (Hd2 : x <> 46) by (intros ->; discriminate). unfold c_dot, c_minus. rewrite (proj2 (N.eqb_neq x 46) Hd2), (proj2 (N.eqb_neq x 45) Hx2), Hx.
      apply (word_bad_of s (x :: w) r); try assumption. constructor; [left; exact Hx | exact Hw].
    - unfold c_dot. rewrite (proj2 (N.eqb_neq _ _) Hc2), Hc.
      assert (Hm : (cur r =? c_minus) = false) by (apply N.eqb_neq; intro E; rewrite E in Hc; discriminate). rewrite Hm.
      rewrite (proj2 Hi Hb). destruct neg; reflexivity.
  Qed.
  Lemma num_bad_inv l r w : (cur l =? c_plus) || (cur l =? c_minus) || is_digit (cur l) = true -> q_num F l = (r, inr w) -> bad_number F l w r.
  Proof.
    intros Hc H.
    assert (Hs : exists sg neg l0, sign sg neg /\ (sg = [] -> 48 <= cur l0 <= 57) /\ l = sg ++ l0).
    { destruct (N.eqb_spec (cur l) c_plus) as [E|_]; [|destruct (N.eqb_spec (cur l) c_minus) as [E|_]].
      - exists [43], false, (tl l). split; [right; left; auto|]. split; [discriminate | apply (cur_cons l 43 E); discriminate].
      - exists [45], true, (tl l). split; [right; right; auto|]. split; [discriminate | apply (cur_cons l 45 E); discriminate].
      - exists [], false, l. cbn [orb] in Hc. split; [left; auto|]. split; [|reflexivity]. intros _. unfold is_digit in Hc. lia. }
    destruct Hs as (sg & neg & l0 & Hs & Hd & ->). rewrite (q_num_eq F sg neg l0 Hs Hd) in H.
    destruct (q_eat (num_word l0) l0) as [[b1 l1] rest] eqn:Ee. pose proof (nan_inf_of _ _ _ _ Ee) as [Hn He]. pose proof (eat_spec _ _ _ _ _ Ee) as (El & Ew & _).
    destruct (_ && q_term (cur l1)) eqn:Et; [destruct (cur l0 =? 110); discriminate|].
    rewrite El at 1. rewrite <- (take_drop dig_us l1) at 1.
    eapply bn_num; [exact Hs | | | apply spread_take | apply stop_us, drop_stop | | apply after_bad_inv; [exact He | apply (spread_digits _ (take_while dig_us l1)), spread_take | apply stop_us, drop_stop | exact H]].
    - intro X. specialize (Hd X). unfold num_word in Ew. rewrite (proj2 (N.eqb_neq (cur l0) 110)), (proj2 (N.eqb_neq (cur l0) 105)) in Ew by lia. symmetry in Ew. apply app_eq_nil in Ew as [-> ->]. cbn [app] in *. subst l0.
      destruct l1 as [|x l1]; [cbn [cur] in Hd; lia|]. cbn [cur] in Hd. cbn [take_while]. replace (dig_us x) with true by (symmetry; apply num_char_us; left; exact Hd). exact Hd.
    - rewrite take_drop. exact Hn.
    - rewrite take_drop. intros [Hp Hr]. apply word_end_term in Hr. rewrite Hr, andb_true_r in Et.
      destruct (num_word l0) as [|a nw] eqn:Enw.
      + destruct b1; [|discriminate]. destruct Hp; discriminate.
      + rewrite <- Enw in Ew. destruct rest as [|? ?]; [discriminate|]. unfold num_word in Ew.
        destruct Hp as [-> | ->]; destruct (cur l0 =? 110); try discriminate Ew; destruct (cur l0 =? 105); try discriminate Ew.
  Qed.
  Lemma num_bad_of l w r : bad_number F l w r -> q_num F l = (r, inr w).
  Proof.
    intros [sg neg p d u l' w' r' Hs Hd Hn Hu Hl Hx Ha].
    assert (Hd' : sg = [] -> 48 <= cur (p ++ u ++ l') <= 57).
    { intro X. specialize (Hd X). rewrite app_assoc. destruct (p ++ u); [cbn in Hd; lia | exact Hd]. }
    rewrite (q_num_eq F sg neg _ Hs Hd'). destruct (nan_inf_eat p (u ++ l') Hn) as (He & rest & Ew & -> & Hm).
    destruct (spread_app d u l' Hu Hl) as [E1 E2]. rewrite E1, E2.
    destruct (_ && q_term _) eqn:Et.
    - exfalso. apply andb_prop in Et as [Et1 Et]. apply Hx. split; [|apply word_end_term; exact Et].
      destruct (num_word (p ++ u ++ l')); [discriminate|]. destruct rest; [exact Hm | discriminate].
    - apply after_bad_of; [exact He | apply (spread_digits d u Hu) | exact Hl | exact Ha].
  Qed.

  (** Tokens *)
  Lemma bad_gap g l w r : tgap g -> bad_token F l w r -> bad_token F (g ++ l) w r.
  Proof.
    intros Hg H. destruct H; rewrite ?app_assoc; [apply bt_char | apply bt_number | apply bt_string | rewrite <- ?app_assoc; rewrite app_assoc; apply bt_word]; try assumption; apply tgap_app; assumption.
  Qed.
  Lemma scan_bad n : forall l r w, (length l < n)%nat -> q_scan F n l = (r, inr w) -> bad_token F l w r.
  Proof.
    induction n as [|n IH]; intros l0 r w Hn H; [lia|]. cbn [q_scan] in H.
    pose proof (suffix_len _ _ (suffix_drop is_ws l0)) as Ll. pose proof (drop_stop is_ws l0) as Hws.
    destruct (ws_tgap l0) as (g & Hg & Eg). set (l := drop_while is_ws l0) in *. rewrite Eg. apply bad_gap; [exact Hg|]. clearbody l.
    assert (Hn' : (length l < S n)%nat) by lia. clear g Hg Eg l0 Ll Hn. rename Hn' into Hn.
    destruct (N.eqb_spec (cur l) 0) as [E0|E0]; [discriminate|].
    destruct (N.eqb_spec (cur l) c_comma) as [E|E1]; [discriminate|].
    destruct (N.eqb_spec (cur l) c_lbr) as [E|E2]; [discriminate|].
    destruct (N.eqb_spec (cur l) c_rbr) as [E|E3]; [discriminate|].
    destruct (N.eqb_spec (cur l) c_eq) as [E|E4]; [discriminate|].
    destruct (N.eqb_spec (cur l) c_hash) as [E|E5].
    - pose proof (cur_cons l 35 E ltac:(discriminate)) as El. rewrite El in H, Hn |- *. set (l1 := tl l) in *. clearbody l1. clear Hws E0 E1 E2 E3 E4 E El.
      set (p := fun c => negb (c =? c_nl) && negb (c =? 0)) in *. change (drop_while p (35 :: l1)) with (drop_while p l1) in H.
      assert (Hb : Forall (fun x => x <> 10 /\ x <> 0) (take_while p l1)).
      { apply (Forall_forallb _ p); [|apply take_all]. intro x. unfold p, c_nl. lia. }
      pose proof (suffix_len _ _ (suffix_drop p l1)) as Ld. cbn [length] in Hn.
      rewrite <- (take_drop p l1). pose proof (drop_stop p l1) as Hs.
      assert (Hc : cur (drop_while p l1) = 10 \/ cur (drop_while p l1) = 0).
      { destruct Hs as [-> |Hs]; [auto|]. unfold p in Hs at 1. unfold c_nl in Hs. lia. }
      destruct Hc as [Hc|Hc].
      + rewrite (cur_cons _ 10 Hc) in H, Ld |- * by discriminate. cbn [length] in Ld. destruct (scan_ws F n 10 (tl (drop_while p l1)) ltac:(right; right; left; reflexivity)) as [X|X].
        * rewrite X in H. apply IH in H; [|lia]. pose proof (bad_gap (35 :: take_while p l1 ++ 10 :: []) _ _ _ (tg_comment _ [] Hb tg_nil) H) as Y.
          cbn [app] in Y. rewrite <- app_assoc in Y. exact Y.
        * subst n. lia.
      + destruct n as [|n]; [lia|]. cbn [q_scan] in H.
        assert (Ew : drop_while is_ws (drop_while p l1) = drop_while p l1).
        { destruct (drop_while p l1) as [|x l2]; [reflexivity|]. cbn [cur] in Hc. subst x. reflexivity. }
        rewrite Ew, Hc in H. discriminate.
    - destruct (_ || _ || _) eqn:En; [apply (bt_number F [] _ _ _ tg_nil); apply num_bad_inv; assumption|].
      apply orb_false_iff in En as [En En2]. apply orb_false_iff in En as [Ep En]. apply N.eqb_neq in En, Ep.
      destruct (N.eqb_spec (cur l) c_quote) as [E|E6].
      + apply string_bad_inv in H as (-> & H). apply (bt_string F [] l r tg_nil). rewrite (cur_cons l 34 E) by discriminate. exact H.
      + destruct (q_ident (cur l)) eqn:Ei.
        * apply word_bad_inv in H as (-> & u & El & Hu & Hk & Hr).
          destruct u as [|x u]; [cbn [app] in El; subst r; destruct Hk; left; exact Ei|].
          rewrite El in *. cbn [cur app] in *. inversion Hu; subst. apply (bt_word F [] x u r tg_nil); try assumption. unfold is_digit in En2. lia.
        * inversion H; subst r w. apply (bt_char F [] l tg_nil); try assumption.
          -- intros ->. apply E0. reflexivity.
          -- assert (Hw : is_ws (cur l) = false) by (destruct Hws as [-> |Hws]; [reflexivity | exact Hws]).
             unfold is_ws, c_nl, c_cr, c_tab, c_sp, c_comma, c_lbr, c_rbr, c_eq, c_hash, c_plus, c_quote in *. cbn [In]. lia.
  Qed.
  Definition bads (l w r : str) : Prop := forall n, (length l < n)%nat -> q_scan F n l = (r, inr w).
  Lemma bads_gap g l w r : tgap g -> bads l w r -> bads (g ++ l) w r.
  Proof.
    intros Hg H. induction Hg as [|x g Hx Hg IH|body g Hb Hg IH]; [exact H| |].
    - intros n Hn. cbn [app length] in *. destruct (scan_ws F n x (g ++ l) Hx) as [-> | ->]; [|lia]. apply IH. lia.
    - intros n Hn. cbn [app length] in *. rewrite <- app_assoc in *. cbn [app] in *. rewrite app_length in Hn. cbn [length] in Hn.
      destruct n as [|n]; [lia|]. rewrite scan_comment by auto.
      destruct (scan_ws F n 10 (g ++ l) ltac:(right; right; left; reflexivity)) as [-> | ->]; [|lia]. apply IH. lia.
  Qed.
  Lemma bad_bads l w r : bad_token F l w r -> bads l w r.
  Proof.
    intros [g r' Hg Hne Hin Hi|g l' w' r' Hg H|g l' r' Hg H|g x u r' Hg Hx Hd Hm Hu Hk Hr]; apply bads_gap; try exact Hg; intros n Hn; (destruct n as [|n]; [lia|]).
    - destruct r' as [|x r']; [congruence|]. cbn [cur] in *. cbn [In] in Hin. rewrite scan_plain.
      + unfold c_plus, c_minus, c_quote, is_digit.
        assert (X : x <> 45 /\ ~ 48 <= x <= 57).
        { split; [intros ->; discriminate|]. intros X. unfold q_ident, within in Hi. lia. }
        replace ((x =? 43) || (x =? 45) || _) with false by lia. replace (x =? 34) with false by lia. rewrite Hi. reflexivity.
      + unfold plain, is_ws, c_nl, c_cr, c_tab, c_sp, c_comma, c_lbr, c_rbr, c_eq, c_hash. lia.
    - assert (Hs : exists y l2, l' = y :: l2 /\ plain y = true /\ (y =? c_plus) || (y =? c_minus) || is_digit y = true).
      { destruct H as [sg neg p d u l1 w1 r1 Hs Hd Hn' Hu Hl Hx Ha].
        assert (Hd' : sg = [] -> 48 <= cur (p ++ u ++ l1) <= 57).
        { intro X. specialize (Hd X). rewrite app_assoc. destruct (p ++ u); [cbn in Hd; lia | exact Hd]. }
        destruct (p ++ u ++ l1) as [|x l0].
        - destruct Hs as [[-> _] | [[-> _] | [-> _]]]; [specialize (Hd' eq_refl); cbn in Hd'; lia| |]; eexists; eexists; (split; [reflexivity|]); split; reflexivity.
        - apply (sign_start sg neg x l0 Hs). destruct sg; [left; apply Hd'; reflexivity | right; discriminate]. }
      destruct Hs as (y & l2 & -> & Hp & Hy). rewrite scan_plain by exact Hp. rewrite Hy. apply num_bad_of. exact H.
    - apply string_bad_of in H as (l2 & -> & E). rewrite scan_plain by reflexivity.
      change ((34 =? c_plus) || (34 =? c_minus) || is_digit 34) with false. change (34 =? c_quote) with true. cbv iota. exact E.
    - assert (Hp : plain x = true).
      { unfold plain, is_ws, c_nl, c_cr, c_tab, c_sp, c_comma, c_lbr, c_rbr, c_eq, c_hash. unfold q_ident, within in Hx. lia. }
      rewrite scan_plain by exact Hp. assert (x <> 43 /\ x <> 34) as [X1 X2] by (split; intros ->; discriminate).
      unfold c_plus, c_minus, c_quote, is_digit. replace ((x =? 43) || (x =? 45) || _) with false by lia. replace (x =? 34) with false by lia. rewrite Hx.
      apply (word_bad_of [] (x :: u) r'); try assumption. constructor; [left; exact Hx | exact Hu].
  Qed.
  Lemma next_bad s s' e : q_next F s = (s', Err e) -> exists w, q_msg e = QParse w /\ q_line e = q_ln s' /\ bad_token F (q_inp s) w (q_inp s').
  Proof.
    unfold q_next. destruct (q_scan F (S (length (q_inp s))) (q_inp s)) as [l' o] eqn:E. destruct o as [t'|w]; intro H; inversion H; subst. exists w. cbn [q_inp q_msg q_line q_ln].
    split; [reflexivity|]. split; [reflexivity|]. eapply scan_bad; [|exact E]. lia.
  Qed.
  Lemma bad_next l w r ln : bad_token F l w r -> exists ln', q_next F {| q_inp := l; q_ln := ln |} = ({| q_inp := r; q_ln := ln' |}, Err {| q_line := ln'; q_msg := QParse w |}).
  Proof. intro H. apply bad_bads in H. unfold q_next. cbn [q_inp q_ln]. rewrite H by lia. eauto. Qed.
End Lexer.

(** ** Grammar *)
Section Grammar.
  Variable F : flt. Variable show : N -> str.
  Lemma bind_err {A B} (m : qm A) (f : A -> qm B) s s' e : qbind m f s = (s', Err e) -> m s = (s', Err e) \/ exists s1 a, m s = (s1, Ok a) /\ f a s1 = (s', Err e).
  Proof. unfold qbind. destruct (m s) as [s1 [a|e'|q|]]; intro H; try discriminate; [eauto | left; inversion H; reflexivity]. Qed.
  Lemma wants_inv {A} (P : ttok -> Prop) (f : ttok -> qm A) s s' e : (forall t, P t \/ ~ P t /\ f t = q_err t) -> qbind (q_next F) f s = (s', Err e) ->
    q_line e = q_ln s' /\ wants F P (q_inp s) (q_msg e) (q_inp s') \/
    exists s1 t, P t /\ first_token F (q_inp s) t (q_inp s1) /\ f t s1 = (s', Err e).
  Proof.
    intros HP H. apply bind_err in H as [H|(s1 & t & Ht & H)].
    - apply next_bad in H as (w & -> & El & Hb). left. split; [exact El|]. apply wn_bad. exact Hb.
    - apply next_first in Ht. destruct (HP t) as [Hp|[Hp E]]; [right; eauto|]. rewrite E in H. inversion H; subst. left. split; [reflexivity|]. apply wn_tok; assumption.
  Qed.
  Lemma starts_dec t : starts_value F t \/ ~ starts_value F t /\ forall n, q_val F (S n) t = q_err t.
  Proof.
    destruct t; try (left; right; eexists; constructor; fail); try (left; left; reflexivity); right; (split; [|reflexivity]); intros [X|[v X]]; try discriminate; inversion X.
  Qed.
  Definition at_err (R : str -> qmsg -> str -> Prop) (s s' : qst) (e : qerr) : Prop := q_line e = q_ln s' /\ R (q_inp s) (q_msg e) (q_inp s').
  Lemma vals_err_inv n : (forall s s' e t, starts_value F t -> q_val F n t s = (s', Err e) -> t = QOpen /\ at_err (values_err F) s s' e) ->
    (forall t, ~ starts_value F t -> q_val F n t = q_err t) ->
    forall k s s' e, q_vals F (q_val F n) k s = (s', Err e) -> at_err (values_err F) s s' e.
  Proof.
    intros Hv Hne. induction k as [|k IH]; intros s s' e H; [discriminate|]. cbn [q_vals] in H.
    set (f := fun t => match t with QClose | QEof => qret [] | QComma => q_vals F (q_val F n) k | _ => qbind (q_val F n t) (fun v => qbind (q_vals F (q_val F n) k) (fun r => qret (v :: r))) end) in H.
    apply bind_err in H as [H|(s1 & t & Ht & H)].
    - apply next_bad in H as (w & E & El & Hb). split; [exact El|]. rewrite E. apply ve_here, wn_bad. exact Hb.
    - apply next_first in Ht.
      assert (V : qbind (q_val F n t) (fun v => qbind (q_vals F (q_val F n) k) (fun r => qret (v :: r))) s1 = (s', Err e) -> ~ In t [QClose; QComma; QEof] -> at_err (values_err F) s s' e).
      { intros X Hin. apply bind_err in X as [X|(s2 & v & Ev & X)].
        - destruct (starts_dec t) as [Hs|[Hs _]].
          + destruct (Hv _ _ _ _ Hs X) as [-> [El Hr]]. split; [exact El|]. eapply ve_inner; [exact Ht | exact Hr].
          + rewrite (Hne t Hs) in X. inversion X; subst. split; [reflexivity|]. apply ve_here, wn_tok; [exact Ht | tauto].
        - apply bind_err in X as [X|(s3 & vs & Evs & X)]; [|discriminate]. destruct (IH _ _ _ X) as [El Hr]. split; [exact El|].
          eapply ve_value; [eapply val_at_of; eassumption | exact Hr]. }
      subst f. cbv beta in H. destruct t; try (apply V; [exact H | cbn [In]; intros [X|[X|[X|[]]]]; discriminate]); try discriminate H.
      destruct (IH _ _ _ H) as [El Hr]. split; [exact El|]. eapply ve_comma; [exact Ht | exact Hr].
  Qed.
  Lemma val_err_inv n : forall s s' e t, starts_value F t -> q_val F n t s = (s', Err e) -> t = QOpen /\ at_err (values_err F) s s' e.
  Proof.
    induction n as [|n IH]; intros s s' e t Hs H; [discriminate|]. cbn [q_val] in H. destruct t; try discriminate H.
    3: { split; [reflexivity|]. apply bind_err in H as [H|(? & ? & _ & H)]; [|discriminate]. destruct n as [|n].
         - cbn in H. discriminate.
         - eapply vals_err_inv; [exact IH | | exact H]. intros t Ht. destruct (starts_dec t) as [X|[_ X]]; [contradiction | apply X]. }
    all: exfalso; destruct Hs as [X|[v X]]; try discriminate; inversion X.
  Qed.
  Lemma value_err_inv n s s' e : qbind (q_next F) (q_val F n) s = (s', Err e) -> at_err (value_err F) s s' e.
  Proof.
    intro H. destruct n as [|n].
    - apply bind_err in H as [H|(? & ? & _ & H)]; [|discriminate]. apply next_bad in H as (w & E & El & Hb). split; [exact El|]. rewrite E. apply vx_here, wn_bad. exact Hb.
    - apply (wants_inv (starts_value F)) in H as [[El Hw]|(s1 & t & Hs & Ht & H)].
      + split; [exact El|]. apply vx_here. exact Hw.
      + apply val_err_inv in H as [-> [El Hr]]; [|exact Hs]. split; [exact El|]. eapply vx_arr; eassumption.
      + intro t. destruct (starts_dec t) as [X|[X Y]]; auto.
  Qed.
  Lemma is_key_dec t : is_key show t \/ ~ is_key show t.
  Proof.
    destruct t as [s|s|n|z|b|b|neg|neg|s| | | | |]; try (left; eexists; apply text_tok_key; exact I); right; intros [k X]; inversion X.
  Qed.
  Lemma key_not t : is_key show t <-> match t with QEq | QOpen | QClose | QComma | QEof => False | _ => True end.
  Proof. split; [intros [k H]; apply tok_key_text in H as [_ H]; exact H | intro H; eexists; apply text_tok_key; exact H]. Qed.
  Lemma close_err_inv s s' e : q_close F s = (s', Err e) -> at_err (wants F (eq QClose)) s s' e.
  Proof.
    intro H. unfold q_close in H. apply (wants_inv (eq QClose)) in H as [H|(s1 & t & <- & _ & H)]; [exact H | discriminate|].
    intro t. destruct t; try (right; split; [discriminate | reflexivity]). left. reflexivity.
  Qed.
  Lemma line_err_inv n scope o s s' e : good o -> q_line_ F show n scope o s = (s', Err e) -> at_err (entry_err F show) s s' e.
  Proof.
    intros Hg H. unfold q_line_ in H. apply (wants_inv (fun t => t = QOpen \/ t = QEof \/ is_key show t)) in H as [[El Hw]|(s1 & t & Hp & Ht & H)].
    - split; [exact El|]. apply xe_start. exact Hw.
    - assert (KV : is_key show t -> forall k, qbind (q_key_value F n scope k o) (fun o' => qret (Some (scope, o'))) s1 = (s', Err e) -> at_err (entry_err F show) s s' e).
      { intros Hk k X. apply bind_err in X as [X|(? & ? & _ & X)]; [|discriminate]. unfold q_key_value in X. rewrite Hg in X.
        apply (wants_inv (eq QEq)) in X as [[El Hw]|(s2 & t2 & <- & Ht2 & X)].
        - split; [exact El|]. eapply xe_eq; eassumption.
        - assert (Y : qbind (q_next F) (q_val F n) s2 = (s', Err e)).
          { unfold qbind in X |- *. destruct (q_next F s2) as [s3 [t3|?|?|]]; try discriminate; [|inversion X; reflexivity]. destruct (q_val F n t3 s3) as [s4 [v|?|?|]]; try discriminate. inversion X; reflexivity. }
          apply value_err_inv in Y as [El Hv]. split; [exact El|]. eapply xe_value; eassumption.
        - intro t2. destruct t2; try (right; split; [discriminate | reflexivity]). left. reflexivity. }
      destruct Hp as [-> | [-> | Hk]].
      + clear KV. apply (wants_inv (fun t => t = QOpen \/ exists k, t = QStr k \/ t = QIdent k)) in H as [[El Hw]|(s2 & t2 & Hp & Ht2 & H)].
        * split; [exact El|]. eapply xe_name; eassumption.
        * destruct Hp as [-> | [k Hp]].
          -- apply (wants_inv (fun t => is_key show t /\ ~ is_str t)) in H as [[El Hw]|(s3 & t3 & [Hk Hns] & Ht3 & H)].
             ++ split; [exact El|]. eapply xe_names; eassumption.
             ++ assert (AR : forall A (x : qm A), (forall st st' e', x st <> (st', Err e')) -> qbind (q_close F) (fun _ => qbind (q_close F) (fun _ => x)) s3 = (s', Err e) -> at_err (entry_err F show) s s' e).
                { intros A x Hx X. apply bind_err in X as [X|(s4 & [] & Hc & X)].
                  - apply close_err_inv in X as [El Hw]. split; [exact El|]. eapply xe_close1; eassumption.
                  - apply close_first in Hc. apply bind_err in X as [X|(s5 & [] & _ & X)]; [|destruct (Hx _ _ _ X)].
                    apply close_err_inv in X as [El Hw]. split; [exact El|]. eapply xe_close2; eassumption. }
                assert (SA : forall k st st' e', (match start_array k o with Ok o' => qret (Some (([] : str), o')) | Err e => qfail (Err e) | Panic p => qfail (Panic p) | NoFuel => qfail NoFuel end) st <> (st', Err e')).
                { intros k st st' e'. destruct (array_results k o) as [(o' & -> & _) | ->]; discriminate. }
                destruct t3; try (destruct Hns; eexists; reflexivity); try (apply key_not in Hk; contradiction);
                  (eapply AR; [|exact H]; intros; apply SA).
             ++ intro t3. destruct (is_key_dec t3) as [Hk|Hk].
                ** destruct t3; try (left; split; [exact Hk | intros [? X]; discriminate]). right. split; [intros [_ X]; apply X; eexists; reflexivity | reflexivity].
                ** right. split; [tauto|]. destruct t3; try reflexivity; destruct Hk; apply key_not; exact I.
          -- assert (Hc : q_close F s2 = (s', Err e)).
             { destruct Hp as [-> | ->]; apply bind_err in H as [H|(? & ? & _ & H)]; try discriminate; exact H. }
             apply close_err_inv in Hc as [El Hw]. split; [exact El|]. eapply xe_close; eassumption.
        * intro t2. destruct t2; try (left; eauto; fail); right; (split; [intros [X|[? [X|X]]]; discriminate | reflexivity]).
      + discriminate.
      + destruct t; try (apply key_not in Hk; contradiction); apply (KV Hk _ H).
    - intro t. destruct (is_key_dec t) as [Hk|Hk]; [left; auto|]. destruct t; try (left; auto; fail); try (destruct Hk; apply key_not; exact I);
        right; (split; [intros [X|[X|X]]; [discriminate | discriminate | exact (Hk X)] | reflexivity]).
  Qed.
  Lemma lines_err n : forall scope o s s' e, good o -> q_lines F show n scope o s = (s', Err e) ->
    q_line e = q_ln s' /\ exists es l, entries_at F show (q_inp s) es l /\ entry_err F show l (q_msg e) (q_inp s') /\ exists x, steps es scope o = Ok x.
  Proof.
    induction n as [|n IH]; intros scope o s s' e Hg H; [discriminate|]. cbn [q_lines] in H. apply bind_err in H as [H|(s1 & [[sc o']|] & E & H)]; [| |discriminate H].
    - apply (line_err_inv _ _ _ _ _ _ Hg) in H as [El He]. split; [exact El|]. exists [], (q_inp s). split; [constructor|]. split; [exact He|]. eexists. reflexivity.
    - apply line_some in E as (e1 & He & Hs). destruct (IH _ _ _ _ _ (step_good _ _ _ _ _ Hg Hs) H) as (El & es & l & Hes & Hr & x & Hx). split; [exact El|]. exists (e1 :: es), l.
      split; [econstructor; eassumption|]. split; [exact Hr|]. exists x. cbn [steps]. rewrite Hs. exact Hx.
  Qed.

  (** The other way round. *)
  Definition fails {A} (k : qm A) (l : str) (m : qmsg) (r : str) : Prop :=
    forall ln, exists ln', k {| q_inp := l; q_ln := ln |} = ({| q_inp := r; q_ln := ln' |}, Err {| q_line := ln'; q_msg := m |}).
  Lemma fails_wants {A} P (f : ttok -> qm A) l m r : (forall t, ~ P t -> f t = q_err t) -> wants F P l m r -> fails (qbind (q_next F) f) l m r.
  Proof.
    intros Hf [l0 w r0 Hb|l0 t r0 Ht Hp] ln.
    - destruct (bad_next F l0 w r0 ln Hb) as [ln' E]. exists ln'. unfold qbind. rewrite E. reflexivity.
    - destruct (next_reads F l0 t r0 ln (first_reads F _ _ _ Ht)) as [ln' E]. exists ln'. unfold qbind. rewrite E, (Hf t Hp). reflexivity.
  Qed.
  Lemma fails_tok {A} (f : ttok -> qm A) l t l1 m r : first_token F l t l1 -> fails (f t) l1 m r -> fails (qbind (q_next F) f) l m r.
  Proof.
    intros Ht Hf ln. destruct (next_reads F l t l1 ln (first_reads F _ _ _ Ht)) as [ln' E]. destruct (Hf ln') as [ln2 E2]. exists ln2. unfold qbind. rewrite E. exact E2.
  Qed.
  Lemma fails_left {A B} (k : qm A) (f : A -> qm B) l m r : fails k l m r -> fails (qbind k f) l m r.
  Proof. intros H ln. destruct (H ln) as [ln' E]. exists ln'. unfold qbind. rewrite E. reflexivity. Qed.
  Lemma fails_right {A B} (k : qm A) (f : A -> qm B) l a l1 m r : (forall ln, exists ln', k {| q_inp := l; q_ln := ln |} = ({| q_inp := l1; q_ln := ln' |}, Ok a)) -> fails (f a) l1 m r -> fails (qbind k f) l m r.
  Proof. intros H H2 ln. destruct (H ln) as [ln' E]. destruct (H2 ln') as [ln2 E2]. exists ln2. unfold qbind. rewrite E. exact E2. Qed.
  Lemma not_starts n t : ~ starts_value F t -> q_val F (S n) t = q_err t.
  Proof. intro H. destruct (starts_dec t) as [X|[_ X]]; [contradiction | apply X]. Qed.
  Lemma values_err_fails l m r : values_err F l m r -> exists N, forall n k, (N <= n)%nat -> (N <= k)%nat -> fails (q_vals F (q_val F k) n) l m r.
  Proof.
    induction 1 as [l m r Hw|l l1 m r Ht Hv [N HN]|l l1 m r Ht Hv [N HN]|l v l1 m r Hv Hvs [N HN]].
    - exists 1%nat. intros [|n] [|k] Hn Hk; try lia. cbn [q_vals].
      destruct Hw as [l0 w r0 Hb|l0 t r0 Ht Hp]; [apply (fails_wants (fun _ => True)); [tauto | apply wn_bad; exact Hb]|].
      eapply fails_tok; [exact Ht|].
      assert (E : q_val F (S k) t = q_err t) by (apply not_starts; tauto).
      destruct t; try (apply fails_left; rewrite E; intro ln; exists ln; reflexivity); destruct Hp; right; cbn [In]; tauto.
    - exists (S N). intros [|n] [|k] Hn Hk; try lia. cbn [q_vals]. eapply fails_tok; [exact Ht|]. cbv iota. apply fails_left. cbn [q_val]. apply fails_left. apply HN; lia.
    - exists (S N). intros [|n] k Hn Hk; try lia. cbn [q_vals]. eapply fails_tok; [exact Ht|]. apply HN; lia.
    - destruct (proj1 (value_at_reads F) _ _ _ Hv) as (t & l2 & Ht & (V1 & V2 & V3) & [M HM]). exists (S (N + M)). intros [|n] k Hn Hk ln; [lia|]. cbn [q_vals].
      destruct (next_reads F l t l2 ln Ht) as [ln1 E1]. destruct (HM k ltac:(lia) ln1) as [ln2 Ev]. destruct (HN n k ltac:(lia) ltac:(lia) ln2) as [ln3 E3].
      exists ln3. unfold qbind at 1. rewrite E1. destruct t; try congruence; unfold qbind; rewrite Ev, E3; reflexivity.
  Qed.
  Lemma close_fails l m r : wants F (eq QClose) l m r -> fails (q_close F) l m r.
  Proof. apply fails_wants. intros t Ht. destruct t; try reflexivity. congruence. Qed.
  Lemma entry_err_fails l m r : entry_err F show l m r -> forall scope o, good o -> exists N, forall n, (N <= n)%nat -> fails (q_line_ F show n scope o) l m r.
  Proof.
    intros H scope o Hg.
    assert (KV : forall N t l0 l1 m r, first_token F l0 t l1 -> is_key show t -> (forall n, (N <= n)%nat -> forall k, fails (q_key_value F n scope k o) l1 m r) ->
      exists N, forall n, (N <= n)%nat -> fails (q_line_ F show n scope o) l0 m r).
    { intros N t l0 l1 m0 r0 Ht Hk X. exists N. intros n Hn. unfold q_line_. eapply fails_tok; [exact Ht|]. apply key_not in Hk.
      destruct t; try contradiction; apply fails_left, X; exact Hn. }
    assert (CL : forall l l1, first_token F l QClose l1 -> forall ln, exists ln', q_close F {| q_inp := l; q_ln := ln |} = ({| q_inp := l1; q_ln := ln' |}, Ok tt)).
    { intros a b X ln. apply close_reads, first_reads. exact X. }
    destruct H as [l m r Hw|l t l1 m r Ht Hk Hw|l t l1 l2 m r Ht Hk Ht2 Hv|l l1 m r Ht Hw|l l1 t k l2 m r Ht Ht2 Hs Hw|l l1 l2 m r Ht Ht2 Hw|l l1 l2 t l3 m r Ht Ht2 Ht3 Hk Hns Hw|l l1 l2 t l3 l4 m r Ht Ht2 Ht3 Hk Hns Hc Hw].
    - exists O. intros n _. unfold q_line_. eapply fails_wants; [|exact Hw]. intros t Hp.
      destruct t; try reflexivity; destruct Hp; auto; right; right; apply key_not; exact I.
    - eapply (KV O); [exact Ht | exact Hk|]. intros n _ k. unfold q_key_value. rewrite Hg. eapply fails_wants; [|exact Hw]. intros t2 X. destruct t2; try reflexivity. congruence.
    - destruct Hv as [l2 m r Hw|l2 l3 m r Ht3 Hv].
      + eapply (KV 1%nat); [exact Ht | exact Hk|]. intros [|n] Hn k; [lia|]. unfold q_key_value. rewrite Hg. eapply fails_tok; [exact Ht2|].
        eapply fails_wants; [|exact Hw]. intros t2 X. rewrite (not_starts n t2 X). reflexivity.
      + destruct (values_err_fails _ _ _ Hv) as [N HN]. eapply (KV (S N)); [exact Ht | exact Hk|]. intros [|n] Hn k; [lia|]. unfold q_key_value. rewrite Hg. eapply fails_tok; [exact Ht2|].
        eapply fails_tok; [exact Ht3|]. apply fails_left. cbn [q_val]. apply fails_left. apply HN; lia.
    - exists O. intros n _. unfold q_line_. eapply fails_tok; [exact Ht|]. eapply fails_wants; [|exact Hw]. intros t2 X. destruct t2; try reflexivity; destruct X; eauto.
    - exists O. intros n _. unfold q_line_. eapply fails_tok; [exact Ht|]. eapply fails_tok; [exact Ht2|]. destruct Hs as [-> | ->]; apply fails_left, close_fails; exact Hw.
    - exists O. intros n _. unfold q_line_. eapply fails_tok; [exact Ht|]. eapply fails_tok; [exact Ht2|]. eapply fails_wants; [|exact Hw].
      intros t2 X. destruct t2; try reflexivity; destruct X; (split; [apply key_not; exact I | intros [? Y]; discriminate]).
    - exists O. intros n _. unfold q_line_. eapply fails_tok; [exact Ht|]. eapply fails_tok; [exact Ht2|]. eapply fails_tok; [exact Ht3|].
      apply key_not in Hk. destruct t; try contradiction; try (destruct Hns; eexists; reflexivity); apply fails_left, close_fails; exact Hw.
    - exists O. intros n _. unfold q_line_. eapply fails_tok; [exact Ht|]. eapply fails_tok; [exact Ht2|]. eapply fails_tok; [exact Ht3|].
      apply key_not in Hk. destruct t; try contradiction; try (destruct Hns; eexists; reflexivity); (eapply fails_right; [apply CL; exact Hc|]; apply fails_left, close_fails; exact Hw).
  Qed.
  Lemma steps_good es : forall scope o sc o', good o -> steps es scope o = Ok (sc, o') -> good o'.
  Proof.
    induction es as [|e es IH]; intros scope o sc o' Hg H; cbn [steps] in H; [inversion H; subst; exact Hg|].
    destruct (step e scope o) as [[sc1 o1]|?|?|] eqn:E; try discriminate. eapply IH; [|exact H]. eapply step_good; eassumption.
  Qed.
  Let o0 := {| o_map := []; o_active := None |}.
  Lemma parse_err text e : toml_parse F show text = Err e <->
    exists es l r, entries_at F show text es l /\ (exists x, steps es [] o0 = Ok x) /\ entry_err F show l (q_msg e) r /\ error_line text r (q_line e).
  Proof.
    split.
    - intro H. pose proof (parse_ends F show text) as (Ha & _). unfold toml_parse, parse_toml in H. destruct (q_lines _ _ _ _ _ _) as [s' r] eqn:E. cbn [snd fst] in H, Ha. subst r.
      apply lines_err in E as (El & es & l & He & Hr & Hx); [|reflexivity]. exists es, l, (q_inp s'). split; [exact He|]. split; [exact Hx|]. split; [exact Hr|].
      destruct Ha as (p & Ep & En). exists p. split; [exact Ep | congruence].
    - intros (es & l & r & He & ([sc o'] & Hx) & Hr & (p & Ep & En)).
      destruct (entries_run F show text es l He [] o0) as [N HN]. destruct (entry_err_fails _ _ _ Hr sc o' (steps_good es [] o0 sc o' eq_refl Hx)) as [M HM].
      set (n := (length text + N + M)%nat). specialize (HN (S n) ltac:(lia) (lines_to (0 :: text) text)). rewrite Hx in HN. destruct HN as [ln1 E1].
      destruct (HM n ltac:(lia) ln1) as [ln2 E2].
      assert (E : q_lines F show (length es + S n) [] o0 (q_start text) = ({| q_inp := r; q_ln := ln2 |}, Err {| q_line := ln2; q_msg := q_msg e |})).
      { unfold q_start. rewrite E1. cbn [q_lines]. unfold qbind. rewrite E2. reflexivity. }
      pose proof (ends_lines F show text (length es + S n) [] o0 (q_start text) (at_start text) eq_refl ltac:(cbn [q_start q_inp]; lia)) as (Ha & _).
      rewrite E in Ha. destruct Ha as (p' & Ep' & En'). cbn [fst q_inp q_ln] in *. rewrite Ep in Ep'. apply app_inv_tail in Ep'. subst p'.
      rewrite <- (parse_enough F show text (length es + S n)) by lia. unfold parse_toml. fold o0. rewrite E. cbn [snd]. rewrite En', <- En. destruct e; reflexivity.
  Qed.
End Grammar.
