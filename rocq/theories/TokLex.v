(** The tokenizers take exactly the token texts of SpecTok.v. *)
From Verif Require Import Base Utf8 Types BinModel Text TextModel TextSim TextToks TextLex TextRead SpecText SpecGram TextRound TextGram SpecTok.
Local Open Scope N_scope.

(** ** Pieces *)
Lemma next_cur r : next_char r = cur r.
Proof. destruct r; reflexivity. Qed.
Lemma while_split p l : exists a r, l = a ++ r /\ forallb p a = true /\ (r = [] \/ p (cur r) = false) /\
  take_while p l = a /\ drop_while p l = r.
Proof.
  induction l as [|x l (a & r & -> & H1 & H2 & H3 & H4)]; [exists [], []; cbn; auto|].
  cbn [take_while drop_while]. destruct (p x) eqn:E.
  - exists (x :: a), r. cbn [app forallb]. rewrite E, H1, H3, H4. auto.
  - exists [], (x :: a ++ r). cbn [app forallb cur]. auto.
Qed.
Lemma digits_b d : digits d <-> forallb is_digit d = true.
Proof.
  unfold digits. rewrite Forall_forall, forallb_forall. split; intros H x Hx; apply digit_range; auto.
Qed.
Lemma ws_char_iff x : ws_char x <-> is_ws x = true.
Proof.
  split; [apply ws_char_b|]. unfold is_ws, ws_char, c_nl, c_cr, c_tab, c_sp. rewrite !orb_true_iff, !N.eqb_eq. tauto.
Qed.
Lemma letter_iff x : letter x <-> is_alpha x = true.
Proof.
  split; [apply letter_b|]. unfold is_alpha, letter. rewrite !orb_true_iff, !andb_true_iff, !N.leb_le, N.eqb_eq. lia.
Qed.

(** Comments *)
Lemma json_comment_close : forall body last r b, Forall (fun x => x <> 0) body -> last :: body = b ++ [42] ->
  (forall a c, last :: body <> a ++ [42; 47] ++ c) -> json_comment last (body ++ 47 :: r) = Some r.
Proof.
  induction body as [|x body IH]; intros last r b Hz He Hc.
  - cbn [app json_comment]. change (47 =? 0) with false. destruct b as [|y b]; [|destruct b; discriminate]. injection He as ->.
    change (42 =? c_star) with true. change (47 =? c_slash) with true. reflexivity.
  - inversion Hz as [|? ? H1 H2]; subst. cbn [app json_comment]. apply N.eqb_neq in H1. rewrite H1.
    destruct ((last =? c_star) && (x =? c_slash)) eqn:E.
    + exfalso. apply andb_prop in E as [E1 E2]. apply N.eqb_eq in E1, E2. unfold c_star, c_slash in *. subst. exact (Hc [] body eq_refl).
    + destruct b as [|y b]; [discriminate|]. injection He as -> He. apply (IH x r b); auto.
      intros a c Ha. apply (Hc (y :: a) c). rewrite Ha. reflexivity.
Qed.
Lemma json_comment_inv : forall l last r, json_comment last l = Some r ->
  exists body b, l = body ++ 47 :: r /\ Forall (fun x => x <> 0) body /\ last :: body = b ++ [42] /\
    (forall a c, last :: body <> a ++ [42; 47] ++ c).
Proof.
  induction l as [|x l IH]; intros last r H; [discriminate|]. cbn [json_comment] in H.
  destruct (x =? 0) eqn:E0; [discriminate|]. apply N.eqb_neq in E0.
  destruct ((last =? c_star) && (x =? c_slash)) eqn:E.
  - injection H as <-. apply andb_prop in E as [E1 E2]. apply N.eqb_eq in E1, E2. unfold c_star, c_slash in *. subst.
    exists [], []. repeat split; auto. intros a c Ha. destruct a as [|y [|z a]]; discriminate Ha.
  - destruct (IH _ _ H) as (body & b & -> & Hz & He & Hc). exists (x :: body), (last :: b). split; [reflexivity|].
    split; [constructor; assumption|]. split; [rewrite He; reflexivity|].
    intros a c Ha. destruct a as [|y a].
    + cbn [app] in Ha. injection Ha as -> Hx Hb. subst x. discriminate E.
    + cbn [app] in Ha. injection Ha as -> Ha. exact (Hc a c Ha).
Qed.
(** The RON scan, with the last character instead of the flag. *)
Lemma ron_comment_close body last r b : Forall (fun x => x <> 0) body -> last :: body = b ++ [42] ->
  (forall a c, last :: body <> a ++ [42; 47] ++ c) -> ron_comment (last =? c_star) (body ++ 47 :: r) = r.
Proof.
  revert last b. induction body as [|x body IH]; intros last b Hz He Hc.
  - cbn [app ron_comment]. change (47 =? 0) with false. destruct b as [|y b]; [|destruct b; discriminate]. injection He as ->.
    change (42 =? c_star) with true. change (47 =? c_slash) with true. reflexivity.
  - inversion Hz as [|? ? H1 H2]; subst. cbn [app ron_comment]. apply N.eqb_neq in H1. rewrite H1.
    destruct ((x =? c_slash) && (last =? c_star)) eqn:E.
    + exfalso. apply andb_prop in E as [E2 E1]. apply N.eqb_eq in E1, E2. unfold c_star, c_slash in *. subst. exact (Hc [] body eq_refl).
    + destruct b as [|y b]; [discriminate|]. injection He as -> He. apply (IH x b); auto.
      intros a c Ha. apply (Hc (y :: a) c). rewrite Ha. reflexivity.
Qed.
Lemma ron_comment_open body last r : Forall (fun x => x <> 0) body ->
  (forall a c, last :: body <> a ++ [42; 47] ++ c) -> over r -> ron_comment (last =? c_star) (body ++ r) = r.
Proof.
  revert last. induction body as [|x body IH]; intros last Hz Hc Hr.
  - destruct Hr as [-> | [r' ->]]; reflexivity.
  - inversion Hz as [|? ? H1 H2]; subst. cbn [app ron_comment]. apply N.eqb_neq in H1. rewrite H1.
    destruct ((x =? c_slash) && (last =? c_star)) eqn:E.
    + exfalso. apply andb_prop in E as [E2 E1]. apply N.eqb_eq in E1, E2. unfold c_star, c_slash in *. subst. exact (Hc [] body eq_refl).
    + apply (IH x); auto. intros a c Ha. apply (Hc (last :: a) c). rewrite Ha. reflexivity.
Qed.
Lemma ron_comment_inv : forall l last, exists body r, ron_comment (last =? c_star) l = r /\ Forall (fun x => x <> 0) body /\
    (forall a c, last :: body <> a ++ [42; 47] ++ c) /\
    ((l = body ++ 47 :: r /\ exists b, last :: body = b ++ [42]) \/ (l = body ++ r /\ over r)).
Proof.
  induction l as [|x l IH]; intros last.
  - exists [], []. repeat split; auto. + intros a c Ha. destruct a as [|y [|z a]]; discriminate Ha. + right. split; [reflexivity | left; reflexivity].
  - cbn [ron_comment]. destruct (x =? 0) eqn:E0.
    + apply N.eqb_eq in E0. subst x. exists [], (0 :: l). repeat split; auto.
      * intros a c Ha. destruct a as [|y [|z a]]; discriminate Ha.
      * right. split; [reflexivity | right; eauto].
    + apply N.eqb_neq in E0. destruct ((x =? c_slash) && (last =? c_star)) eqn:E.
      * apply andb_prop in E as [E2 E1]. apply N.eqb_eq in E1, E2. unfold c_star, c_slash in *. subst.
        exists [], l. repeat split; auto. -- intros a c Ha. destruct a as [|y [|z a]]; discriminate Ha. -- left. split; [reflexivity|]. exists []. reflexivity.
      * destruct (IH x) as (body & r & Hr & Hz & Hc & H). exists (x :: body), r. split; [exact Hr|]. split; [constructor; assumption|]. split.
        -- intros a c Ha. destruct a as [|y a].
           ++ cbn [app] in Ha. injection Ha as -> Hx Hb. subst x. discriminate E.
           ++ cbn [app] in Ha. injection Ha as -> Ha. exact (Hc a c Ha).
        -- destruct H as [[-> [b Hb]] | [-> Ho]]; [left; split; [reflexivity|]; exists (last :: b); rewrite Hb; reflexivity | right; auto].
Qed.

(** String literals *)
Lemma hexval_digit x d : hexval x = Some d -> hex_digit x d.
Proof.
  unfold hexval, hex_digit. destruct (is_digit x) eqn:E.
  - apply digit_range in E. intro H. injection H as <-. lia.
  - destruct ((97 <=? x) && (x <=? 102)) eqn:E1.
    + apply andb_prop in E1 as [A B]. intro H. injection H as <-. lia.
    + destruct ((65 <=? x) && (x <=? 70)) eqn:E2; [|discriminate].
      apply andb_prop in E2 as [A B]. intro H. injection H as <-. lia.
Qed.
Lemma hexval_cur l d : hexval (cur l) = Some d -> exists x r, l = x :: r /\ hex_digit x d.
Proof. destruct l as [|x r]; [discriminate|]. cbn [cur]. intro H. exists x, r. split; [reflexivity | apply hexval_digit; exact H]. Qed.
Lemma xdigits_quad l l1 a : xdigits 4 0 l = (l1, Some a) -> exists h, l = h ++ l1 /\ hex_quad h a.
Proof.
  cbn [xdigits].
  destruct (hexval (cur l)) as [d1|] eqn:E1; [|discriminate]. apply hexval_cur in E1 as (x1 & r1 & -> & H1). cbn [tl].
  destruct (hexval (cur r1)) as [d2|] eqn:E2; [|discriminate]. apply hexval_cur in E2 as (x2 & r2 & -> & H2). cbn [tl].
  destruct (hexval (cur r2)) as [d3|] eqn:E3; [|discriminate]. apply hexval_cur in E3 as (x3 & r3 & -> & H3). cbn [tl].
  destruct (hexval (cur r3)) as [d4|] eqn:E4; [|discriminate]. apply hexval_cur in E4 as (x4 & r4 & -> & H4). cbn [tl].
  intro H. injection H as <- <-. exists [x1; x2; x3; x4]. split; [reflexivity|].
  exists x1, x2, x3, x4, d1, d2, d3, d4. repeat (split; [solve [reflexivity | assumption]|]). lia.
Qed.
Lemma hex_inv l l1 a : hex_unescape l = (l1, Some a) ->
  (exists h, l = h ++ l1 /\ hex_quad h a /\ ~ high_surrogate a /\ ~ low_surrogate a) \/
  (exists h1 h2 x y, l = h1 ++ [92; 117] ++ h2 ++ l1 /\ hex_quad h1 x /\ hex_quad h2 y /\ high_surrogate x /\ low_surrogate y /\
     a = (x - 0xd800) * 1024 + (y - 0xdc00) + 0x10000).
Proof.
  unfold hex_unescape. destruct (xdigits 4 0 l) as [m [x|]] eqn:E; [|discriminate]. apply xdigits_quad in E as (h & -> & Hh).
  unfold high_surrogate, low_surrogate.
  destruct ((x <? 0xd800) || (0xdfff <? x)) eqn:E1.
  - intro H. injection H as <- <-. left. exists h. split; [reflexivity|]. split; [exact Hh|]. lia.
  - destruct ((x <? 0xdc00) && (cur m =? c_bslash)) eqn:E2; [|discriminate]. apply andb_prop in E2 as [A B]. apply N.eqb_eq in B.
    destruct m as [|z m]; [discriminate|]. cbn [cur] in B. unfold c_bslash in B. subst z. cbn [tl].
    destruct (cur m =? 117) eqn:E3; [|discriminate]. apply N.eqb_eq in E3.
    destruct m as [|z m]; [discriminate|]. cbn [cur] in E3. subst z. cbn [tl].
    destruct (xdigits 4 0 m) as [m2 [y|]] eqn:E4; [|discriminate]. apply xdigits_quad in E4 as (h2 & -> & Hh2).
    destruct ((0xdc00 <=? y) && (y <? 0xe000)) eqn:E5; [|discriminate]. intro H. injection H as <- <-.
    right. exists h, h2, x, y. split; [reflexivity|]. repeat (split; [solve [assumption | lia]|]). reflexivity.
Qed.
Lemma unescape_ok e : e <> 0 -> e <> 117 -> lib_escape e (unescape e).
Proof.
  intros H0 Hu. unfold lib_escape, unescape, escape.
  destruct (e =? 110) eqn:E1; [apply N.eqb_eq in E1; subst; left; cbn; tauto|].
  destruct (e =? 114) eqn:E2; [apply N.eqb_eq in E2; subst; left; cbn; tauto|].
  destruct (e =? 116) eqn:E3; [apply N.eqb_eq in E3; subst; left; cbn; tauto|].
  destruct (e =? 98) eqn:E4; [apply N.eqb_eq in E4; subst; left; cbn; tauto|].
  destruct (e =? 102) eqn:E5; [apply N.eqb_eq in E5; subst; left; cbn; tauto|].
  destruct (e =? 48) eqn:E6; [apply N.eqb_eq in E6; subst; right; left; cbn; tauto|].
  right; right. split; [reflexivity|]. apply N.eqb_neq in E1, E2, E3, E4, E5, E6. cbn. intuition congruence.
Qed.
Lemma scan_str_inv : forall n l r s, scan_str n l = (r, Some s) -> exists b, l = b ++ 34 :: r /\ chars_of b s.
Proof.
  induction n as [|n IH]; intros l r s H; [discriminate|]. cbn [scan_str] in H. destruct l as [|c l]; [discriminate|].
  destruct (c =? c_quote) eqn:E1.
  { apply N.eqb_eq in E1. unfold c_quote in E1. subst c. injection H as <- <-. exists []. split; [reflexivity | constructor]. }
  destruct (c =? c_bslash) eqn:E2.
  { apply N.eqb_eq in E2. unfold c_bslash in E2. subst c.
    destruct (cur l =? 0) eqn:E3; [discriminate|]. destruct l as [|e l]; [discriminate|]. cbn [cur tl] in *.
    destruct (e =? 117) eqn:E4.
    - apply N.eqb_eq in E4. subst e. destruct (hex_unescape l) as [l2 [ch|]] eqn:E5; [|discriminate].
      destruct (scan_str n l2) as [l3 [s'|]] eqn:E6; [|discriminate]. injection H as -> <-.
      destruct (IH _ _ _ E6) as (b & -> & Hb). apply hex_inv in E5.
      destruct E5 as [(h & -> & Hh & Hs1 & Hs2)|(h1 & h2 & x & y & -> & Hh1 & Hh2 & Hx & Hy & ->)].
      + exists ([92; 117] ++ h ++ b). split; [cbn [app]; rewrite <- app_assoc; reflexivity|]. apply ch_hex; assumption.
      + exists ([92; 117] ++ h1 ++ [92; 117] ++ h2 ++ b).
        split; [cbn [app]; rewrite <- !app_assoc; cbn [app]; rewrite <- app_assoc; reflexivity|]. apply ch_pair; assumption.
    - destruct (scan_str n l) as [l3 [s'|]] eqn:E6; [|discriminate]. injection H as -> <-.
      destruct (IH _ _ _ E6) as (b & -> & Hb). exists (92 :: e :: b). split; [reflexivity|]. apply ch_esc; [|exact Hb].
      apply unescape_ok; apply N.eqb_neq; assumption. }
  destruct (c =? 0) eqn:E3; [discriminate|].
  destruct (scan_str n l) as [l3 [s'|]] eqn:E6; [|discriminate]. injection H as -> <-.
  destruct (IH _ _ _ E6) as (b & -> & Hb). exists (c :: b). split; [reflexivity|].
  apply N.eqb_neq in E1, E2, E3. unfold c_quote, c_bslash in *. apply ch_plain; assumption.
Qed.

(** Numbers *)
Definition floaty (fr ex : str) : bool := match fr, ex with [], [] => false | _, _ => true end.
Lemma scan_num_of fm sg ip fr ex r : literal_parts fm sg ip fr ex -> literal_stops fr ex r ->
  scan_num ((sg ++ ip ++ fr ++ ex) ++ r) = (sg ++ ip ++ fr ++ ex, r, floaty fr ex).
Proof.
  intros (Hsg & Hip & Hfr & Hex & Hst) (Hr1 & Hr2 & Hr3 & Hr4). rewrite next_cur in *.
  rewrite <- !app_assoc. unfold scan_num. unfold str in *.
  assert (Dr : r = [] \/ is_digit (cur r) = false).
  { right. destruct (is_digit (cur r)) eqn:E; [apply digit_range in E; contradiction | reflexivity]. }
  assert (E0 : (if (cur (sg ++ ip ++ fr ++ ex ++ r) =? c_minus) || (cur (sg ++ ip ++ fr ++ ex ++ r) =? c_plus)
                then ([cur (sg ++ ip ++ fr ++ ex ++ r)], tl (sg ++ ip ++ fr ++ ex ++ r))
                else ([], sg ++ ip ++ fr ++ ex ++ r)) = (sg, ip ++ fr ++ ex ++ r)).
  { destruct Hsg as [-> | [-> | ->]]; [|reflexivity|reflexivity]. cbn [app].
    assert (Hh : cur (ip ++ fr ++ ex ++ r) <> c_minus /\ cur (ip ++ fr ++ ex ++ r) <> c_plus).
    { destruct ip as [|x ip].
      - destruct (Hst eq_refl eq_refl) as [_ Hf]. destruct Hfr as [->|(d & -> & _)]; [congruence|]. cbn. split; discriminate.
      - cbn [app cur]. inversion Hip; subst. unfold c_minus, c_plus. lia. }
    destruct Hh as [Ha Hb]. apply N.eqb_neq in Ha, Hb. rewrite Ha, Hb. reflexivity. }
  rewrite E0. clear E0. apply digits_b in Hip.
  assert (Hex0 : ex ++ r = [] \/ is_digit (cur (ex ++ r)) = false).
  { destruct Hex as [->|(e & m & d & -> & He & _)]; [exact Dr|]. right. destruct He as [-> | ->]; reflexivity. }
  assert (Hfr0 : fr ++ ex ++ r = [] \/ is_digit (cur (fr ++ ex ++ r)) = false).
  { destruct Hfr as [->|(d & -> & _)]; [exact Hex0|]. right. reflexivity. }
  rewrite (take_while_app is_digit ip _ Hip Hfr0), (drop_while_app is_digit ip _ Hip Hfr0).
  match goal with |- context [if cur (fr ++ ex ++ r) =? c_dot then ?a else ?b] =>
    assert (E1 : (if cur (fr ++ ex ++ r) =? c_dot then a else b) = (fr, ex ++ r, match fr with [] => false | _ => true end));
    [|rewrite E1; clear E1]
  end.
  { destruct Hfr as [->|(d & -> & Hd)].
    - cbn [app]. replace (cur (ex ++ r) =? c_dot) with false; [reflexivity|]. symmetry. apply N.eqb_neq. unfold c_dot.
      destruct Hex as [->|(e & m & d & -> & He & _)]; [cbn [app]; apply Hr2; reflexivity | destruct He as [-> | ->]; discriminate].
    - apply digits_b in Hd. cbn [app cur tl]. rewrite take_while_app, drop_while_app by assumption. reflexivity. }
  destruct Hex as [->|(e & m & d & -> & He & Hm & Hd)].
  - cbn [app]. destruct (Hr3 eq_refl) as [A B]. apply N.eqb_neq in A, B. rewrite A, B. cbn [orb]. destruct fr; reflexivity.
  - cbn [app cur tl]. replace ((e =? 101) || (e =? 69)) with true by (destruct He as [-> | ->]; reflexivity).
    assert (Hh : (cur ((m ++ d) ++ r) =? c_minus) = match m with [] => false | _ => true end).
    { destruct Hm as [-> | ->]; [|reflexivity]. cbn [app]. apply N.eqb_neq. unfold c_minus. destruct d as [|x d].
      - cbn [app]. apply (Hr4 e). reflexivity.
      - cbn [app cur]. inversion Hd; subst. lia. }
    rewrite Hh. apply digits_b in Hd.
    destruct Hm as [-> | ->]; cbn [app tl]; (rewrite take_while_app, drop_while_app by assumption); destruct fr; reflexivity.
Qed.
Lemma scan_num_inv fm l buf r fl : num_start fm (cur l) = true -> scan_num l = (buf, r, fl) ->
  exists sg ip fr ex, l = (sg ++ ip ++ fr ++ ex) ++ r /\ buf = sg ++ ip ++ fr ++ ex /\ literal_parts fm sg ip fr ex /\ literal_stops fr ex r /\ fl = floaty fr ex.
Proof.
  intros Hst H. pose proof (scan_num_split _ _ _ _ H) as Hl. unfold scan_num in H. unfold str in *.
  set (S := if (cur l =? c_minus) || (cur l =? c_plus) then ([cur l], tl l) else ([], l)) in H.
  assert (HS : exists sg l0, S = (sg, l0) /\ l = sg ++ l0 /\ ((sg = [] /\ cur l <> 45 /\ cur l <> 43) \/ sg = [45] \/ sg = [43])).
  { subst S. destruct ((cur l =? c_minus) || (cur l =? c_plus)) eqn:E.
    - destruct l as [|x l]; [discriminate E|]. cbn [cur tl] in *. exists [x], l. split; [reflexivity|]. split; [reflexivity|]. right.
      apply orb_prop in E as [E|E]; apply N.eqb_eq in E; unfold c_minus, c_plus in E; subst; auto.
    - exists [], l. split; [reflexivity|]. split; [reflexivity|]. left. apply orb_false_elim in E as [A B]. apply N.eqb_neq in A, B. auto. }
  destruct HS as (sg & l0 & ES & El & Hsg). rewrite ES in H. clear S ES.
  destruct (while_split is_digit l0) as (ip & l1 & El0 & Hip & Hs1 & T1 & D1). rewrite T1, D1 in H. clear T1 D1.
  match type of H with context [if cur l1 =? c_dot then ?a else ?b] =>
    assert (HF : exists fr l2, (if cur l1 =? c_dot then a else b) = (fr, l2, match fr with [] => false | _ => true end) /\ l1 = fr ++ l2 /\
      ((fr = [] /\ cur l2 <> 46) \/ exists d, fr = 46 :: d /\ digits d) /\ (l2 = [] \/ is_digit (cur l2) = false)) end.
  { destruct (cur l1 =? c_dot) eqn:E.
    - apply N.eqb_eq in E. destruct l1 as [|x l1]; [discriminate|]. cbn [cur] in E. subst x. cbn [tl].
      destruct (while_split is_digit l1) as (d & l2 & E2 & Hd & Hs2 & T2 & D2). exists (46 :: d), l2. rewrite T2, D2. split; [reflexivity|].
      split; [rewrite E2; reflexivity|]. split; [right; exists d; split; [reflexivity | apply digits_b; exact Hd] | exact Hs2].
    - exists [], l1. split; [reflexivity|]. split; [reflexivity|]. split; [left; split; [reflexivity | apply N.eqb_neq; exact E] | exact Hs1]. }
  destruct HF as (fr & l2 & EF & El1 & Hfr & Hs2). rewrite EF in H. clear EF.
  match type of H with context [if (cur l2 =? 101) || (cur l2 =? 69) then ?a else ?b] =>
    assert (HE : exists ex l3, (if (cur l2 =? 101) || (cur l2 =? 69) then a else b) = (ex, l3, floaty fr ex) /\ l2 = ex ++ l3 /\
      ((ex = [] /\ cur l3 <> 101 /\ cur l3 <> 69) \/ exists e m d, ex = e :: m ++ d /\ (e = 101 \/ e = 69) /\ (m = [] \/ m = [45]) /\ digits d /\ (m = [] -> d = [] -> cur l3 <> 45)) /\
      (l3 = [] \/ is_digit (cur l3) = false)) end.
  { destruct ((cur l2 =? 101) || (cur l2 =? 69)) eqn:E.
    - destruct l2 as [|e l2]; [discriminate E|]. cbn [cur tl] in *.
      assert (He : e = 101 \/ e = 69) by (apply orb_prop in E as [E|E]; apply N.eqb_eq in E; auto).
      destruct (cur l2 =? c_minus) eqn:Em.
      + apply N.eqb_eq in Em. destruct l2 as [|x l2]; [discriminate|]. cbn [cur] in Em. unfold c_minus in Em. subst x. cbn [tl].
        destruct (while_split is_digit l2) as (d & l3 & E3 & Hd & Hs3 & T3 & D3). exists (e :: [45] ++ d), l3. rewrite T3, D3.
        split; [destruct fr; reflexivity|]. split; [rewrite E3; reflexivity|]. split; [|exact Hs3]. right. exists e, [45], d.
        split; [reflexivity|]. split; [exact He|]. split; [right; reflexivity|]. split; [apply digits_b; exact Hd | discriminate].
      + destruct (while_split is_digit l2) as (d & l3 & E3 & Hd & Hs3 & T3 & D3). exists (e :: [] ++ d), l3. rewrite T3, D3.
        split; [destruct fr; reflexivity|]. split; [rewrite E3; reflexivity|]. split; [|exact Hs3]. right. exists e, [], d.
        split; [reflexivity|]. split; [exact He|]. split; [left; reflexivity|]. split; [apply digits_b; exact Hd|].
        intros _ ->. cbn [app] in E3. subst l2. apply N.eqb_neq. exact Em.
    - exists [], l2. split; [destruct fr; reflexivity|]. split; [reflexivity|]. split; [|exact Hs2]. left. split; [reflexivity|].
      apply orb_false_elim in E as [A B]. apply N.eqb_neq in A, B. auto. }
  destruct HE as (ex & l3 & EE & El2 & Hex & Hs3). rewrite EE in H. clear EE. injection H as <- -> <-.
  exists sg, ip, fr, ex.
  assert (Hdr : ~ 48 <= next_char r <= 57).
  { rewrite next_cur. intro Hd. destruct Hs3 as [-> | Hs3]; [cbn in Hd; lia|]. apply digit_range in Hd. congruence. }
  split; [exact Hl|]. split; [reflexivity|]. split; [|split; [|reflexivity]].
  - split; [tauto|]. split; [apply digits_b; exact Hip|]. split; [tauto|].
    split; [destruct Hex as [[-> _]|(e & m & d & E & He & Hm & Hd & _)]; [left; reflexivity | right; exists e, m, d; auto]|].
    intros -> ->. cbn [app] in El0, El. subst l l0.
    destruct Hsg as [(_ & N1 & N2)|[Hx|Hx]]; try discriminate Hx.
    destruct Hs1 as [-> | Hs1]; [destruct fm; discriminate Hst|].
    unfold num_start in Hst. apply N.eqb_neq in N1, N2. unfold c_minus, c_plus in Hst. rewrite N1, N2, Hs1 in Hst. cbn [orb] in Hst.
    destruct fm; [discriminate|]. split; [reflexivity|]. intros ->. cbn [app] in El1.
    destruct Hfr as [[_ Hd]|(d & Hd & _)]; [|discriminate]. apply N.eqb_eq in Hst. rewrite <- El1 in Hd. exact (Hd Hst).
  - split; [exact Hdr|]. rewrite !next_cur. split; [|split].
    + intros -> ->. cbn [app] in El2. subst l2. destruct Hfr as [[_ Hd]|(d & Hd & _)]; [exact Hd | discriminate].
    + intros ->. destruct Hex as [(_ & A & B)|(e & m & d & Hx & _)]; [auto | discriminate].
    + intros e0 Hx. subst ex. destruct Hex as [(Hy & _)|(e & m & d & Hy & _ & Hm & _ & Hz)]; [discriminate|].
      destruct Hm as [-> | ->]; [|discriminate]. injection Hy as -> Hy. cbn [app] in Hy. apply Hz; [reflexivity | auto].
Qed.
Lemma floaty_stop fm sg ip fr ex : literal_parts fm sg ip fr ex -> literal_stops fr ex [].
Proof. intros _. split; [cbn; lia|]. split; [discriminate|]. split; [split; discriminate|]. discriminate. Qed.

Section Tok.
  Variables (F : flt) (fm : fmt).
  Notation lexs := (lexs F fm).
  Notation lex1 := (lex1 F fm).

  (** The token of a lexeme. *)
  Definition tok_of (x : lexeme) : ltok :=
    match x with
    | XP c => match punct fm c with Some t => LP t | None => LP KEof end
    | XW w => match id_tok fm w KBof with LTok t => t | LErr _ _ => LP KEof end
    | XN s => let '(b, _, f) := scan_num s in match num_tok F b f with Some t => LP t | None => LP KEof end
    | XS _ s => LStr s
    end.

  Lemma literal_tok sg ip fr ex : literal_parts fm sg ip fr ex ->
    (literal_value F sg ip fr ex <-> num_tok F (sg ++ ip ++ fr ++ ex) (floaty fr ex) <> None).
  Proof.
    intros (Hsg & Hip & _ & _ & _). unfold literal_value, num_tok, floaty. pose proof Hip as Hb. apply digits_b in Hb.
    assert (Hfl : f64_parse F (sg ++ ip ++ fr ++ ex) <> None <-> option_map KF64 (f64_parse F (sg ++ ip ++ fr ++ ex)) <> None).
    { destruct (f64_parse F _); cbn; split; congruence. }
    destruct fr as [|x fr]; [destruct ex as [|y ex]|]; [|exact Hfl|exact Hfl]. rewrite !app_nil_r. clear Hfl.
    destruct Hsg as [-> | [-> | ->]]; cbn [str_eqb app].
    - replace (cur ip =? c_minus) with false.
      2:{ symmetry. apply N.eqb_neq. unfold c_minus. destruct ip as [|z ip]; [discriminate|]. cbn [cur]. inversion Hip; subst. lia. }
      unfold parse_u64. destruct ip as [|z ip]; [cbn; tauto|].
      replace (z =? c_plus) with false by (symmetry; apply N.eqb_neq; unfold c_plus; inversion Hip; subst; lia).
      rewrite Hb, <- decimal_val. cbn [andb]. destruct (decimal (z :: ip) <? 2 ^ 64) eqn:E; cbn [option_map]; (split; [|intro; split; [discriminate|]]); try congruence; lia.
    - change (45 =? 45) with true. cbn [andb cur]. change (45 =? c_minus) with true. cbn iota. unfold parse_i64.
      destruct ip as [|z ip]; [cbn; tauto|]. change (45 =? c_minus) with true. rewrite Hb, <- decimal_val. cbn [andb].
      destruct (decimal (z :: ip) <=? 2 ^ 63) eqn:E; cbn [option_map]; (split; [|intro; split; [discriminate|]]); try congruence; lia.
    - change (43 =? 45) with false. cbn [andb cur]. change (43 =? c_minus) with false. cbn iota. unfold parse_u64.
      change (43 =? c_plus) with true. cbn iota. destruct ip as [|z ip]; [cbn; tauto|]. rewrite Hb, <- decimal_val. cbn [andb].
      destruct (decimal (z :: ip) <? 2 ^ 64) eqn:E; cbn [option_map]; (split; [|intro; split; [discriminate|]]); try congruence; lia.
  Qed.
  Lemma num_tok_not_eof b f t : num_tok F b f = Some t -> t <> KEof.
  Proof.
    unfold num_tok. intro E2. destruct f; [|destruct (cur _ =? c_minus)].
    - destruct (f64_parse F _); cbn in E2; inversion E2; subst; discriminate.
    - destruct (parse_i64 _); cbn in E2; inversion E2; subst; discriminate.
    - destruct (parse_u64 _); cbn in E2; inversion E2; subst; discriminate.
  Qed.
  Lemma tok_of_num sg ip fr ex : literal_parts fm sg ip fr ex -> literal_value F sg ip fr ex ->
    exists t, num_tok F (sg ++ ip ++ fr ++ ex) (floaty fr ex) = Some t /\ tok_of (XN (sg ++ ip ++ fr ++ ex)) = LP t.
  Proof.
    intros Hp Hv. pose proof (scan_num_of fm sg ip fr ex [] Hp (floaty_stop _ _ _ _ _ Hp)) as Hs. rewrite app_nil_r in Hs.
    apply (literal_tok sg ip fr ex Hp) in Hv. destruct (num_tok F (sg ++ ip ++ fr ++ ex) (floaty fr ex)) as [t|] eqn:E; [|congruence].
    exists t. split; [reflexivity|]. cbn [tok_of]. unfold str in *. rewrite Hs, E. reflexivity.
  Qed.
  Lemma literal_start sg ip fr ex : literal_parts fm sg ip fr ex -> exists x s, sg ++ ip ++ fr ++ ex = x :: s /\ num_start fm x = true.
  Proof.
    intros (Hsg & Hip & Hfr & _ & Hst). destruct Hsg as [-> | [-> | ->]]; [|eexists _, _; split; reflexivity|eexists _, _; split; reflexivity].
    destruct ip as [|x ip].
    - destruct (Hst eq_refl eq_refl) as [E H]. destruct Hfr as [->|(d & -> & _)]; [congruence|]. eexists _, _. split; [reflexivity|]. rewrite E. reflexivity.
    - eexists _, _. split; [reflexivity|]. unfold num_start. inversion Hip; subst. rewrite (proj2 (digit_range x)) by assumption. rewrite !orb_true_r. reflexivity.
  Qed.

  (** ** Texts to tokens *)
  Lemma punct_mark c : (In c [44; 58; 91; 93; 123; 125] \/ fm = Ron /\ In c [40; 41]) <-> exists t, punct fm c = Some t.
  Proof.
    split.
    - intros [H|[E H]].
      + cbn [In] in H. repeat (destruct H as [<-|H]; [eexists; reflexivity|]). contradiction.
      + rewrite E. cbn [In] in H. repeat (destruct H as [<-|H]; [eexists; reflexivity|]). contradiction.
    - intros [t H]. unfold punct in H.
      repeat match type of H with (if ?b =? ?k then _ else _) = _ =>
        let E := fresh "E" in destruct (b =? k) eqn:E; [apply N.eqb_eq in E; subst; left; cbn; tauto|] end.
      destruct fm; [discriminate|].
      repeat match type of H with (if ?b =? ?k then _ else _) = _ =>
        let E := fresh "E" in destruct (b =? k) eqn:E; [apply N.eqb_eq in E; subst; right; cbn; tauto|] end. discriminate.
  Qed.
  Lemma word_chars w : word fm w -> exists x r, w = x :: r /\ is_alpha x = true /\ forallb (id_char fm) w = true /\ exists t, id_tok fm w KBof = LTok t.
  Proof.
    unfold word. destruct fm.
    - intros [-> | [-> | ->]]; (eexists _, _; split; [reflexivity|]; split; [reflexivity|]; split; [reflexivity|]; eexists; reflexivity).
    - intros (x & r & -> & Hx & Hr). exists x, r. split; [reflexivity|]. apply letter_b in Hx. split; [exact Hx|]. split.
      + cbn [forallb]. unfold id_char at 1. rewrite Hx. cbn [orb andb]. apply forallb_forall. intros y Hy.
        rewrite Forall_forall in Hr. destruct (Hr y Hy) as [Hl|Hd]; unfold id_char; [rewrite (letter_b _ Hl); reflexivity|].
        rewrite (proj2 (digit_range y) Hd). apply orb_true_r.
      + unfold id_tok. destruct (str_eqb _ _); [eexists; reflexivity|]. destruct (str_eqb _ _); eexists; reflexivity.
  Qed.
  Lemma word_stops r : (~ letter (next_char r) /\ (fm = Ron -> ~ 48 <= next_char r <= 57)) <-> id_char fm (cur r) = false.
  Proof.
    rewrite next_cur, letter_iff. unfold id_char. rewrite <- digit_range. destruct fm.
    - destruct (is_alpha (cur r)); intuition congruence.
    - destruct (is_alpha (cur r)), (is_digit (cur r)); cbn; intuition congruence.
  Qed.
  Lemma token_lex x r : token_before fm F x r -> lex1 (spelled x ++ r) = (r, Some (tok_of x)) /\ tok_of x <> LP KEof.
  Proof.
    destruct x as [c|w|s|b s]; cbn [token_before spelled].
    - intro H. apply punct_mark in H as [t H]. cbn [tok_of]. rewrite H. destruct (punct_not_ws fm _ _ H) as (H1 & H2 & H3 & H4).
      split; [|congruence]. unfold TextToks.lex1. cbn [app length scan]. rewrite not_ws_drop by assumption. cbn [cur tl]. rewrite H2, H3, H. reflexivity.
    - intros [Hw Hr]. apply word_stops in Hr. destruct (word_chars w Hw) as (x & w' & E & Ha & Hid & t & Ht). cbn [tok_of]. rewrite Ht.
      split; [|eapply id_tok_not_eof; exact Ht]. destruct (alpha_cases fm x Ha) as (H1 & H2 & H3 & H4 & H5). subst w.
      unfold TextToks.lex1. cbn [app length scan]. rewrite not_ws_drop by assumption. cbn [cur tl]. rewrite H2, H3, H4, H5, Ha.
      change (x :: w' ++ r) with ((x :: w') ++ r). rewrite take_while_app, drop_while_app by auto. rewrite Ht. reflexivity.
    - intros (sg & ip & fr & ex & -> & Hp & Hst & Hv). destruct (tok_of_num _ _ _ _ Hp Hv) as (t & Ht & Eo). rewrite Eo.
      pose proof (scan_num_of fm _ _ _ _ r Hp Hst) as Hs. destruct (literal_start _ _ _ _ Hp) as (x & s' & Es & Hx).
      destruct (num_start_cases fm _ Hx) as (H1 & H2 & H3 & H4). pose proof (num_tok_not_eof _ _ _ Ht).
      unfold str in *. rewrite Es in *. split; [|congruence].
      unfold TextToks.lex1. cbn [app length scan]. rewrite not_ws_drop by assumption. cbn [cur tl]. rewrite H2, H3, H4, Hx.
      cbn [app] in Hs. rewrite Hs, Ht. reflexivity.
    - intro H. cbn [tok_of]. split; [|discriminate]. unfold quoted. cbn [app]. rewrite <- app_assoc. cbn [app]. apply lex_quote.
      pose proof (chars_len _ _ H) as Hl.
      destruct (scan_chars b s H (length (b ++ c_quote :: r)) (c_quote :: r)) as (m & Em & E).
      { rewrite app_length. lia. }
      rewrite E. destruct m as [|m].
      + exfalso. rewrite app_length in Em. cbn [length] in Em. lia.
      + rewrite scan_str_quote. rewrite app_nil_r. reflexivity.
  Qed.
  Lemma lexs_skip_k a r k : (forall n, (length a <= n)%nat -> scan F fm (S n) KBof a = scan F fm n k r) ->
    (length r < length a)%nat -> lexs a = lexs r.
  Proof.
    intros H Hlt. rewrite (lexs_unfold F fm a), (lexs_unfold F fm r).
    assert (E : lex1 a = lex1 r).
    { unfold TextToks.lex1. rewrite H by lia.
      destruct (scan_spec F fm (length r) r (S (length r)) (length a) KBof k) as (A & B & _); try lia.
      destruct (scan F fm (S (length r)) KBof r) as [l1 [t1|]], (scan F fm (length a) k r) as [l2 [t2|]];
        cbn [fst snd same_out] in A, B; subst; tauto. }
    rewrite E. reflexivity.
  Qed.
  Lemma drop_line_over body r : Forall (fun x => x <> 10 /\ x <> 0) body -> over r ->
    drop_while (fun c => negb (c =? c_nl) && negb (c =? 0)) (body ++ r) = r.
  Proof.
    induction 1 as [|x body [H1 H2] H IH]; intro Ho; [destruct Ho as [-> | [r' ->]]; reflexivity|]. cbn [app drop_while].
    apply N.eqb_neq in H1, H2. unfold c_nl. rewrite H1, H2. cbn [negb andb]. exact (IH Ho).
  Qed.
  Lemma lexs_line body r : Forall (fun x => x <> 10 /\ x <> 0) body -> over r \/ (exists r', r = 10 :: r') ->
    lexs ([47; 47] ++ body ++ r) = lexs r.
  Proof.
    intros Hb Hr. apply lexs_skip; [|cbn [app length]; rewrite app_length; lia].
    intros n _. cbn [app scan]. rewrite not_ws_drop by reflexivity. cbn [cur tl].
    change (47 =? 0) with false. change (47 =? c_slash) with true. cbn [drop_while]. change (negb (47 =? c_nl) && negb (47 =? 0)) with true. cbn iota.
    destruct Hr as [Hr|[r' ->]]; [rewrite drop_line_over by assumption | rewrite drop_line by exact Hb]; reflexivity.
  Qed.
  Lemma lexs_space g r : space fm g -> lexs (g ++ r) = lexs r.
  Proof.
    induction 1 as [|x g Hx Hg IH|body g Hb Hg IH|body b g [Hb Hc] He Hg IH|x g Er Hx Hg IH|x g Er Hg IH].
    - reflexivity.
    - cbn [app]. rewrite lexs_ws by (apply ws_char_b; exact Hx). apply IH.
    - rewrite <- IH. rewrite <- !app_assoc. cbn [app]. change (47 :: 47 :: body ++ 10 :: g ++ r) with ([47; 47] ++ body ++ 10 :: g ++ r).
      rewrite lexs_line by eauto. apply lexs_ws. reflexivity.
    - rewrite <- IH. cbn [app]. rewrite <- !app_assoc. cbn [app].
      apply lexs_skip; [|cbn [length app]; rewrite ?app_length; cbn [length app]; rewrite ?app_length; lia].
      intros n _. cbn [scan]. rewrite not_ws_drop by reflexivity. cbn [cur tl].
      change (47 =? 0) with false. change (47 =? c_slash) with true. change (42 =? c_slash) with false. change (42 =? c_star) with true. cbn iota.
      destruct fm.
      + rewrite (json_comment_close body c_star _ b); auto.
      + cbn [ron_comment]. change (42 =? 0) with false. change (42 =? c_slash) with false. cbn [andb].
        rewrite (ron_comment_close body c_star _ b); auto.
    - rewrite <- IH. cbn [app]. apply (lexs_skip_k _ _ (KChar x)); [|cbn [length]; lia].
      intros n _. cbn [scan]. rewrite not_ws_drop by reflexivity. cbn [cur tl].
      rewrite Er. apply N.eqb_neq in Hx. unfold c_bslash. rewrite Hx. reflexivity.
    - rewrite <- IH. cbn [app]. apply (lexs_skip_k _ _ (KChar x)); [|cbn [length]; lia].
      intros n _. cbn [scan]. rewrite not_ws_drop by reflexivity. cbn [cur tl]. rewrite Er. reflexivity.
  Qed.
  Lemma over_eof r : over r -> lexs r = ([], false).
  Proof. intros [-> | [r' ->]]; (eapply lexs_eof; apply cur0_eof; reflexivity). Qed.
  Lemma lexs_at_end r : at_end fm r -> lexs r = ([], false).
  Proof.
    intros (g & e & -> & Hg & He). rewrite lexs_space by exact Hg. destruct He as [He|[(body & e' & -> & Hb & He)|(Er & body & e' & -> & [Hb Hc] & He)]].
    - apply over_eof. exact He.
    - rewrite lexs_line by auto. apply over_eof. exact He.
    - transitivity (lexs e'); [|apply over_eof; exact He].
      apply lexs_skip; [|cbn [length app]; rewrite ?app_length; lia].
      intros n _. cbn [app scan]. rewrite not_ws_drop by reflexivity. cbn [cur tl].
      change (47 =? 0) with false. change (47 =? c_slash) with true. change (42 =? c_slash) with false. change (42 =? c_star) with true. cbn iota.
      rewrite Er. cbn [ron_comment]. change (42 =? 0) with false. change (42 =? c_slash) with false. cbn [andb].
      rewrite (ron_comment_open body c_star); auto.
  Qed.
  Lemma lexs_token g x r : space fm g -> token_before fm F x r -> lexs (g ++ spelled x ++ r) = cat [tok_of x] (lexs r).
  Proof. intros Hg Hx. rewrite lexs_space by exact Hg. destruct (token_lex x r Hx) as [A B]. apply lexs_cons; assumption. Qed.
  Lemma tokens_lexs xs text r : tokens fm F xs text r -> lexs text = cat (map tok_of xs) (lexs r).
  Proof.
    induction 1 as [|g x xs text r Hg Hx H IH]; [rewrite cat_nil; reflexivity|].
    rewrite (lexs_token _ _ _ Hg Hx), IH, cat_app. reflexivity.
  Qed.

  (** ** Tokens to texts *)
  Lemma space_app g h : space fm g -> space fm h -> space fm (g ++ h).
  Proof.
    induction 1 as [|x g Hx Hg IH|body g Hb Hg IH|body b g Hc He Hg IH|x g Er Hx Hg IH|x g Er Hg IH]; intro Hh; [exact Hh|..];
      cbn [app]; rewrite <- ?app_assoc; cbn [app]; specialize (IH Hh).
    - apply sp_ws; assumption.
    - apply (sp_line fm body (g ++ h)); assumption.
    - apply (sp_block fm body b (g ++ h)); assumption.
    - apply (sp_char fm x (g ++ h)); assumption.
    - apply (sp_char_esc fm x (g ++ h)); assumption.
  Qed.
  Lemma space_ws w : forallb is_ws w = true -> space fm w.
  Proof.
    induction w as [|x w IH]; intro H; [constructor|]. cbn [forallb] in H. apply andb_prop in H as [A B].
    apply sp_ws; [apply ws_char_iff; exact A | auto].
  Qed.
  Definition inverted (l l' : str) (t : ltok) : Prop :=
    (t = LP KEof /\ at_end fm l) \/
    (exists g x, l = g ++ spelled x ++ l' /\ space fm g /\ token_before fm F x l' /\ tok_of x = t).
  Lemma inverted_skip g l l' t : space fm g -> inverted l l' t -> inverted (g ++ l) l' t.
  Proof.
    intros Hg [[-> (h & e & -> & Hh & He)]|(h & x & -> & Hh & Hx & Ht)].
    - left. split; [reflexivity|]. exists (g ++ h), e. split; [rewrite app_assoc; reflexivity|]. split; [apply space_app; assumption | exact He].
    - right. exists (g ++ h), x. split; [rewrite <- app_assoc; reflexivity|]. split; [apply space_app; assumption | auto].
  Qed.
  Lemma cur0_over l : cur l = 0 -> over l.
  Proof. destruct l as [|x l]; [left; reflexivity|]. cbn [cur]. intros ->. right. eauto. Qed.
  Lemma scan_over n k l l' t : over l -> scan F fm (S n) k l = (l', LTok t) -> t = LP KEof.
  Proof. intros [-> | [r ->]] H; cbn [scan] in H; injection H as _ <-; reflexivity. Qed.
  Lemma id_word w k t : id_tok fm w k = LTok t -> is_alpha (cur w) = true -> forallb (id_char fm) w = true -> word fm w.
  Proof.
    unfold id_tok, word. intros H Ha Hw. destruct fm.
    - destruct (str_eqb w (chars "true")) eqn:E1; [apply str_eqb_eq in E1; right; left; exact E1|].
      destruct (str_eqb w (chars "false")) eqn:E2; [apply str_eqb_eq in E2; right; right; exact E2|].
      destruct (str_eqb w (chars "null")) eqn:E3; [apply str_eqb_eq in E3; left; exact E3 | discriminate].
    - destruct w as [|x w]; [discriminate Ha|]. exists x, w. split; [reflexivity|]. split; [apply letter_iff; exact Ha|].
      cbn [forallb] in Hw. apply andb_prop in Hw as [_ Hw]. rewrite forallb_forall in Hw. apply Forall_forall. intros y Hy. specialize (Hw y Hy).
      unfold id_char in Hw. apply orb_prop in Hw as [Hw|Hw]; [left; apply letter_iff; exact Hw | right; apply digit_range; exact Hw].
  Qed.
  Lemma scan_inv : forall N l n k l' t, (length l <= N)%nat -> (N < n)%nat -> scan F fm n k l = (l', LTok t) -> inverted l l' t.
  Proof.
    induction N as [N IH] using (well_founded_induction lt_wf). intros l n k l' t Hl Hn H.
    destruct n as [|n]; [lia|]. cbn [scan] in H.
    destruct (while_split is_ws l) as (w & l0 & E & Hw & Hnw & _ & D). rewrite D in H. subst l. clear D.
    apply space_ws in Hw. apply (inverted_skip w l0); [exact Hw|]. rewrite app_length in Hl.
    destruct (cur l0 =? 0) eqn:E0.
    { apply N.eqb_eq in E0. injection H as <- <-. left. split; [reflexivity|]. exists [], l0. split; [reflexivity|]. split; [constructor|]. left. apply cur0_over. exact E0. }
    destruct l0 as [|c r]; [discriminate|]. cbn [cur tl length] in *. destruct Hnw as [Hnw|Hnw]; [discriminate|].
    destruct n as [|n]; [lia|].
    destruct (c =? c_slash) eqn:Es.
    { apply N.eqb_eq in Es. unfold c_slash in Es. subst c.
      destruct (cur r =? c_slash) eqn:E1.
      { apply N.eqb_eq in E1. destruct r as [|y r]; [discriminate|]. cbn [cur] in E1. unfold c_slash in E1. subst y. cbn [drop_while] in H.
        change (negb (47 =? c_nl) && negb (47 =? 0)) with true in H. cbn iota in H.
        destruct (while_split (fun c => negb (c =? c_nl) && negb (c =? 0)) r) as (body & r2 & E2 & Hb & Hs & _ & D). rewrite D in H. subst r. clear D.
        assert (Hbody : Forall (fun x => x <> 10 /\ x <> 0) body).
        { apply Forall_forall. intros y Hy. rewrite forallb_forall in Hb. specialize (Hb y Hy). apply andb_prop in Hb as [A B].
          apply negb_true_iff in A, B. apply N.eqb_neq in A, B. auto. }
        assert (Hr2 : over r2 \/ exists r3, r2 = 10 :: r3).
        { destruct r2 as [|y r2]; [left; left; reflexivity|]. destruct Hs as [Hs|Hs]; [discriminate|]. cbn [cur] in Hs.
          apply andb_false_iff in Hs as [Hs|Hs]; apply negb_false_iff in Hs; apply N.eqb_eq in Hs; unfold c_nl in Hs; subst y; [right; eauto | left; right; eauto]. }
        destruct Hr2 as [Ho|[r3 ->]].
        - left. split; [eapply scan_over; eassumption|]. exists [], ([47; 47] ++ body ++ r2). split; [reflexivity|]. split; [constructor|].
          right. left. exists body, r2. auto.
        - change (47 :: 47 :: body ++ 10 :: r3) with ([47; 47] ++ body ++ [10] ++ r3).
          replace ([47; 47] ++ body ++ [10] ++ r3) with (([47; 47] ++ body ++ [10] ++ []) ++ r3) by (cbn [app]; rewrite <- app_assoc; reflexivity).
          apply inverted_skip; [apply sp_line; [exact Hbody | constructor]|].
          cbn [length] in Hl. rewrite app_length in Hl. cbn [length] in Hl.
          apply (IH (length r3) ltac:(lia) r3 (S n) k l' t ltac:(lia) ltac:(lia)). exact H. }
      destruct (cur r =? c_star) eqn:E2; [|destruct fm; discriminate].
      apply N.eqb_eq in E2. destruct r as [|y r]; [discriminate|]. cbn [cur] in E2. unfold c_star in E2. subst y. cbn [tl] in H.
      assert (Hcl : forall body b r2, r = body ++ 47 :: r2 -> Forall (fun x => x <> 0) body -> 42 :: body = b ++ [42] ->
        (forall a c, 42 :: body <> a ++ [42; 47] ++ c) -> scan F fm (S n) k r2 = (l', LTok t) -> inverted (47 :: 42 :: r) l' t).
      { intros body b r2 -> Hz He Hc Hs. 
        replace (47 :: 42 :: body ++ 47 :: r2) with (([47; 42] ++ body ++ [47] ++ []) ++ r2) by (cbn [app]; rewrite <- app_assoc; reflexivity).
        apply inverted_skip; [apply (sp_block fm body b); [split; assumption | exact He | constructor]|].
        cbn [length] in Hl. rewrite app_length in Hl. cbn [length] in Hl.
        apply (IH (length r2) ltac:(lia) r2 (S n) k l' t ltac:(lia) ltac:(lia)). exact Hs. }
      assert (Hcase : (fm = Json /\ exists r', json_comment c_star r = Some r' /\ scan F fm (S n) k r' = (l', LTok t)) \/
                      (fm = Ron /\ scan F fm (S n) k (ron_comment (c_star =? c_star) r) = (l', LTok t))).
      { destruct fm; [left | right; split; [reflexivity | exact H]]. split; [reflexivity|].
        destruct (json_comment c_star r) as [r'|]; [exists r'; auto | discriminate]. }
      destruct Hcase as [(Ej & r' & Ec & Hs)|(Er & Hs)].
      - apply json_comment_inv in Ec as (body & b & -> & Hz & He & Hc). eapply Hcl; eauto.
      - destruct (ron_comment_inv r c_star) as (body & r2 & E3 & Hz & Hc & [[Eb [b He]]|[Eb Ho]]); rewrite E3 in Hs.
        + eapply Hcl; eauto.
        + left. split; [eapply scan_over; eassumption|]. exists [], ([47; 42] ++ body ++ r2). split; [rewrite Eb; reflexivity|]. split; [constructor|].
          right. right. split; [exact Er|]. exists body, r2. split; [reflexivity|]. split; [split; assumption | exact Ho]. }
    destruct (punct fm c) as [t0|] eqn:Ep.
    { injection H as <- <-. right. exists [], (XP c). cbn [spelled app tok_of token_before]. rewrite Ep. split; [reflexivity|]. split; [constructor|]. split; [|reflexivity].
      apply punct_mark. eauto. }
    destruct (num_start fm c) eqn:En.
    { destruct (scan_num (c :: r)) as [[buf l2] fl] eqn:Es2. destruct (num_tok F buf fl) as [t0|] eqn:Et; [|discriminate]. injection H as -> <-.
      destruct (scan_num_inv fm (c :: r) buf l' fl En Es2) as (sg & ip & fr & ex & El & -> & Hp & Hst & ->).
      right. exists [], (XN (sg ++ ip ++ fr ++ ex)). cbn [spelled]. split; [exact El|]. split; [constructor|].
      assert (Hv : literal_value F sg ip fr ex) by (apply (literal_tok _ _ _ _ Hp); congruence).
      destruct (tok_of_num _ _ _ _ Hp Hv) as (t1 & A & B). split; [|congruence]. exists sg, ip, fr, ex. auto. }
    destruct (is_alpha c) eqn:Ea.
    { destruct (while_split (id_char fm) (c :: r)) as (a & l2 & El & Hid & Hs & T & D). rewrite T, D in H. injection H as <- H.
      assert (Hac : is_alpha (cur a) = true).
      { destruct a as [|y a]; [|injection El as <- _; exact Ea]. cbn [app] in El. subst l2. destruct Hs as [Hs|Hs]; [discriminate|].
        cbn [cur] in Hs. unfold id_char in Hs. rewrite Ea in Hs. destruct fm; discriminate. }
      right. exists [], (XW a). cbn [spelled app]. split; [exact El|]. split; [constructor|]. split.
      - cbn [token_before]. split; [eapply id_word; eassumption|]. apply word_stops. destruct Hs as [-> | Hs]; [destruct fm; reflexivity | exact Hs].
      - cbn [tok_of]. pose proof (id_tok_same fm a k KBof) as Hsame. rewrite H in Hsame. cbn [same_out] in Hsame.
        destruct (id_tok fm a KBof); [congruence | contradiction]. }
    destruct (c =? c_quote) eqn:Eq.
    { apply N.eqb_eq in Eq. unfold c_quote in Eq. subst c. destruct (scan_str (length r) r) as [l2 [s|]] eqn:Es2; [|discriminate]. injection H as <- <-.
      apply scan_str_inv in Es2 as (b & -> & Hb). right. exists [], (XS b s). cbn [spelled token_before tok_of]. split; [|split; [constructor | auto]].
      unfold quoted. cbn [app]. rewrite <- app_assoc. reflexivity. }
    assert (Er : fm = Ron) by (destruct fm; [discriminate | reflexivity]).
    assert (H' : (if c =? c_apos then (let l1 := if cur r =? c_bslash then tl r else r in let l2 := tl l1 in
      if cur l2 =? c_apos then scan F fm (S n) (KChar (cur l1)) (tl l2) else (l2, LErr k (UnexpectedToken k (chars "char"))))
      else (c :: r, LErr k (UnexpectedToken k (chars "tokenizer")))) = (l', LTok t)).
    { rewrite Er in H |- *. exact H. }
    clear H. rename H' into H. destruct (c =? c_apos) eqn:Eap; [|discriminate]. apply N.eqb_eq in Eap. unfold c_apos in Eap. subst c. cbn zeta in H.
    destruct (cur r =? c_bslash) eqn:Eb.
    - apply N.eqb_eq in Eb. destruct r as [|y r]; [discriminate|]. cbn [cur] in Eb. unfold c_bslash in Eb. subst y. cbn [tl] in H.
      destruct (cur (tl r) =? c_apos) eqn:E3; [|discriminate]. apply N.eqb_eq in E3. destruct r as [|y [|z r]]; try discriminate. cbn [tl cur] in *. unfold c_apos in E3. subst z.
      change (39 :: 92 :: y :: 39 :: r) with (([39; 92; y; 39] ++ []) ++ r). apply inverted_skip; [apply sp_char_esc; [exact Er | constructor]|].
      cbn [length] in Hl. apply (IH (length r) ltac:(lia) r (S n) _ l' t ltac:(lia) ltac:(lia) H).
    - destruct (cur (tl r) =? c_apos) eqn:E3; [|discriminate]. apply N.eqb_eq in E3. destruct r as [|y [|z r]]; try discriminate. cbn [tl cur] in *. unfold c_apos in E3. subst z.
      change (39 :: y :: 39 :: r) with (([39; y; 39] ++ []) ++ r). apply N.eqb_neq in Eb. apply inverted_skip; [apply sp_char; [exact Er | exact Eb | constructor]|].
      cbn [length] in Hl. apply (IH (length r) ltac:(lia) r (S n) _ l' t ltac:(lia) ltac:(lia) H).
  Qed.
  Lemma lexs_inv_tok text t l b : lexs text = (t :: l, b) -> exists g x text', text = g ++ spelled x ++ text' /\ space fm g /\ token_before fm F x text' /\
    tok_of x = t /\ lexs text' = (l, b).
  Proof.
    rewrite lexs_unfold. unfold TextToks.lex1. destruct (scan F fm (S (length text)) KBof text) as [l' [t0|k m]] eqn:E; [|discriminate].
    intro H. apply (scan_inv (length text)) in E; [|lia|lia]. destruct E as [[-> _]|(g & x & -> & Hg & Hx & Ht)]; [discriminate|].
    assert (t0 <> LP KEof) by (rewrite <- Ht; apply (token_lex x l' Hx)).
    exists g, x, l'. destruct t0 as [s|s|k]; [| |destruct k]; try congruence; injection H as <- <- <-; repeat (split; [assumption || reflexivity|]); destruct (lexs l'); reflexivity.
  Qed.
  Lemma lexs_inv_end text : lexs text = ([], false) -> at_end fm text.
  Proof.
    rewrite lexs_unfold. unfold TextToks.lex1. destruct (scan F fm (S (length text)) KBof text) as [l' [t0|k m]] eqn:E; [|discriminate].
    intro H. apply (scan_inv (length text)) in E; [|lia|lia]. destruct E as [[_ E]|(g & x & -> & Hg & Hx & Ht)]; [exact E|].
    assert (t0 <> LP KEof) by (rewrite <- Ht; apply (token_lex x l' Hx)).
    destruct t0 as [s|s|k]; [| |destruct k]; try congruence; discriminate.
  Qed.
  Lemma lexs_tokens : forall l text b m, lexs text = (l ++ m, b) -> exists xs r, tokens fm F xs text r /\ map tok_of xs = l /\ lexs r = (m, b).
  Proof.
    induction l as [|t l IH]; intros text b m H; [exists [], text; split; [constructor | auto]|].
    destruct (lexs_inv_tok _ _ _ _ H) as (g & x & text' & -> & Hg & Hx & Ht & H').
    destruct (IH _ _ _ H') as (xs & r & A & B & C). exists (x :: xs), r. split; [constructor; assumption|]. split; [cbn [map]; congruence | exact C].
  Qed.
End Tok.
