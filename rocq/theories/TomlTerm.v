(** Every TOML text is read to an end: progress, errors, panics. *)
From Verif Require Import Base Utf8 Types Text TextModel TextToks SpecText SpecGram TomlModel SpecToml TomlRead TomlDoc.
Local Open Scope N_scope.

Section Scan.
  Variable F : flt.
  Lemma drop_tl p l : l <> [] -> p (cur l) = true -> drop_while p l = drop_while p (tl l).
  Proof. destruct l as [|x l]; [congruence|]. cbn [cur tl drop_while]. intros _ ->. reflexivity. Qed.
  Lemma eat_suffix w l b l' w' : q_eat w l = (b, l', w') -> suffix l' l.
  Proof.
    revert l b l' w'. induction w as [|x w IH]; intros l b l' w' H; [inversion H; apply suffix_refl|].
    destruct l as [|c r]; [inversion H; apply suffix_refl|]. cbn [q_eat] in H. destruct (c =? x); [|inversion H; apply suffix_refl].
    destruct (q_eat w r) as [[b1 l1] w1] eqn:E. inversion H; subst. eapply suffix_trans; [eapply IH; exact E | apply suffix_cons].
  Qed.
  Lemma word_suffix st l : suffix (fst (q_word st l)) l.
  Proof. unfold q_word. cbn [fst]. apply suffix_drop. Qed.
  Lemma num_suffix l : l <> [] -> (cur l =? c_plus) || (cur l =? c_minus) || is_digit (cur l) = true -> suffix (fst (q_num F l)) (tl l).
  Proof.
    intros Hl H. unfold q_num. destruct (q_eat _ _) as [[b1 l1] rest] eqn:Ee. pose proof (eat_suffix _ _ _ _ _ Ee) as S1.
    assert (S2 : suffix (drop_while dig_us l1) (tl l)).
    { destruct ((cur l =? c_minus) || (cur l =? c_plus)) eqn:Es.
      - apply suffix_drop_of. exact S1.
      - assert (Hd : is_digit (cur l) = true) by (destruct (cur l =? c_plus), (cur l =? c_minus); cbn in *; congruence).
        assert (E0 : cur l =? 110 = false /\ cur l =? 105 = false) by (unfold is_digit in Hd; lia).
        destruct E0 as [E1 E2]. rewrite E1, E2 in Ee. cbn [q_eat] in Ee. inversion Ee; subst.
        rewrite drop_tl; [apply suffix_drop | exact Hl|]. unfold dig_us. rewrite Hd. reflexivity. }
    destruct (_ && q_term _) eqn:Ew.
    - cbn [fst]. destruct ((cur l =? c_minus) || (cur l =? c_plus)) eqn:Es; [exact S1|].
      exfalso. assert (Hd : is_digit (cur l) = true) by (destruct (cur l =? c_plus), (cur l =? c_minus); cbn in *; congruence).
      assert (E0 : cur l =? 110 = false /\ cur l =? 105 = false) by (unfold is_digit in Hd; lia).
      destruct E0 as [E1 E2]. rewrite E1, E2 in Ew. discriminate.
    - cbv zeta. destruct (cur (drop_while dig_us l1) =? c_dot); [cbn [fst]; apply suffix_drop_of, suffix_tl_of, S2|].
      destruct (cur (drop_while dig_us l1) =? c_minus); [cbn [fst]; apply suffix_drop_of, suffix_tl_of, S2|].
      destruct (q_ident (cur (drop_while dig_us l1))); [eapply suffix_trans; [apply word_suffix | exact S2] | exact S2].
  Qed.
  Lemma body_suffix n tr : forall l, suffix (fst (q_body n tr l)) l.
  Proof.
    induction n as [|n IH]; intro l; [apply suffix_refl|]. cbn [q_body].
    assert (P : forall pre c r, suffix r l -> suffix (fst (match q_body n tr r with (r', Some s) => (r', Some (pre ++ c :: s)) | e => e end)) l).
    { intros pre c r Hr. specialize (IH r). destruct (q_body n tr r) as [r' [s|]]; cbn [fst] in *; eapply suffix_trans; eassumption. }
    destruct (_ && _); [apply suffix_refl|]. destruct (cur l =? c_quote).
    - destruct (_ =? 3)%nat; [cbn [fst]; apply suffix_drop | apply P, suffix_tl_of, suffix_drop].
    - destruct (cur l =? c_bslash); [apply P, suffix_tl_of, suffix_tl|]. destruct (cur l =? 0); [apply suffix_refl | apply P, suffix_tl].
  Qed.
  Lemma string_suffix l : suffix (fst (q_string l)) l.
  Proof.
    unfold q_string.
    set (x := if cur l =? c_quote then if cur (tl l) =? c_quote then (true, tl (tl l)) else (false, tl l) else (false, l)). assert (Hx : suffix (snd x) l).
    { subst x. destruct (cur l =? c_quote); [|apply suffix_refl]. destruct (cur (tl l) =? c_quote); cbn [snd]; [apply suffix_tl_of, suffix_tl | apply suffix_tl]. }
    destruct x as [tr l1]. cbn [snd] in Hx. pose proof (body_suffix (S (length l1)) tr l1) as Hb.
    destruct (q_body _ _ _) as [r [s|]]; cbn [fst] in *; [apply suffix_tl_of|]; eapply suffix_trans; eassumption.
  Qed.
  (** What one call of [q_scan] leaves. *)
  Lemma cur_nonempty l : (cur l =? 0) = false -> l <> [].
  Proof. intros H ->. discriminate. Qed.
  Lemma tl_shorter (l : str) : l <> [] -> (length (tl l) < length l)%nat.
  Proof. destruct l; [congruence | cbn; lia]. Qed.
  Lemma scan_result n : forall l, suffix (fst (q_scan F n l)) l /\
    forall t, snd (q_scan F n l) = inl t -> t = QEof \/ (length (fst (q_scan F n l)) < length l)%nat.
  Proof.
    induction n as [|n IH]; intro l0; [split; [apply suffix_refl | discriminate]|]. cbn [q_scan].
    set (l := drop_while is_ws l0). assert (Hl : suffix l l0) by apply suffix_drop. pose proof (suffix_len _ _ Hl) as Ll.
    destruct (cur l =? 0) eqn:E0; [cbn [fst snd]; split; [exact Hl|]; intros t Ht; inversion Ht; auto|].
    apply cur_nonempty in E0. pose proof (tl_shorter l E0) as Ht.
    assert (One : forall o : qout, suffix (fst o) (tl l) -> suffix (fst o) l0 /\ forall t, snd o = inl t -> t = QEof \/ (length (fst o) < length l0)%nat).
    { intros o Ho. split; [eapply suffix_trans; [exact Ho | apply suffix_tl_of, Hl]|]. intros t _. right. apply suffix_len in Ho. lia. }
    destruct (cur l =? c_comma); [apply One, suffix_refl|]. destruct (cur l =? c_lbr); [apply One, suffix_refl|].
    destruct (cur l =? c_rbr); [apply One, suffix_refl|]. destruct (cur l =? c_eq); [apply One, suffix_refl|].
    destruct (cur l =? c_hash).
    - destruct (IH (drop_while (fun c => negb (c =? c_nl) && negb (c =? 0)) l)) as [A B].
      assert (S1 : suffix (drop_while (fun c => negb (c =? c_nl) && negb (c =? 0)) l) l0) by (apply suffix_drop_of; exact Hl).
      split; [eapply suffix_trans; eassumption|]. intros t Et. destruct (B t Et) as [B'|B']; [auto|]. right. apply suffix_len in S1. lia.
    - destruct (_ || _ || _) eqn:En; [apply One, num_suffix; assumption|].
      destruct (cur l =? c_quote); [apply One, string_suffix|]. destruct (q_ident (cur l)) eqn:Ei.
      + apply One. unfold q_word. cbn [fst]. rewrite drop_tl; [apply suffix_drop | exact E0|]. rewrite Ei. reflexivity.
      + cbn [fst snd]. split; [exact Hl | discriminate].
  Qed.
  (** An opening bracket comes after nothing but space. *)
  Lemma num_not_open l r : q_num F l <> (r, inl QOpen).
  Proof.
    unfold q_num. destruct (q_eat _ _) as [[b1 l1] rest].
    destruct (_ && q_term _); [destruct (_ =? 110); discriminate|]. cbv zeta.
    destruct (cur (drop_while dig_us l1) =? c_dot); [destruct (f64_parse _ _); discriminate|]. destruct (cur (drop_while dig_us l1) =? c_minus); [discriminate|].
    destruct (q_ident (cur (drop_while dig_us l1))).
    - unfold q_word. destruct (q_term _); [|discriminate]. repeat (destruct (str_eqb _ _); [discriminate|]). discriminate.
    - destruct (cur l =? c_minus); destruct (q_i64 _); discriminate.
  Qed.
  Lemma ws_tgap l : exists g, tgap g /\ l = g ++ drop_while is_ws l.
  Proof.
    induction l as [|x l (g & Hg & E)]; [exists []; split; [constructor | reflexivity]|]. cbn [drop_while]. destruct (is_ws x) eqn:Ew.
    - exists (x :: g). split; [constructor; [|exact Hg] | cbn [app]; congruence]. unfold is_ws, c_nl, c_cr, c_tab, c_sp in Ew. unfold ws_char. lia.
    - exists []. split; [constructor | reflexivity].
  Qed.
  Lemma tgap_app a b : tgap a -> tgap b -> tgap (a ++ b).
  Proof.
    intros Ha Hb. induction Ha; cbn [app]; [exact Hb | constructor; assumption|]. rewrite <- app_assoc. cbn [app]. constructor; assumption.
  Qed.
  Lemma scan_open n : forall l r, q_scan F n l = (r, inl QOpen) -> exists g, tgap g /\ l = g ++ 91 :: r.
  Proof.
    induction n as [|n IH]; intros l0 r H; [discriminate|]. cbn [q_scan] in H.
    destruct (ws_tgap l0) as (g & Hg & Eg). set (l := drop_while is_ws l0) in *.
    destruct (cur l =? 0) eqn:E0; [discriminate|]. destruct (cur l =? c_comma); [discriminate|].
    destruct (cur l =? c_lbr) eqn:Eb.
    { inversion H; subst r. exists g. split; [exact Hg|]. rewrite Eg at 1. f_equal. destruct l as [|x l]; [discriminate|]. cbn [cur] in Eb. apply N.eqb_eq in Eb. subst x. reflexivity. }
    destruct (cur l =? c_rbr); [discriminate|]. destruct (cur l =? c_eq); [discriminate|]. destruct (cur l =? c_hash) eqn:Eh.
    - destruct l as [|x l1]; [discriminate|]. cbn [cur] in Eh. apply N.eqb_eq in Eh. subst x.
      set (p := fun c => negb (c =? c_nl) && negb (c =? 0)) in *. change (drop_while p (c_hash :: l1)) with (drop_while p l1) in H.
      destruct (IH _ _ H) as (g2 & Hg2 & E2). pose proof (take_drop p l1) as Etd.
      assert (Hb : Forall (fun x => x <> 10 /\ x <> 0) (take_while p l1)).
      { clear. induction l1 as [|x l IH]; cbn [take_while]; [constructor|]. destruct (p x) eqn:E; [|constructor]. constructor; [|exact IH].
        unfold p, c_nl in E. lia. }
      (* the comment was ended by a line break *)
      assert (Hnl : exists g3, g2 = 10 :: g3 /\ tgap g3).
      { assert (Hc : drop_while p l1 = [] \/ p (cur (drop_while p l1)) = false).
        { clear. induction l1 as [|x l IH]; cbn [drop_while]; [auto|]. destruct (p x) eqn:E; [exact IH|]. right. exact E. }
        rewrite E2 in Hc. destruct Hc as [Hc|Hc]; [destruct g2; discriminate|].
        destruct Hg2 as [|x g2 Hx Hg2|body g2 Hbo Hg2]; cbn [app cur] in Hc.
        - discriminate.
        - exists g2. split; [|exact Hg2]. unfold p, c_nl in Hc. destruct Hx as [-> | [-> | [-> | ->]]]; try discriminate Hc. reflexivity.
        - discriminate. }
      destruct Hnl as (g3 & -> & Hg3). exists (g ++ 35 :: take_while p l1 ++ 10 :: g3). split; [apply tgap_app; [exact Hg | constructor; assumption]|].
      rewrite Eg at 1. rewrite <- !app_assoc. cbn [app]. rewrite <- app_assoc. cbn [app]. f_equal. change c_hash with 35. f_equal.
      rewrite <- Etd at 1. f_equal. exact E2.
    - destruct (_ || _ || _); [exfalso; eapply num_not_open; exact H|]. destruct (cur l =? c_quote).
      + unfold q_string in H. match type of H with context [if ?c then ?a else ?b] => destruct (if c then a else b) as [tr l1] end. destruct (q_body _ _ _) as [r' [s|]]; discriminate.
      + destruct (q_ident _); [|discriminate]. unfold q_word in H. destruct (q_term _); [|discriminate]. repeat (destruct (str_eqb _ _); [discriminate|]). discriminate.
  Qed.
  (** The bounds on the rounds of the two loops do not matter. *)
  Lemma body_fuel n tr : forall l m, (length l < n)%nat -> (length l < m)%nat -> q_body n tr l = q_body m tr l.
  Proof.
    induction n as [|n IH]; intros l m Hn Hm; [lia|]. destruct m as [|m]; [lia|]. cbn [q_body].
    assert (P : forall (pre : str) c r, (length r < length l)%nat ->
      (match q_body n tr r with (r', Some s) => (r', Some (pre ++ c :: s)) | e => e end) = (match q_body m tr r with (r', Some s) => (r', Some (pre ++ c :: s)) | e => e end)).
    { intros pre c r Hr. rewrite (IH r m) by lia. reflexivity. }
    destruct (_ && _); [reflexivity|]. destruct (cur l =? c_quote) eqn:Eq.
    - destruct (_ =? 3)%nat; [reflexivity|]. apply P. destruct l as [|x l]; [discriminate|]. cbn [cur] in Eq. cbn [drop_while]. rewrite Eq.
      pose proof (suffix_len _ _ (suffix_tl_of _ _ (suffix_drop (fun x => x =? c_quote) l))). cbn [length]. lia.
    - destruct (cur l =? c_bslash) eqn:Eb.
      + apply P. destruct l as [|x l]; [discriminate|]. cbn [tl length]. destruct l; cbn [tl length]; lia.
      + destruct (cur l =? 0) eqn:E0; [reflexivity|]. apply P. apply tl_shorter, cur_nonempty, E0.
  Qed.
  Lemma scan_fuel n : forall l m, (length l < n)%nat -> (length l < m)%nat -> q_scan F n l = q_scan F m l.
  Proof.
    induction n as [|n IH]; intros l0 m Hn Hm; [lia|]. destruct m as [|m]; [lia|]. cbn [q_scan].
    set (l := drop_while is_ws l0). assert (Ll : (length l <= length l0)%nat) by apply suffix_len, suffix_drop.
    destruct (cur l =? 0) eqn:E0; [reflexivity|]. destruct (cur l =? c_comma); [reflexivity|]. destruct (cur l =? c_lbr); [reflexivity|].
    destruct (cur l =? c_rbr); [reflexivity|]. destruct (cur l =? c_eq); [reflexivity|]. destruct (cur l =? c_hash) eqn:Eh; [|reflexivity].
    assert (H : (length (drop_while (fun c => negb (c =? c_nl)%N && negb (c =? 0)%N) l) < length l)%nat).
    { destruct l as [|x l']; [discriminate|]. cbn [cur] in Eh. apply N.eqb_eq in Eh. subst x.
      match goal with |- context [drop_while ?p (c_hash :: l')] => change (drop_while p (c_hash :: l')) with (drop_while p l'); pose proof (suffix_len _ _ (suffix_drop p l')) end.
      cbn [length]. lia. }
    apply IH; lia.
  Qed.
End Scan.

Lemma newlines_app a b : newlines (a ++ b) = newlines a + newlines b.
Proof. unfold newlines, lenN. rewrite filter_app, app_length. lia. Qed.
Lemma lines_split p l : lines_to (p ++ l) l + newlines (firstn 1 (p ++ l)) = newlines (p ++ firstn 1 l).
Proof.
  unfold lines_to. destruct p as [|x p].
  - cbn [app]. replace (length l - length l)%nat with O by lia. reflexivity.
  - cbn [app tl length]. change (firstn 1 (x :: p ++ l)) with [x]. rewrite app_length. replace (S (length p + length l) - length l)%nat with (length p + 1)%nat by lia.
    rewrite firstn_app. replace (length p + 1 - length p)%nat with 1%nat by lia. rewrite firstn_all2 by lia.
    pose proof (newlines_app [x] (p ++ firstn 1 l)) as H. cbn [app] in H. rewrite H. unfold newlines, c_nl. lia.
Qed.

Section Ends.
  Variable F : flt. Variable show : N -> str. Variable text : str.
  (** [s] is the state after some of [text] was read. *)
  Definition at_ (s : qst) : Prop := exists p, text = p ++ q_inp s /\ q_ln s = newlines (p ++ firstn 1 (q_inp s)).
  Definition line_ok (n : N) : Prop := exists p r, text = p ++ r /\ n = newlines p.
  Definition open_twice : Prop := exists pre g post, text = pre ++ 91 :: g ++ 91 :: post /\ tgap g.
  Definition ends {A} (k : nat) (Q : A -> Prop) (s : qst) (o : qst * res qerr A) : Prop :=
    at_ (fst o) /\ (length (q_inp (fst o)) <= length (q_inp s))%nat /\
    match snd o with
    | Ok a => Q a /\ (length (q_inp (fst o)) + k <= length (q_inp s))%nat
    | Err e => line_ok (q_line e)
    | Panic p => p = PUnreachable /\ open_twice
    | NoFuel => False
    end.
  Lemma at_line s : at_ s -> line_ok (q_ln s).
  Proof.
    intros (p & E & El). exists (p ++ firstn 1 (q_inp s)), (tl (q_inp s)). split; [|exact El]. rewrite E, <- app_assoc. f_equal. destruct (q_inp s); reflexivity.
  Qed.
  Lemma ends_next s : at_ s -> ends 0 (fun t => True) s (q_next F s) /\
    forall s' t, q_next F s = (s', Ok t) -> t <> QEof -> (length (q_inp s') < length (q_inp s))%nat.
  Proof.
    intros (p & E & El). unfold q_next. pose proof (scan_result F (S (length (q_inp s))) (q_inp s)) as [S1 S2].
    destruct (q_scan F _ _) as [l' o]. cbn [fst snd] in *.
    assert (A : at_ {| q_inp := l'; q_ln := q_ln s + lines_to (q_inp s) l' |}).
    { destruct S1 as [p' E']. exists (p ++ p'). cbn [q_inp q_ln]. split; [rewrite E, E', app_assoc; reflexivity|].
      rewrite El. rewrite <- app_assoc, !newlines_app. rewrite E'. pose proof (lines_split p' l') as L. rewrite newlines_app in L. lia. }
    pose proof (suffix_len _ _ S1) as Ll. split.
    - destruct o as [t|w]; unfold ends; cbn [fst snd q_inp]; (split; [exact A|]); (split; [exact Ll|]); [split; [exact I | lia]|]. apply (at_line _ A).
    - intros s' t H Ht. destruct o as [t'|w]; inversion H; subst. cbn [q_inp]. destruct (S2 t eq_refl); [contradiction | assumption].
  Qed.
  Lemma next_open s s' : q_next F s = (s', Ok QOpen) -> exists g, tgap g /\ q_inp s = g ++ 91 :: q_inp s'.
  Proof.
    unfold q_next. destruct (q_scan F (S (length (q_inp s))) (q_inp s)) as [l' o] eqn:E. destruct o as [t|w]; intro H; inversion H; subst. cbn [q_inp].
    eapply scan_open. exact E.
  Qed.
  Lemma ends_weak {A} k k' (Q Q' : A -> Prop) s s' o : (k + length (q_inp s') <= k' + length (q_inp s))%nat -> (length (q_inp s') <= length (q_inp s))%nat -> (forall a, Q' a -> Q a) -> ends k' Q' s' o -> ends k Q s o.
  Proof.
    intros Hk Hs HQ (A1 & A2 & A3). split; [exact A1|]. split; [lia|]. destruct (snd o); try exact A3. destruct A3 as [B1 B2]. split; [auto | lia].
  Qed.
  Lemma ends_bind {A B} k k1 (Q1 : A -> Prop) (Q : B -> Prop) (m : qm A) (f : A -> qm B) s : ends k1 Q1 s (m s) ->
    (forall s1 a, m s = (s1, Ok a) -> at_ s1 -> Q1 a -> (length (q_inp s1) + k1 <= length (q_inp s))%nat -> ends (k - k1) Q s1 (f a s1)) ->
    (k1 <= k)%nat \/ True -> ends k Q s (qbind m f s).
  Proof.
    intros (A1 & A2 & A3) H _. unfold qbind. destruct (m s) as [s1 [a|e|p|]]; cbn [fst snd] in *; try (split; [exact A1 | split; [exact A2 | exact A3]]).
    destruct A3 as [B1 B2]. destruct (H s1 a eq_refl A1 B1 B2) as (C1 & C2 & C3). split; [exact C1|]. split; [lia|].
    destruct (snd (f a s1)); try exact C3. destruct C3 as [D1 D2]. split; [exact D1 | lia].
  Qed.
  Lemma ends_ret {A} (Q : A -> Prop) s a : at_ s -> Q a -> ends 0 Q s (qret a s).
  Proof. intros H Hq. split; [exact H|]. cbn. split; [lia|]. split; [exact Hq | lia]. Qed.
  Lemma ends_err {A} k (Q : A -> Prop) s t : at_ s -> ends k Q s (q_err t s).
  Proof. intros H. split; [exact H|]. cbn. split; [lia|]. apply at_line. exact H. Qed.
  (** One token, then [f]. *)
  Lemma ends_tok {A} k (Q : A -> Prop) (f : ttok -> qm A) s : at_ s ->
    (forall s1 t, q_next F s = (s1, Ok t) -> at_ s1 -> (length (q_inp s1) <= length (q_inp s))%nat ->
       (t <> QEof -> (length (q_inp s1) < length (q_inp s))%nat) -> ends (k - (length (q_inp s) - length (q_inp s1))) Q s1 (f t s1)) ->
    ends k Q s (qbind (q_next F) f s).
  Proof.
    intros Ha H. destruct (ends_next s Ha) as [(A1 & A2 & A3) P]. unfold qbind. destruct (q_next F s) as [s1 [t|e|p|]] eqn:E; cbn [fst snd] in *;
      try (split; [exact A1 | split; [exact A2 | exact A3]]).
    destruct (H s1 t eq_refl A1 A2 (fun Ht => P s1 t eq_refl Ht)) as (C1 & C2 & C3). split; [exact C1|]. split; [lia|].
    destruct (snd (f t s1)); try exact C3. destruct C3 as [D1 D2]. split; [exact D1 | lia].
  Qed.
  Definition any {A} (a : A) : Prop := True.
  Lemma ends_vals (val : ttok -> qm toml) K : (forall t s, at_ s -> (length (q_inp s) < K)%nat -> ends 0 any s (val t s)) ->
    forall n s, at_ s -> (length (q_inp s) <= K)%nat -> (length (q_inp s) < n)%nat -> ends 0 any s (q_vals F val n s).
  Proof.
    intros Hv. induction n as [|n IH]; intros s Ha HK Hn; [lia|]. cbn [q_vals]. apply ends_tok; [exact Ha|]. intros s1 t Et A1 L1 P1.
    assert (V : t <> QEof -> ends 0 any s1 (qbind (val t) (fun v => qbind (q_vals F val n) (fun r => qret (v :: r))) s1)).
    { intro Ht. specialize (P1 Ht). eapply ends_bind; [apply Hv; [exact A1 | lia] | | auto]. intros s2 v _ A2 _ L2.
      eapply ends_bind; [apply IH; [exact A2 | lia | lia] | | auto]. intros s3 r _ A3 _ _. apply ends_ret; [exact A3 | exact I]. }
    assert (V0 : t <> QEof -> ends 0 any s1 (q_vals F val n s1)) by (intro Ht; specialize (P1 Ht); apply IH; [exact A1 | lia | lia]).
    cbn [Nat.sub]. destruct t; try (apply V; discriminate); try (apply V0; discriminate); apply ends_ret; exact A1 || exact I.
  Qed.
  Lemma ends_val n : forall t s, at_ s -> (S (length (q_inp s)) < n)%nat -> ends 0 any s (q_val F n t s).
  Proof.
    induction n as [|n IH]; intros t s Ha Hn; [lia|]. cbn [q_val].
    destruct t; try (apply ends_ret; [exact Ha | exact I]); try (apply ends_err; exact Ha).
    eapply ends_bind; [apply (ends_vals (q_val F n) (length (q_inp s))); [| exact Ha | lia | lia] | | auto].
    - intros t s1 A1 L1. apply IH; [exact A1 | lia].
    - intros s1 l _ A1 _ _. apply ends_ret; [exact A1 | exact I].
  Qed.
  Definition good (o : out) : Prop := o_check o = None.
  Lemma good_insert k v o : good o -> good (o_insert k v o).
  Proof.
    unfold good, o_check, o_insert. destruct (o_active o) as [[t n]|] eqn:E; [|reflexivity].
    destruct (t_get t (o_map o)) as [[]|] eqn:Eg; try discriminate; rewrite ?E, ?Eg; try discriminate.
    intro H. cbn [o_active o_map]. rewrite get_insert, str_eqb_refl.
    assert (L : length (upd n (t_insert k v) l) = length l).
    { clear. revert n. induction l as [|x l IH]; intros [|n]; cbn; congruence. }
    rewrite L. exact H.
  Qed.
  Lemma good_array k o o' : start_array k o = Ok o' -> good o'.
  Proof.
    unfold start_array. destruct (t_get k _) as [[]|]; try discriminate. intro H. inversion H; subst. unfold good, o_check. cbn [o_active o_map].
    rewrite get_insert, str_eqb_refl, app_length. cbn [length]. destruct (Nat.ltb_spec (length l) (length l + 1)); [reflexivity | lia].
  Qed.
  Lemma array_results k o : (exists o', start_array k o = Ok o' /\ good o') \/ start_array k o = Panic PUnreachable.
  Proof.
    destruct (start_array k o) as [o'|e|p|] eqn:E; [left; exists o'; split; [reflexivity | eapply good_array; exact E]| | |];
      unfold start_array in E; destruct (t_get k _) as [[]|]; inversion E; auto.
  Qed.
  Lemma ends_key_value n scope key o s : at_ s -> good o -> (length (q_inp s) < n)%nat -> ends 0 good s (q_key_value F n scope key o s).
  Proof.
    intros Ha Ho Hn. unfold q_key_value. rewrite Ho. apply ends_tok; [exact Ha|]. intros s1 t _ A1 L1 P1. cbn [Nat.sub].
    destruct t; try (apply ends_err; exact A1). specialize (P1 ltac:(discriminate)). apply ends_tok; [exact A1|]. intros s2 t2 _ A2 L2 _. cbn [Nat.sub].
    eapply ends_bind; [apply ends_val; [exact A2 | lia] | | auto]. intros s3 v _ A3 _ _. apply ends_ret; [exact A3 | apply good_insert; exact Ho].
  Qed.
  Lemma ends_close s : at_ s -> ends 0 any s (q_close F s).
  Proof.
    intro Ha. unfold q_close. apply ends_tok; [exact Ha|]. intros s1 t _ A1 L1 _. cbn [Nat.sub]. destruct t; try (apply ends_err; exact A1). apply ends_ret; [exact A1 | exact I].
  Qed.
  Definition line_good (r : option (str * out)) : Prop := match r with Some (_, o) => good o | None => True end.
  Lemma qbind_next {A} (f : ttok -> qm A) s : qbind (q_next F) f s =
    match q_next F s with (s', Ok a) => f a s' | (s', Err e) => (s', Err e) | (s', Panic p) => (s', Panic p) | (s', NoFuel) => (s', NoFuel) end.
  Proof. reflexivity. Qed.
  (** A line ends; unless it is the last one, it is not empty. *)
  Lemma ends_line n scope o s : at_ s -> good o -> (length (q_inp s) <= n)%nat -> ends 0 line_good s (q_line_ F show n scope o s) /\
    forall s' r, q_line_ F show n scope o s = (s', Ok (Some r)) -> (length (q_inp s') < length (q_inp s))%nat.
  Proof.
    intros Ha Ho Hn. unfold q_line_.
    destruct (ends_next s Ha) as [(A1 & A2 & A3) P]. rewrite qbind_next.
    destruct (q_next F s) as [s1 [t|e|p|]] eqn:E; cbn [fst snd] in *; try (split; [split; [exact A1 | split; [exact A2 | exact A3]] | discriminate]).
    specialize (P s1 t eq_refl).
    assert (G : forall m : qm (option (str * out)), (t <> QEof -> ends 0 line_good s1 (m s1)) -> t <> QEof ->
      ends 0 line_good s (m s1) /\ forall s' r, m s1 = (s', Ok (Some r)) -> (length (q_inp s') < length (q_inp s))%nat).
    { intros m Hm Ht. specialize (Hm Ht). split; [eapply ends_weak; [| | |exact Hm]; [lia | lia | auto]|].
      intros s' r Em. rewrite Em in Hm. destruct Hm as (_ & L & _). cbn [fst] in L. specialize (P Ht). lia. }
    assert (KV : forall k, ends 0 line_good s1 (qbind (q_key_value F n scope k o) (fun o' => qret (Some (scope, o'))) s1) \/ t = QEof).
    { intro k. destruct t; auto; left; (eapply ends_bind; [apply ends_key_value; [exact A1 | exact Ho | specialize (P ltac:(discriminate)); lia] | | auto]; intros s2 o' _ A4 Ho' _; apply ends_ret; [exact A4 | exact Ho']). }
    destruct t.
    all: try (match goal with |- ends _ _ _ (qbind (q_key_value _ _ _ ?k _) _ _) /\ _ => apply (G (qbind (q_key_value F n scope k o) (fun o' => qret (Some (scope, o'))))); [|discriminate]; intros _; destruct (KV k) as [X|X]; [exact X | discriminate] end).
    all: try (apply G; [|discriminate]; intros _; apply ends_err; exact A1).
    2: { split; [eapply ends_weak; [| | |apply (ends_ret line_good s1 None A1 I)]; [lia | exact A2 | auto]|]. intros s' r X. inversion X. }
    apply G; [|discriminate]. intros _. apply ends_tok; [exact A1|]. intros s2 t2 E2 A4 L2 _. cbn [Nat.sub].
    assert (TB : forall key, ends 0 line_good s2 (qbind (q_close F) (fun _ => qret (Some (key, o))) s2)).
    { intro key. eapply ends_bind; [apply ends_close; exact A4 | | auto]. intros s3 u _ A5 _ _. apply ends_ret; [exact A5 | exact Ho]. }
    destruct t2; try (apply ends_err; exact A4); try apply TB.
    assert (O2 : open_twice).
    { destruct (next_open _ _ E) as (g1 & _ & X1). destruct (next_open _ _ E2) as (g2 & Hg2 & X2). destruct Ha as (p & Et & _).
      exists (p ++ g1), g2, (q_inp s2). split; [|exact Hg2]. rewrite Et, X1, X2, <- app_assoc. reflexivity. }
    apply ends_tok; [exact A4|]. intros s3 t3 E3 A5 L3 _. cbn [Nat.sub].
    assert (AR : forall key, ends 0 line_good s3 (qbind (q_close F) (fun _ => qbind (q_close F) (fun _ =>
          match start_array key o with
          | Ok o' => qret (Some ([], o'))
          | Err e => qfail (Err e)
          | Panic p => qfail (Panic p)
          | NoFuel => qfail NoFuel
          end)) s3)).
    { intro key. eapply ends_bind; [apply ends_close; exact A5 | | auto]. intros s4 u _ A6 _ _. eapply ends_bind; [apply ends_close; exact A6 | | auto]. intros s5 u' _ A7 _ _.
      destruct (array_results key o) as [(o' & -> & Ho')| ->]; [apply ends_ret; [exact A7 | exact Ho']|].
      split; [exact A7|]. cbn. split; [lia|]. split; [reflexivity | exact O2]. }
    destruct t3; try (apply ends_err; exact A5); apply AR.
  Qed.
  Lemma ends_lines n : forall scope o s, at_ s -> good o -> (length (q_inp s) < n)%nat -> ends 0 any s (q_lines F show n scope o s).
  Proof.
    induction n as [|n IH]; intros scope o s Ha Ho Hn; [lia|]. cbn [q_lines]. destruct (ends_line n scope o s Ha Ho ltac:(lia)) as [E P].
    eapply ends_bind; [exact E | | auto]. intros s1 r Er A1 G1 L1. destruct r as [[scope' o']|]; [|apply ends_ret; [exact A1 | exact I]].
    specialize (P s1 _ Er). cbn [Nat.sub]. apply IH; [exact A1 | exact G1 | lia].
  Qed.
End Ends.

(** More fuel does not change a result. *)
Section Fuel.
  Variable F : flt. Variable show : N -> str.
  Definition qle {A} (m1 m2 : qm A) : Prop := forall s, snd (m1 s) = NoFuel \/ m1 s = m2 s.
  Lemma qle_refl {A} (m : qm A) : qle m m.
  Proof. intro s. auto. Qed.
  Lemma qle_bind {A B} (m1 m2 : qm A) (f1 f2 : A -> qm B) : qle m1 m2 -> (forall a, qle (f1 a) (f2 a)) -> qle (qbind m1 f1) (qbind m2 f2).
  Proof.
    intros Hm Hf s. unfold qbind. destruct (Hm s) as [E|E].
    - destruct (m1 s) as [s' [a|e|p|]]; try discriminate. auto.
    - rewrite <- E. destruct (m1 s) as [s' [a|e|p|]]; auto. apply Hf.
  Qed.
  Lemma qle_vals v1 v2 n : (forall t, qle (v1 t) (v2 t)) -> forall m, (n <= m)%nat -> qle (q_vals F v1 n) (q_vals F v2 m).
  Proof.
    intro Hv. induction n as [|n IH]; intros m Hm; [intro s; auto|]. destruct m as [|m]; [lia|]. cbn [q_vals].
    apply qle_bind; [apply qle_refl|]. intro t. specialize (IH m ltac:(lia)).
    destruct t; try apply qle_refl; try exact IH; (apply qle_bind; [apply Hv|]; intro v; apply qle_bind; [exact IH | intro; apply qle_refl]).
  Qed.
  Lemma qle_val n : forall m t, (n <= m)%nat -> qle (q_val F n t) (q_val F m t).
  Proof.
    induction n as [|n IH]; intros m t Hm; [intro s; auto|]. destruct m as [|m]; [lia|]. cbn [q_val]. destruct t; try apply qle_refl.
    apply qle_bind; [apply qle_vals; [intro t; apply IH; lia | lia] | intro; apply qle_refl].
  Qed.
  Lemma qle_key_value n m scope k o : (n <= m)%nat -> qle (q_key_value F n scope k o) (q_key_value F m scope k o).
  Proof.
    intro H. unfold q_key_value. destruct (o_check o); [apply qle_refl|]. apply qle_bind; [apply qle_refl|]. intro t. destruct t; try apply qle_refl.
    apply qle_bind; [apply qle_refl|]. intro t. apply qle_bind; [apply qle_val; exact H | intro; apply qle_refl].
  Qed.
  Lemma qle_line n m scope o : (n <= m)%nat -> qle (q_line_ F show n scope o) (q_line_ F show m scope o).
  Proof.
    intro H. unfold q_line_. apply qle_bind; [apply qle_refl|]. intro t.
    destruct t; try apply qle_refl; (apply qle_bind; [apply qle_key_value; exact H | intro; apply qle_refl]).
  Qed.
  Lemma qle_lines n : forall m scope o, (n <= m)%nat -> qle (q_lines F show n scope o) (q_lines F show m scope o).
  Proof.
    induction n as [|n IH]; intros m scope o Hm; [intro s; auto|]. destruct m as [|m]; [lia|]. cbn [q_lines].
    apply qle_bind; [apply qle_line; lia|]. intros [[scope' o']|]; [apply IH; lia | apply qle_refl].
  Qed.
End Fuel.

(** [TomlParser::parse], T:258-272: with as much fuel as is needed (see [parse_enough]). *)
Definition toml_parse (F : flt) (show : N -> str) (text : str) : res qerr tmap := parse_toml F show (S (length text)) text.
Lemma at_start text : at_ text (q_start text).
Proof.
  exists []. split; [reflexivity|]. pose proof (lines_split [0] text) as L. rewrite newlines_app in L.
  change (newlines (firstn 1 ([0] ++ text))) with 0 in L. change (newlines [0]) with 0 in L. rewrite N.add_0_r, N.add_0_l in L. exact L.
Qed.
Lemma parse_ends F show text : ends text 0 any (q_start text) (q_lines F show (S (length text)) [] {| o_map := []; o_active := None |} (q_start text)).
Proof. apply ends_lines; [apply at_start | reflexivity | cbn [q_start q_inp]; lia]. Qed.
Lemma parse_enough F show text n : (length text < n)%nat -> parse_toml F show n text = toml_parse F show text.
Proof.
  intro H. unfold toml_parse, parse_toml. destruct (qle_lines F show (S (length text)) n [] {| o_map := []; o_active := None |} ltac:(lia) (q_start text)) as [E|E].
  - pose proof (parse_ends F show text) as (_ & _ & X). rewrite E in X. destruct X.
  - rewrite E. reflexivity.
Qed.
Lemma parse_doc F show es text : tdoc F es text -> toml_parse F show text = run es [] {| o_map := []; o_active := None |}.
Proof.
  intro H. destruct (doc_run F show es text H [] {| o_map := []; o_active := None |}) as [N HN].
  rewrite <- (parse_enough F show text (S (length text) + N)) by lia. unfold parse_toml. apply HN. lia.
Qed.
