(** What the tokenizer has seen of the text, and the position it reports. *)
From Verif Require Import Base Utf8 Types TyAll BinModel Text TextModel TextSim TextToks.
Local Open Scope N_scope.

(** ** The characters after the current one play no role *)
Section Trail.
  Variables r r' : str.
  (** Already past what the two texts have in common. *)
  Definition short (l : str) : Prop := (length l <= length r)%nat.
  (** Two inputs with the same current character, that differ only in the end. *)
  Definition T (l l2 : str) : Prop := exists x, x <> [] /\ l = x ++ r /\ l2 = x ++ r'.
  Definition TT (l l2 : str) : Prop := short l \/ T l l2.
  Definition LC {A} (p q : str * A) : Prop := short (fst p) \/ T (fst p) (fst q) /\ snd p = snd q.

  Lemma short_suffix a b : suffix a b -> short b -> short a.
  Proof. intros H S. apply suffix_len in H. unfold short in *. lia. Qed.
  Lemma T_cur l l2 : T l l2 -> cur l = cur l2.
  Proof. intros (x & Hx & -> & ->). destruct x; [congruence | reflexivity]. Qed.
  Lemma T_tl l l2 : T l l2 -> TT (tl l) (tl l2).
  Proof.
    intros (x & Hx & -> & ->). destruct x as [|a x]; [congruence|]. cbn [tl app]. destruct x as [|b x].
    - left. unfold short. cbn. lia.
    - right. exists (b :: x). repeat split; discriminate.
  Qed.
  Lemma T_drop p l l2 : T l l2 -> TT (drop_while p l) (drop_while p l2).
  Proof.
    intros (x & Hx & -> & ->). clear Hx. induction x as [|a x IH]; cbn [app].
    - left. unfold short. apply suffix_len, suffix_drop.
    - cbn [drop_while]. destruct (p a); [exact IH|]. right. exists (a :: x). repeat split; discriminate.
  Qed.
  Lemma T_take p l l2 : T l l2 -> short (drop_while p l) \/ take_while p l = take_while p l2.
  Proof.
    intros (x & Hx & -> & ->). clear Hx. induction x as [|a x IH]; cbn [app].
    - left. unfold short. apply suffix_len, suffix_drop.
    - cbn [drop_while take_while]. destruct (p a); [|right; reflexivity]. destruct IH as [IH | ->]; [left; exact IH | right; reflexivity].
  Qed.
  Lemma T_json last l l2 : T l l2 ->
    match json_comment last l with
    | Some a => short a \/ exists b, json_comment last l2 = Some b /\ T a b
    | None => short (drop_while (fun c => negb (c =? 0)) l) \/
        json_comment last l2 = None /\ T (drop_while (fun c => negb (c =? 0)) l) (drop_while (fun c => negb (c =? 0)) l2)
    end.
  Proof.
    intros (x & Hx & -> & ->). clear Hx. revert last. induction x as [|a x IH]; intro last; cbn [app].
    - destruct (json_comment last r) as [a|] eqn:Ej.
      + left. apply suffix_json_comment in Ej. apply (short_suffix _ _ Ej). unfold short. lia.
      + left. unfold short. apply suffix_len, suffix_drop.
    - cbn [json_comment drop_while]. destruct (a =? 0) eqn:E0; cbn [negb].
      + right. split; [reflexivity|]. exists (a :: x). repeat split; discriminate.
      + destruct ((last =? c_star) && (a =? c_slash)); [|apply IH].
        destruct x as [|b x]; [left; unfold short; cbn; lia|]. right. eexists. split; [reflexivity|]. exists (b :: x). repeat split; discriminate.
  Qed.
  Lemma T_ron st l l2 : T l l2 -> TT (ron_comment st l) (ron_comment st l2).
  Proof.
    intros (x & Hx & -> & ->). clear Hx. revert st. induction x as [|a x IH]; intro st; cbn [app].
    - left. apply (short_suffix _ r); [apply suffix_ron_comment | unfold short; lia].
    - cbn [ron_comment]. destruct (a =? 0); [right; exists (a :: x); repeat split; discriminate|].
      destruct ((a =? c_slash) && st); [|apply IH].
      destruct x as [|b x]; [left; unfold short; cbn; lia|]. right. exists (b :: x). repeat split; discriminate.
  Qed.
  Lemma LC_xdigits k : forall acc l l2, T l l2 -> LC (xdigits k acc l) (xdigits k acc l2).
  Proof.
    induction k as [|k IH]; intros acc l l2 H; cbn [xdigits]; [right; split; [exact H | reflexivity]|].
    rewrite <- (T_cur _ _ H). destruct (hexval (cur l)) as [d|]; [|right; split; [exact H | reflexivity]].
    destruct (T_tl _ _ H) as [S|H']; [left; eapply short_suffix; [apply suffix_xdigits | exact S] | apply IH; exact H'].
  Qed.
  Lemma LC_hex l l2 : T l l2 -> LC (hex_unescape l) (hex_unescape l2).
  Proof.
    intro H. unfold hex_unescape. pose proof (LC_xdigits 4 0 _ _ H) as H1. unfold LC in *. pose proof (suffix_xdigits 4 0 l) as S1.
    destruct (xdigits 4 0 l) as [l1 o1]. destruct (xdigits 4 0 l2) as [m1 p1]. cbn [fst snd] in *.
    destruct H1 as [S|[H1 <-]].
    { left. destruct o1 as [a|]; cbn [fst]; [|exact S]. destruct (_ || _); cbn [fst]; [exact S|]. destruct (_ && _); cbn [fst]; [|exact S].
      destruct (_ =? 117); [|cbn [fst]; eapply short_suffix; [apply suffix_tl | exact S]].
      pose proof (suffix_xdigits 4 0 (tl (tl l1))) as S2. destruct (xdigits 4 0 (tl (tl l1))) as [l3 o3]. cbn [fst] in S2.
      assert (short l3) by (eapply short_suffix; [|exact S]; eapply suffix_trans; [exact S2|]; apply suffix_tl_of, suffix_tl).
      destruct o3 as [b|]; [destruct (_ && _)|]; assumption. }
    destruct o1 as [a|]; [|right; split; [exact H1 | reflexivity]].
    destruct ((a <? 0xd800) || (0xdfff <? a)); [right; split; [exact H1 | reflexivity]|].
    rewrite <- (T_cur _ _ H1). destruct ((a <? 0xdc00) && (cur l1 =? c_bslash)); [|right; split; [exact H1 | reflexivity]].
    destruct (T_tl _ _ H1) as [S|H2].
    { left. destruct (_ =? 117); [|exact S].
      pose proof (suffix_xdigits 4 0 (tl (tl l1))) as S2. destruct (xdigits 4 0 (tl (tl l1))) as [l3 o3]. cbn [fst] in S2.
      assert (short l3) by (eapply short_suffix; [|exact S]; eapply suffix_trans; [exact S2|]; apply suffix_tl).
      destruct o3 as [b|]; [destruct (_ && _)|]; assumption. }
    rewrite <- (T_cur _ _ H2). destruct (cur (tl l1) =? 117); [|right; split; [exact H2 | reflexivity]].
    destruct (T_tl _ _ H2) as [S|H3].
    { left. pose proof (suffix_xdigits 4 0 (tl (tl l1))) as S2. destruct (xdigits 4 0 (tl (tl l1))) as [l3 o3]. cbn [fst] in S2.
      assert (short l3) by (eapply short_suffix; [exact S2 | exact S]).
      destruct o3 as [b|]; [destruct (_ && _)|]; assumption. }
    pose proof (LC_xdigits 4 0 _ _ H3) as H4. unfold LC in H4. destruct (xdigits 4 0 (tl (tl l1))) as [l3 o3]. destruct (xdigits 4 0 (tl (tl m1))) as [m3 p3].
    cbn [fst snd] in H4. destruct H4 as [S|[H4 <-]].
    - left. destruct o3 as [b|]; [destruct (_ && _)|]; exact S.
    - right. destruct o3 as [b|]; [destruct (_ && _)|]; (split; [exact H4 | reflexivity]).
  Qed.
  Lemma LC_str n : forall m l l2, (length l <= n)%nat -> (length l2 <= m)%nat -> T l l2 -> LC (scan_str n l) (scan_str m l2).
  Proof.
    induction n as [|n IH]; intros m l l2 Hn Hm H.
    { destruct H as (x & Hx & -> & ->). rewrite app_length in Hn. destruct x; [congruence | cbn in Hn; lia]. }
    pose proof H as H0. destruct H as (x & Hx & -> & ->). destruct x as [|a x]; [congruence|]. clear Hx. cbn [app] in *.
    destruct m as [|m]; [cbn in Hm; lia|]. cbn [length] in Hn, Hm. cbn [scan_str].
    pose proof (T_tl _ _ H0) as H1. cbn [tl] in H1.
    assert (REC : forall (g : str -> str) a1 b1, suffix a1 (x ++ r) -> suffix b1 (x ++ r') -> TT a1 b1 ->
       LC (match scan_str n a1 with (l3, Some s) => (l3, Some (g s)) | e => e end)
          (match scan_str m b1 with (l3, Some s) => (l3, Some (g s)) | e => e end)).
    { intros g a1 b1 Sa Sb [S|Ht].
      - left. pose proof (suffix_scan_str n a1) as S1. destruct (scan_str n a1) as [l3 [s|]]; cbn [fst] in *; eapply short_suffix; eauto.
      - apply suffix_len in Sa, Sb. specialize (IH m a1 b1 ltac:(lia) ltac:(lia) Ht). unfold LC in IH |- *.
        destruct (scan_str n a1) as [l3 o3]. destruct (scan_str m b1) as [m3 p3]. cbn [fst snd] in IH. destruct IH as [S|[Ht' <-]].
        + left. destruct o3; exact S.
        + right. destruct o3; (split; [exact Ht' | reflexivity]). }
    destruct (a =? c_quote); [destruct H1 as [S|H1]; [left; exact S | right; split; [exact H1 | reflexivity]]|].
    destruct (a =? c_bslash).
    { destruct H1 as [S|H1].
      - left. destruct (cur (x ++ r) =? 0); [exact S|]. destruct (cur (x ++ r) =? 117).
        + pose proof (suffix_hex (tl (x ++ r))) as Sx. destruct (hex_unescape (tl (x ++ r))) as [l3 o3]. cbn [fst] in Sx.
          assert (Sl : short l3) by (eapply short_suffix; [eapply suffix_trans; [exact Sx | apply suffix_tl] | exact S]).
          destruct o3 as [ch|]; [|exact Sl]. pose proof (suffix_scan_str n l3) as S1. destruct (scan_str n l3) as [l4 [s|]]; cbn [fst] in *; eapply short_suffix; eauto.
        + pose proof (suffix_scan_str n (tl (x ++ r))) as S1.
          assert (Sl : short (tl (x ++ r))) by (eapply short_suffix; [apply suffix_tl | exact S]).
          destruct (scan_str n (tl (x ++ r))) as [l4 [s|]]; cbn [fst] in *; eapply short_suffix; eauto.
      - rewrite <- (T_cur _ _ H1). destruct (cur (x ++ r) =? 0); [right; split; [exact H1 | reflexivity]|].
        destruct (cur (x ++ r) =? 117).
        + pose proof (suffix_hex (tl (x ++ r))) as Sx. pose proof (suffix_hex (tl (x ++ r'))) as Sx2.
          assert (HX : LC (hex_unescape (tl (x ++ r))) (hex_unescape (tl (x ++ r'))) ).
          { destruct (T_tl _ _ H1) as [S|H2]; [left; eapply short_suffix; [exact Sx | exact S] | apply LC_hex; exact H2]. }
          unfold LC in HX.
          destruct (hex_unescape (tl (x ++ r))) as [l3 o3]. destruct (hex_unescape (tl (x ++ r'))) as [m3 p3]. cbn [fst snd] in *.
          assert (Sl3 : suffix l3 (x ++ r)) by (eapply suffix_trans; [exact Sx | apply suffix_tl]).
          assert (Sm3 : suffix m3 (x ++ r')) by (eapply suffix_trans; [exact Sx2 | apply suffix_tl]).
          destruct HX as [S|[Ht <-]].
          * left. destruct o3 as [ch|]; [|exact S]. pose proof (suffix_scan_str n l3) as S1. destruct (scan_str n l3) as [l4 [s|]]; cbn [fst] in *; eapply short_suffix; eauto.
          * destruct o3 as [ch|]; [|right; split; [exact Ht | reflexivity]]. apply (REC (cons ch)); auto. right. exact Ht.
        + apply (REC (cons (unescape (cur (x ++ r))))); [apply suffix_tl | apply suffix_tl | apply T_tl; exact H1]. }
    destruct (a =? 0); [right; split; [exact H0 | reflexivity]|].
    apply (REC (cons a)); [apply suffix_refl | apply suffix_refl | exact H1].
  Qed.
  Lemma LC_num l l2 : T l l2 -> short (snd (fst (scan_num l))) \/
    T (snd (fst (scan_num l))) (snd (fst (scan_num l2))) /\ fst (fst (scan_num l)) = fst (fst (scan_num l2)) /\ snd (scan_num l) = snd (scan_num l2).
  Proof.
    intro H. unfold scan_num. rewrite <- (T_cur _ _ H).
    set (A := if (cur l =? c_minus) || (cur l =? c_plus) then ([cur l], tl l) else ([], l)).
    set (A2 := if (cur l =? c_minus) || (cur l =? c_plus) then ([cur l], tl l2) else ([], l2)).
    assert (HA : (short (snd A) \/ T (snd A) (snd A2)) /\ fst A = fst A2).
    { subst A A2. destruct (_ || _); cbn [fst snd]; split; auto. apply (T_tl _ _ H). }
    destruct A as [b0 l0], A2 as [b0' l0']. cbn [fst snd] in HA. destruct HA as [HA <-].
    set (l1 := drop_while is_digit l0). set (l1' := drop_while is_digit l0').
    assert (H1 : short l1 \/ T l1 l1' /\ take_while is_digit l0 = take_while is_digit l0').
    { destruct HA as [S|HA]; [left; eapply short_suffix; [apply suffix_drop | exact S]|].
      destruct (T_take is_digit _ _ HA) as [S|E]; [left; exact S|]. destruct (T_drop is_digit _ _ HA) as [S|H1]; [left; exact S | right; auto]. }
    set (B := if cur l1 =? c_dot then (c_dot :: take_while is_digit (tl l1), drop_while is_digit (tl l1), true) else ([], l1, false)).
    set (B2 := if cur l1' =? c_dot then (c_dot :: take_while is_digit (tl l1'), drop_while is_digit (tl l1'), true) else ([], l1', false)).
    assert (SB : suffix (snd (fst B)) l1) by (subst B; destruct (cur l1 =? c_dot); cbn [fst snd]; [apply suffix_drop_of, suffix_tl | apply suffix_refl]).
    assert (HB : short (snd (fst B)) \/ T (snd (fst B)) (snd (fst B2)) /\ fst (fst B) = fst (fst B2) /\ snd B = snd B2 /\ take_while is_digit l0 = take_while is_digit l0').
    { destruct H1 as [S|[H1 E1]]; [left; eapply short_suffix; [exact SB | exact S]|].
      subst B B2. rewrite <- (T_cur _ _ H1). destruct (cur l1 =? c_dot); cbn [fst snd]; [|right; auto].
      destruct (T_tl _ _ H1) as [S|H2]; [left; eapply short_suffix; [apply suffix_drop | exact S]|].
      destruct (T_take is_digit _ _ H2) as [S|E]; [left; exact S|]. destruct (T_drop is_digit _ _ H2) as [S|H3]; [left; exact S | right; rewrite E; auto]. }
    clear SB. destruct B as [[b2 l2b] f2], B2 as [[b2' l2b'] f2']. cbn [fst snd] in HB.
    set (C := if (cur l2b =? 101) || (cur l2b =? 69) then _ else _).
    set (C2 := if (cur l2b' =? 101) || (cur l2b' =? 69) then _ else _).
    assert (SC : suffix (snd (fst C)) l2b).
    { subst C. destruct ((cur l2b =? 101) || (cur l2b =? 69)); cbn [fst snd]; [|apply suffix_refl]. destruct (cur (tl l2b) =? c_minus); cbn [fst snd]; apply suffix_drop_of; [apply suffix_tl_of|]; apply suffix_tl. }
    assert (HC : short (snd (fst C)) \/ T (snd (fst C)) (snd (fst C2)) /\ fst (fst C) = fst (fst C2) /\ snd C = snd C2 /\ b2 = b2' /\ take_while is_digit l0 = take_while is_digit l0').
    { destruct HB as [S|(H2 & E1 & E2 & E3)]; [left; eapply short_suffix; [exact SC | exact S]|].
      subst C C2 f2' b2'. rewrite <- (T_cur _ _ H2). destruct (_ || _); cbn [fst snd]; [|right; auto].
      destruct (T_tl _ _ H2) as [S|H3].
      { left. destruct (cur (tl l2b) =? c_minus); cbn [fst snd]; eapply short_suffix; try exact S; [apply suffix_drop_of, suffix_tl | apply suffix_drop]. }
      rewrite <- (T_cur _ _ H3).
      assert (K : forall a a', TT a a' -> short (drop_while is_digit a) \/ T (drop_while is_digit a) (drop_while is_digit a') /\ take_while is_digit a = take_while is_digit a').
      { intros a a' [S|Ha]; [left; eapply short_suffix; [apply suffix_drop | exact S]|].
        destruct (T_take is_digit _ _ Ha) as [S|E]; [left; exact S|]. destruct (T_drop is_digit _ _ Ha) as [S|H4]; [left; exact S | right; auto]. }
      destruct (cur (tl l2b) =? c_minus); cbn [fst snd].
      - destruct (K _ _ (T_tl _ _ H3)) as [S|[H5 ->]]; [left; exact S | right; auto].
      - destruct (K _ _ (or_intror H3)) as [S|[H5 ->]]; [left; exact S | right; auto]. }
    clear SC HB. destruct C as [[b3 l3] f3], C2 as [[b3' l3'] f3']. cbn [fst snd] in *.
    destruct HC as [S|(H3 & -> & -> & -> & ->)]; [left; exact S | right; auto].
  Qed.

  Lemma scan_suffix F fm n k l : (length l < n)%nat -> suffix (fst (scan F fm n k l)) l.
  Proof. intro H. destruct (scan_spec F fm (length l) l n n k k) as (_ & _ & _ & S & _); try lia. exact S. Qed.
  Theorem LC_scan F fm : forall N n m k l l2, (length l <= N)%nat -> (length l < n)%nat -> (length l2 < m)%nat -> T l l2 ->
    LC (scan F fm n k l) (scan F fm m k l2).
  Proof.
    induction N as [N IH] using (well_founded_induction lt_wf). intros n m k l l2 HN Hn Hm H.
    destruct n as [|n]; [lia|]. destruct m as [|m]; [lia|].
    pose proof (suffix_drop is_ws l) as Hs. pose proof (suffix_drop is_ws l2) as Hs2.
    pose proof (T_drop is_ws _ _ H) as H0.
    destruct H0 as [S|H0].
    { left. pose proof (suffix_len _ _ Hs) as Hl.
      assert (E : scan F fm (Datatypes.S n) k l = scan F fm (Datatypes.S n) k (drop_while is_ws l)).
      { cbn [scan]. replace (drop_while is_ws (drop_while is_ws l)) with (drop_while is_ws l); [reflexivity|].
        clear. induction l as [|a l IHl]; [reflexivity|]. cbn [drop_while]. destruct (is_ws a) eqn:E; [exact IHl|]. cbn [drop_while]. rewrite E. reflexivity. }
      rewrite E. eapply short_suffix; [apply scan_suffix; lia | exact S]. }
    cbn [scan]. set (a := drop_while is_ws l) in *. set (b := drop_while is_ws l2) in *.
    apply suffix_len in Hs, Hs2. rewrite <- (T_cur _ _ H0).
    destruct (cur a =? 0) eqn:E0; [right; split; [exact H0 | reflexivity]|].
    apply N.eqb_neq in E0. pose proof (cur_nz_tl _ E0) as Ea.
    assert (Htl : (length (tl a) < length a)%nat) by (rewrite Ea at 2; simpl; lia).
    assert (E0' : cur b <> 0) by (rewrite <- (T_cur _ _ H0); exact E0). pose proof (cur_nz_tl _ E0') as Eb.
    assert (Htl' : (length (tl b) < length b)%nat) by (rewrite Eb at 2; simpl; lia).
    pose proof (T_tl _ _ H0) as H1.
    assert (REC : forall k1 x y, suffix x (tl a) -> suffix y (tl b) -> TT x y -> LC (scan F fm n k1 x) (scan F fm m k1 y)).
    { intros k1 x y Sx Sy Hxy. apply suffix_len in Sx, Sy. destruct Hxy as [S|Hxy].
      - left. eapply short_suffix; [apply scan_suffix; lia | exact S].
      - apply (IH (length x)); try lia. exact Hxy. }
    destruct (cur a =? c_slash).
    { destruct H1 as [S|H1].
      { left. destruct (cur (tl a) =? c_slash).
        { assert (Sd := suffix_drop (fun c => negb (c =? c_nl) && negb (c =? 0)) (tl a)). pose proof (suffix_len _ _ Sd).
          eapply short_suffix; [|exact S]. eapply suffix_trans; [apply scan_suffix; lia | exact Sd]. }
        destruct (cur (tl a) =? c_star).
        { destruct fm eqn:Ef.
          - destruct (json_comment c_star (tl (tl a))) as [x|] eqn:Ej.
            + apply suffix_json_comment in Ej. assert (Sd : suffix x (tl a)) by (eapply suffix_trans; [exact Ej | apply suffix_tl]).
              pose proof (suffix_len _ _ Sd). eapply short_suffix; [|exact S]. eapply suffix_trans; [apply scan_suffix; lia | exact Sd].
            + cbn [fst]. eapply short_suffix; [apply suffix_drop | exact S].
          - assert (Sd := suffix_ron_comment false (tl a)). pose proof (suffix_len _ _ Sd).
            eapply short_suffix; [|exact S]. eapply suffix_trans; [apply scan_suffix; lia | exact Sd]. }
        destruct fm; exact S. }
      rewrite <- (T_cur _ _ H1). destruct (cur (tl a) =? c_slash).
      { apply REC; [apply suffix_drop | apply suffix_drop | apply T_drop; exact H1]. }
      destruct (cur (tl a) =? c_star) eqn:Est.
      { assert (Ed : forall z, cur z = c_star -> drop_while (fun c => negb (c =? 0)) z = drop_while (fun c => negb (c =? 0)) (tl z)).
        { intros [|u z] Hz; cbn in Hz; [discriminate|]. subst u. reflexivity. }
        apply N.eqb_eq in Est. assert (Est' : cur (tl b) = c_star) by (rewrite <- (T_cur _ _ H1); exact Est).
        destruct fm eqn:Ef.
        - rewrite (Ed (tl a) Est), (Ed (tl b) Est'). destruct (T_tl _ _ H1) as [S|H2].
          + left. destruct (json_comment c_star (tl (tl a))) as [x|] eqn:Ej.
            * apply suffix_json_comment in Ej. pose proof (suffix_len _ _ Ej). pose proof (suffix_len _ _ (suffix_tl (tl a))).
              eapply short_suffix; [|exact S]. eapply suffix_trans; [apply scan_suffix; lia | exact Ej].
            * cbn [fst]. eapply short_suffix; [apply suffix_drop | exact S].
          + pose proof (T_json c_star _ _ H2) as HJ. destruct (json_comment c_star (tl (tl a))) as [x|] eqn:Ej.
            * apply suffix_json_comment in Ej. assert (Sx : suffix x (tl a)) by (eapply suffix_trans; [exact Ej | apply suffix_tl]).
              destruct HJ as [S|(y & Ey & HJ)].
              -- left. apply suffix_len in Sx. eapply short_suffix; [apply scan_suffix; lia | exact S].
              -- rewrite Ey. apply suffix_json_comment in Ey.
                 apply REC; [exact Sx | eapply suffix_trans; [exact Ey | apply suffix_tl] | right; exact HJ].
            * destruct HJ as [S|[Ey HJ]]; [left; exact S|]. rewrite Ey. right. split; [exact HJ | reflexivity].
        - apply REC; [apply suffix_ron_comment | apply suffix_ron_comment | apply T_ron; exact H1]. }
      right. split; [exact H1 | destruct fm; reflexivity]. }
    destruct (punct fm (cur a)) as [t|].
    { destruct H1 as [S|H1]; [left; exact S | right; split; [exact H1 | reflexivity]]. }
    destruct (num_start fm (cur a)).
    { pose proof (LC_num _ _ H0) as HN1. destruct (scan_num a) as [[buf x] fl]. destruct (scan_num b) as [[buf' y] fl']. cbn [fst snd] in HN1.
      destruct HN1 as [S|(H2 & <- & <-)]; [left; exact S | right; split; [exact H2 | reflexivity]]. }
    destruct (is_alpha (cur a)).
    { destruct (T_take (id_char fm) _ _ H0) as [S|E]; [left; exact S|]. destruct (T_drop (id_char fm) _ _ H0) as [S|H2]; [left; exact S|].
      right. split; [exact H2|]. cbn [snd]. rewrite E. reflexivity. }
    destruct (cur a =? c_quote).
    { assert (HS : LC (scan_str (length (tl a)) (tl a)) (scan_str (length (tl b)) (tl b))).
      { destruct H1 as [S|H1]; [left; eapply short_suffix; [apply suffix_scan_str | exact S] | apply LC_str; auto]. }
      unfold LC in HS. destruct (scan_str (length (tl a)) (tl a)) as [x o]. destruct (scan_str (length (tl b)) (tl b)) as [y o']. cbn [fst snd] in HS.
      destruct HS as [S|[H2 <-]]; [left; destruct o; exact S | right; destruct o; (split; [exact H2 | reflexivity])]. }
    destruct fm eqn:Ef; [right; split; [exact H0 | reflexivity]|].
    destruct (cur a =? c_apos); [|right; split; [exact H0 | reflexivity]].
    set (a1 := if cur (tl a) =? c_bslash then tl (tl a) else tl a).
    set (b1 := if cur (tl b) =? c_bslash then tl (tl b) else tl b).
    assert (Sa : suffix a1 (tl a)) by (subst a1; destruct (cur (tl a) =? c_bslash); [apply suffix_tl | apply suffix_refl]).
    assert (Sb : suffix b1 (tl b)) by (subst b1; destruct (cur (tl b) =? c_bslash); [apply suffix_tl | apply suffix_refl]).
    assert (SH : TT a1 b1).
    { destruct H1 as [S|H1]; [left; eapply short_suffix; eauto|]. subst a1 b1. rewrite <- (T_cur _ _ H1).
      destruct (_ =? c_bslash); [apply T_tl; exact H1 | right; exact H1]. }
    clearbody a1 b1.
    assert (SHORT : short (tl a1) -> LC (if cur (tl a1) =? c_apos then scan F Ron n (KChar (cur a1)) (tl (tl a1)) else (tl a1, LErr k (UnexpectedToken k (chars "char"))))
       (if cur (tl b1) =? c_apos then scan F Ron m (KChar (cur b1)) (tl (tl b1)) else (tl b1, LErr k (UnexpectedToken k (chars "char"))))).
    { intro S. left. destruct (_ =? c_apos); [|exact S]. pose proof (suffix_len _ _ Sa). pose proof (suffix_len _ _ (suffix_tl a1)). pose proof (suffix_len _ _ (suffix_tl (tl a1))).
      eapply short_suffix; [eapply suffix_trans; [apply scan_suffix; lia | apply suffix_tl] | exact S]. }
    destruct SH as [S|SH]; [apply SHORT; eapply short_suffix; [apply suffix_tl | exact S]|].
    destruct (T_tl _ _ SH) as [S|H3]; [apply SHORT; exact S|].
    rewrite <- (T_cur _ _ SH), <- (T_cur _ _ H3). destruct (cur (tl a1) =? c_apos).
    - apply REC; [eapply suffix_trans; [|exact Sa]; apply suffix_tl_of, suffix_tl | eapply suffix_trans; [|exact Sb]; apply suffix_tl_of, suffix_tl | apply T_tl; exact H3].
    - right. split; [exact H3 | reflexivity].
  Qed.
End Trail.

(** ** Positions *)
Section Pos.
  Variable F : flt.
  Variable c : cfg.
  Variable G : env.
  Variable fm : fmt.
  Notation L := (text_lexer F fm).

  (** The position after the characters [p]. *)
  Definition pos_of (p : str) : N * N := fold_left (pos_step fm) p (0, 0).

  Section Where.
    Variable text : str.
    (** The state is somewhere in the text, with the position that belongs there. *)
    Definition wp (s : dst) : Prop :=
      exists i, text = i ++ s_inp s /\ (s_line s, s_col s) = pos_of (i ++ firstn 1 (s_inp s)).
    Lemma move_wp s l' : wp s -> suffix l' (s_inp s) ->
      exists i, text = i ++ l' /\ pos_move fm (s_line s, s_col s) (s_inp s) l' = pos_of (i ++ firstn 1 l').
    Proof.
      intros (i & Ht & Hp) [j Hj]. exists (i ++ j). split; [rewrite Ht, Hj; apply app_assoc|].
      unfold pos_move. rewrite Hp. unfold pos_of. rewrite <- fold_left_app. f_equal. rewrite <- !app_assoc. f_equal.
      rewrite Hj. rewrite app_length. replace (length j + length l' - length l')%nat with (length j) by lia.
      destruct (j ++ l') as [|a l] eqn:E; [apply app_eq_nil in E; destruct E as [-> ->]; reflexivity|].
      cbn [firstn app tl]. change (a :: firstn (length j) l) with (firstn (S (length j)) (a :: l)). rewrite <- E.
      replace (S (length j)) with (length j + 1)%nat by lia. rewrite firstn_app_2. reflexivity.
    Qed.
    Lemma next_wp s : wp s ->
      wp (fst (lex_next F fm s)) /\
      match snd (lex_next F fm s) with
      | Err e => (e_line e, e_col e) = (s_line (fst (lex_next F fm s)), s_col (fst (lex_next F fm s)))
      | Ok _ => True | _ => False end.
    Proof.
      intro H. unfold lex_next. pose proof (scan_suffix F fm (S (length (s_inp s))) (s_tok s) (s_inp s) ltac:(lia)) as S.
      destruct (scan F fm (Datatypes.S (length (s_inp s))) (s_tok s) (s_inp s)) as [l' o]. cbn [fst] in S.
      destruct (move_wp s l' H S) as (i & Ht & Hp). destruct o as [t|k m]; cbn [fst snd].
      - split; [|exact I]. exists i. cbn [s_inp s_line s_col]. rewrite <- surjective_pairing. auto.
      - split; [|reflexivity]. exists i. cbn [s_inp s_line s_col]. rewrite <- surjective_pairing. auto.
    Qed.

    (** Whether the types are known to have no tuples. *)
    Variable strict : Prop.
    Definition nontuple (t : ty) : Prop := match t with TTup _ => False | _ => True end.
    Definition Epos (s : dst) (e1 e2 : terr) : Prop :=
      exists q m, text = q ++ m ++ tl (s_inp s) /\ (e_line e1, e_col e1) = pos_of q /\ (strict -> m = []).
    Definition okt (t : ty) : Prop := strict -> ty_all nontuple t.
    Definition Rpos (s1 s2 : dst) : Prop := s1 = s2 /\ wp s1.

    Lemma wp_tl s : wp s -> exists q, text = q ++ tl (s_inp s) /\ (s_line s, s_col s) = pos_of q.
    Proof.
      intros (i & Ht & Hp). exists (i ++ firstn 1 (s_inp s)). split; [|exact Hp]. rewrite Ht at 1. rewrite <- app_assoc. f_equal.
      destruct (s_inp s); reflexivity.
    Qed.
    Lemma wp_Epos s e e2 : wp s -> (e_line e, e_col e) = (s_line s, s_col s) -> Epos s e e2.
    Proof.
      intros H E. destruct (wp_tl s H) as (q & Ht & Hq). exists q, []. rewrite E. auto.
    Qed.
    Lemma next_tail s : exists m, tl (s_inp s) = m ++ tl (s_inp (fst (lex_next F fm s))).
    Proof.
      unfold lex_next. pose proof (scan_suffix F fm (S (length (s_inp s))) (s_tok s) (s_inp s) ltac:(lia)) as S.
      destruct (scan F fm (Datatypes.S (length (s_inp s))) (s_tok s) (s_inp s)) as [l' o]. cbn [fst] in S.
      assert (E : exists m, tl (s_inp s) = m ++ tl l').
      { destruct S as [j Hj]. rewrite Hj. destruct j as [|a j]; [exists []; reflexivity|]. cbn [app tl].
        exists (j ++ firstn 1 l'). rewrite <- app_assoc. f_equal. destruct l'; reflexivity. }
      destruct o; exact E.
    Qed.

    Hypothesis Hok : strict -> env_all nontuple G.
    Lemma env_ok : forall i d, nth_error G i = Some d -> decl_ok okt d.
    Proof.
      intros i d Hd. pose proof (fun st => env_all_nth _ _ _ _ (Hok st) Hd) as H.
      destruct d as [dflt nl fs|tr fs|vs|p t]; cbn in *.
      - apply Forall_forall. intros f Hf st. specialize (H st). rewrite Forall_forall in H. apply H. exact Hf.
      - apply Forall_forall. intros f Hf st. specialize (H st). rewrite Forall_forall in H. apply H. exact Hf.
      - apply Forall_forall. intros v Hv.
        assert (H' : strict -> match v_body v with BUnit => True | BTuple ts => Forall (ty_all nontuple) ts | BStruct fs => Forall (field_all nontuple) fs end)
          by (intro st; specialize (H st); rewrite Forall_forall in H; exact (H v Hv)).
        destruct (v_body v) as [|ts|fs]; cbn; [exact I| |].
        + apply Forall_forall. intros f Hf st. specialize (H' st). rewrite Forall_forall in H'. apply H'. exact Hf.
        + apply Forall_forall. intros f Hf st. specialize (H' st). rewrite Forall_forall in H'. apply H'. exact Hf.
      - exact H.
    Qed.
    Lemma ok_parts : forall t, okt t -> sub_ok okt t.
    Proof.
      intros t Ht. unfold okt in *. destruct t; cbn in *; auto; try (intro st; apply (Ht st)).
      - split; intro st; apply (Ht st).
      - apply Forall_forall. intros x Hx st. destruct (Ht st) as [[] _].
    Qed.
    Theorem run_pos n t s : okt t -> wp s ->
      rel Rpos lexbad (fun _ => False) (fun _ => False) Epos (de_text L F c G fm n t s) (de_text L F c G fm n t s).
    Proof.
      intros Ht H. apply (prel_at Rpos lexbad (fun _ => False) (fun _ => False) Epos); [|split; [reflexivity | exact H]].
      apply (prel_de L L Rpos F c G fm lexbad (fun _ => False) (fun _ => False) Epos okt); auto using text_next_ok, ok_parts.
      - intros s1 s2 [-> _]. reflexivity.
      - intros s1 s2 [-> _]. reflexivity.
      - intros s1 s2 [-> _]. reflexivity.
      - intros s1 s2 [<- W]. split; [reflexivity|]. destruct W as (i & W). exists i. exact W.
      - intros s1 s2 [<- W]. right. pose proof (next_wp s1 W) as [W1 E]. cbn [l_next text_lexer].
        destruct (lex_next F fm s1) as [s' [u|e|p|]]; cbn [fst snd] in *; try contradiction.
        + split; [reflexivity|]. split; [reflexivity | exact W1].
        + left. split; [apply wp_Epos; assumption|]. split; [reflexivity | exact W1].
      - intros s1 [].
      - intros k w s1 [].
      - intros s1 s2 m [<- W]. apply wp_Epos; [exact W | reflexivity].
      - exact env_ok.
      - intros ts Hts s1 e1 e2 (q & m & Ht1 & Hq & Hm). cbn [l_next text_lexer]. destruct (next_tail s1) as [m' Hm'].
        exists q, (m ++ m'). rewrite <- app_assoc, <- Hm'. split; [exact Ht1|]. split; [exact Hq|].
        intro st. destruct (Hts st) as [[] _].
    Qed.
  End Where.

  (** *** The same on a text that differs after what was seen *)
  Section Other.
    Variables r r' : str.
    Definition Rtr (s1 s2 : dst) : Prop :=
      T r r' (s_inp s1) (s_inp s2) /\ s_tok s1 = s_tok s2 /\ s_str s1 = s_str s2 /\ s_id s1 = s_id s2 /\ s_line s1 = s_line s2 /\ s_col s1 = s_col s2.
    Definition past (s : dst) : Prop := short r (s_inp s).
    Lemma past_next s : past s -> past (fst (lex_next F fm s)).
    Proof.
      unfold past. intro H. unfold lex_next. pose proof (scan_suffix F fm (S (length (s_inp s))) (s_tok s) (s_inp s) ltac:(lia)) as S.
      destruct (scan F fm (Datatypes.S (length (s_inp s))) (s_tok s) (s_inp s)) as [l' o]. cbn [fst] in S.
      destruct o; cbn [fst s_inp]; eapply short_suffix; eauto.
    Qed.
    Lemma move_same p l l2 a b : T r r' l l2 -> T r r' a b -> suffix a l -> pos_move fm p l a = pos_move fm p l2 b.
    Proof.
      intros (x & Hx & -> & ->) (y & Hy & -> & ->) [j Hj]. unfold pos_move. rewrite !app_length.
      assert (E : x = j ++ y) by (rewrite app_assoc in Hj; apply app_inv_tail in Hj; exact Hj). subst x.
      replace (length (j ++ y) + length r - (length y + length r))%nat with (length j) by (rewrite app_length; lia).
      replace (length (j ++ y) + length r' - (length y + length r'))%nat with (length j) by (rewrite app_length; lia).
      f_equal. destruct y as [|b y]; [congruence|]. rewrite <- !app_assoc. cbn [app].
      destruct j as [|a j]; [reflexivity|]. cbn [app tl length].
      assert (K : forall w, firstn (S (length j)) (j ++ b :: w) = j ++ [b]).
      { intro w. replace (S (length j)) with (length j + 1)%nat by lia. rewrite firstn_app_2. reflexivity. }
      rewrite !K. reflexivity.
    Qed.
    Lemma next_tr s1 s2 : Rtr s1 s2 ->
      rel Rtr lexbad (fun _ => False) past (fun _ e1 e2 => e1 = e2) (lex_next F fm s1) (lex_next F fm s2).
    Proof.
      intros (HT & E1 & E2 & E3 & E4 & E5). unfold lex_next. rewrite <- E1, <- E2, <- E3, <- E4, <- E5.
      pose proof (scan_suffix F fm (S (length (s_inp s1))) (s_tok s1) (s_inp s1) ltac:(lia)) as S.
      pose proof (LC_scan r r' F fm (length (s_inp s1)) (Datatypes.S (length (s_inp s1))) (Datatypes.S (length (s_inp s2))) (s_tok s1) (s_inp s1) (s_inp s2) ltac:(lia) ltac:(lia) ltac:(lia) HT) as HL.
      unfold LC in HL.
      destruct (scan F fm (Datatypes.S (length (s_inp s1))) (s_tok s1) (s_inp s1)) as [l' o].
      destruct (scan F fm (Datatypes.S (length (s_inp s2))) (s_tok s1) (s_inp s2)) as [l2' o2]. cbn [fst snd] in *.
      destruct HL as [Sh|[HT' <-]]; [left; destruct o; exact Sh|]. right.
      rewrite <- (move_same (s_line s1, s_col s1) _ _ _ _ HT HT' S).
      destruct o as [t|k m].
      - split; [reflexivity|]. repeat split; assumption.
      - left. split; [reflexivity|]. repeat split; assumption.
    Qed.
    Theorem run_tr n t s1 s2 : Rtr s1 s2 ->
      rel Rtr lexbad (fun _ => False) past (fun _ e1 e2 => e1 = e2) (de_first L F c G fm n t s1) (de_first L F c G fm n t s2).
    Proof.
      intro H. apply (prel_at Rtr lexbad (fun _ => False) past (fun _ e1 e2 => e1 = e2)); [|exact H].
      assert (PN : prel Rtr lexbad (fun _ => False) past (fun _ e1 e2 => e1 = e2) (l_next L) (l_next L)).
      { split; [exact past_next | exact next_tr]. }
      unfold de_first. apply (prel_bind Rtr); [exact PN|]. intros _.
      apply (prel_de L L Rtr F c G fm lexbad (fun _ => False) past (fun _ e1 e2 => e1 = e2) (fun _ => True)); auto using text_next_ok, past_next.
      - intros a b (_ & K & _). exact K.
      - intros a b (_ & _ & K & _). exact K.
      - intros a b (_ & _ & _ & K & _). exact K.
      - intros a b (K1 & K2 & K3 & K4 & K5 & K6). repeat split; assumption.
      - exact next_tr.
      - exact past_next.
      - intros k w s [].
      - intros a b m (_ & _ & _ & _ & K1 & K2). cbn [l_pos text_lexer]. rewrite K1, K2. reflexivity.
      - intros x _. destruct x; cbn; auto. apply Forall_forall. auto.
      - intros i d _. destruct d; cbn; auto; apply Forall_forall; auto. intros v _. destruct (v_body v); cbn; auto; apply Forall_forall; auto.
    Qed.
  End Other.

  Lemma start_wp text : wp text (start fm text).
  Proof.
    exists []. split; [reflexivity|]. cbn [start s_inp s_line s_col app]. rewrite <- surjective_pairing.
    unfold pos_move, pos_of. cbn [length tl]. replace (S (length text) - length text)%nat with 1%nat by lia. reflexivity.
  Qed.
  Lemma start_tr p r r' : p <> [] -> Rtr r r' (start fm (p ++ r)) (start fm (p ++ r')).
  Proof.
    intro Hp. assert (E : pos_move fm (0, 0) (0 :: p ++ r) (p ++ r) = pos_move fm (0, 0) (0 :: p ++ r') (p ++ r')).
    { unfold pos_move. cbn [length tl]. replace (S (length (p ++ r)) - length (p ++ r))%nat with 1%nat by lia.
      replace (S (length (p ++ r')) - length (p ++ r'))%nat with 1%nat by lia. destruct p; [congruence | reflexivity]. }
    repeat split; cbn [start s_line s_col]; try (rewrite E; reflexivity). exists p. auto.
  Qed.

  (** The final state of a run is in the text, and what follows its current
      character is irrelevant. *)
  Theorem run_text (strict : Prop) n t text s' o : (strict -> env_all nontuple G /\ ty_all nontuple t) ->
    de_first L F c G fm n t (start fm text) = (s', o) ->
    match o with
    | Ok _ => exists p, text = p ++ tl (s_inp s')
    | Err e => exists q m, text = q ++ m ++ tl (s_inp s') /\ (e_line e, e_col e) = pos_of q /\ (strict -> m = [])
    | _ => True
    end.
  Proof.
    intros Hst Hr. unfold de_first, pbind in Hr. pose proof (start_wp text) as W0.
    pose proof (next_wp text _ W0) as [W1 E1]. cbn [l_next text_lexer] in Hr.
    destruct (lex_next F fm (start fm text)) as [s1 [u|e|p|]]; cbn [fst snd] in *; try contradiction.
    - pose proof (run_pos text strict (fun st => proj1 (Hst st)) n t s1 (fun st => proj2 (Hst st)) W1) as R. rewrite Hr in R.
      destruct R as [[]|R]. destruct o as [v|e|p|]; auto.
      + destruct R as [_ [_ W]]. destruct (wp_tl text s' W) as (q & Hq & _). exists q. exact Hq.
      + destruct R as [[(q & m & HE) _]|[_ []]]. exists q, m. exact HE.
    - inversion Hr; subst s' o. destruct (wp_Epos text strict s1 e e W1 E1) as (q & m & HE). exists q, m. exact HE.
  Qed.
  Theorem run_other n t text s' o p r' : de_first L F c G fm n t (start fm text) = (s', o) ->
    text = p ++ tl (s_inp s') -> tl (s_inp s') <> [] -> (match o with Ok _ | Err _ => True | _ => False end) ->
    snd (de_first L F c G fm n t (start fm (p ++ r'))) = o.
  Proof.
    intros Hr Ht Hne Ho.
    assert (Hp : p <> []).
    { intros ->. cbn [app] in Ht. (* the current character is part of the text *)
      pose proof (run_text False n t text s' o ltac:(tauto) Hr) as _.
      pose proof (start_wp text) as W0.
      assert (Hlen : (length (s_inp s') <= length text)%nat).
      { unfold de_first, pbind in Hr. pose proof (next_wp text _ W0) as [W1 E1]. cbn [l_next text_lexer] in Hr.
        destruct (lex_next F fm (start fm text)) as [s1 [u|e|q|]]; cbn [fst snd] in *; try contradiction.
        - pose proof (run_pos text False ltac:(tauto) n t s1 ltac:(intros []) W1) as R. rewrite Hr in R.
          destruct R as [[]|R]. destruct o as [v|e|q|]; try contradiction.
          + destruct R as [_ [_ (i & Hi & _)]]. apply (f_equal (@length _)) in Hi. rewrite app_length in Hi. lia.
          + destruct R as [[_ [_ (i & Hi & _)]]|[_ []]]. apply (f_equal (@length _)) in Hi. rewrite app_length in Hi. lia.
        - inversion Hr; subst s' o. destruct W1 as (i & Hi & _). apply (f_equal (@length _)) in Hi. rewrite app_length in Hi. lia. }
      destruct (s_inp s') as [|a l]; [apply Hne; reflexivity|]. cbn [tl] in Ht. rewrite Ht in Hlen. cbn in Hlen. lia. }
    rewrite Ht in Hr. pose proof (run_tr (tl (s_inp s')) r' n t _ _ (start_tr p (tl (s_inp s')) r' Hp)) as R. rewrite Hr in R.
    destruct R as [S|R].
    - exfalso. unfold past, short in S. cbn [fst] in S. destruct (s_inp s') as [|a l]; [apply Hne; reflexivity|]. cbn in S. lia.
    - destruct (de_first L F c G fm n t (start fm (p ++ r'))) as [s2 [v|e|q|]]; destruct o as [v'|e'|q'|]; cbn [snd] in *; try contradiction.
      + destruct R as [-> _]. reflexivity.
      + destruct R as [[-> _]|[_ []]]. reflexivity.
  Qed.
End Pos.
