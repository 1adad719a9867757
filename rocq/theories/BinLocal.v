(** Facts about decoding arbitrary bytes: locality, validity of the results,
    causes of panics, fuel. *)
From Verif Require Import Base Utf8 Types BinModel BinRead.
Local Open Scope N_scope.
Ltac Zify.zify_post_hook ::= Z.div_mod_to_equations.

(** ** Slices *)
Lemma skipn_skipn {A} (a b : nat) (l : list A) : skipn b (skipn a l) = skipn (b + a) l.
Proof.
  revert l; induction a as [|a IH]; intro l.
  - rewrite Nat.add_0_r. reflexivity.
  - rewrite Nat.add_succ_r. destruct l as [|x l]; [rewrite !skipn_nil; reflexivity|]. simpl. apply IH.
Qed.

Lemma slice_app {A} (d : list A) o1 o2 o3 :
  o1 <= o2 -> o2 <= o3 -> o3 <= lenN d ->
  slice o1 (o2 - o1) d ++ slice o2 (o3 - o2) d = slice o1 (o3 - o1) d.
Proof.
  intros H1 H2 H3. unfold slice, lenN in *.
  set (a := N.to_nat o1). set (b := N.to_nat (o2 - o1)). set (e := N.to_nat (o3 - o2)).
  replace (N.to_nat (o3 - o1)) with (b + e)%nat by lia.
  replace (N.to_nat o2) with (b + a)%nat by lia.
  rewrite <- skipn_skipn.
  generalize (skipn a d). intro l. clear.
  revert l; induction b as [|b IH]; intros l; [reflexivity|].
  destruct l as [|x l]; [rewrite skipn_nil, !firstn_nil; reflexivity|]. simpl. rewrite IH. reflexivity.
Qed.
Lemma slice_zero {A} (d : list A) o : slice o 0 d = [].
Proof. reflexivity. Qed.
Lemma bytes_ok_slice d o n : bytes_ok d -> bytes_ok (slice o n d).
Proof.
  intro H. unfold slice, bytes_ok in *. rewrite Forall_forall in *.
  intros x Hx. apply H.
  assert (In x (skipn (N.to_nat o) d)).
  { rewrite <- (firstn_skipn (N.to_nat n) (skipn (N.to_nat o) d)). apply in_app_iff. left; assumption. }
  rewrite <- (firstn_skipn (N.to_nat o) d). apply in_app_iff. right; assumption.
Qed.

(** ** Locality: a successful read is determined by the bytes it consumed. *)
Section Loc.
  Variable c : cfg.
  Hypothesis Hc : cfg_ok c.

  Definition Local {A} (m : list N -> bm A) : Prop :=
    forall d o o' a, slice_fits c (lenN d) -> o <= lenN d -> m d o = (o', Ok a) ->
      o <= o' /\ o' <= lenN d /\ Reads c m (slice o (o' - o) d) a.

  Lemma Local_ret {A} (a : A) : Local (fun _ => bret a).
  Proof.
    intros d o o' a' Hf Ho H. unfold bret in H. inversion H; subst.
    rewrite N.sub_diag. split; [lia|]. split; [assumption|]. apply Reads_ret.
  Qed.
  Lemma Local_fail {A} (r : res berr A) : (forall a, r <> Ok a) -> Local (fun _ => bfail r).
  Proof. intros Hr d o o' a Hf Ho H. unfold bfail in H. inversion H; subst. exfalso. eapply Hr; eauto. Qed.

  Lemma Local_bind {A B} (m : list N -> bm A) (f : list N -> A -> bm B) :
    Local m -> (forall a, Local (fun d => f d a)) -> Local (fun d => bbind (m d) (f d)).
  Proof.
    intros Hm Hk d o o' b Hf Ho H. unfold bbind in H.
    destruct (m d o) as [o1 [a|e|p|]] eqn:E; try discriminate.
    destruct (Hm _ _ _ _ Hf Ho E) as (L1 & L2 & R1).
    destruct (Hk a _ _ _ _ Hf L2 H) as (L3 & L4 & R2).
    split; [lia|]. split; [assumption|].
    rewrite <- (slice_app d o o1 o') by assumption.
    apply (Reads_bind c m f _ _ a b); assumption.
  Qed.

  Lemma Local_map {A B} (g : A -> B) (m : list N -> bm A) : Local m -> Local (fun d => bmap g (m d)).
  Proof. intro H. apply (Local_bind m (fun _ a => bret (g a))); [assumption|]. intro; apply Local_ret. Qed.

  Lemma Local_ext {A} (m1 m2 : list N -> bm A) : (forall d o, m2 d o = m1 d o) -> Local m1 -> Local m2.
  Proof.
    intros E H d o o' a Hf Ho Hr. rewrite E in Hr. destruct (H _ _ _ _ Hf Ho Hr) as (L1 & L2 & R).
    split; [assumption|]. split; [assumption|]. eapply Reads_ext_r; eauto.
  Qed.

  Lemma Local_fixed w : w <= 16 -> Local (fun d => rd_fixed c d w).
  Proof.
    intros Hw d o o' a Hf Ho H. assert (Hu := slice_fits_usize c _ Hc Hf).
    unfold rd_fixed in H. rewrite usize_add_ok in H by lia.
    destruct (N.ltb_spec (lenN d) (o + w)); [discriminate|].
    destruct (N.ltb_spec (o + w) o); [discriminate|].
    inversion H; subst o' a. split; [lia|]. split; [assumption|].
    replace (o + w - o) with w by lia. apply Reads_fixed; [assumption..|]. apply slice_length. assumption.
  Qed.

  Lemma Reads_usize8 bs : lenN bs = 8 -> Reads c (fun d => rd_usize c d) bs (of_le bs mod usize_mod c).
  Proof.
    intros Hl. split.
    - intros pre post Hf. assert (Hf' := slice_fits_usize c _ Hc Hf).
      rewrite ?lenN_app in *. unfold rd_usize.
      rewrite usize_add_ok by lia. rewrite ?lenN_app.
      destruct (N.leb_spec (lenN pre) (lenN pre + 8)); [|lia].
      destruct (N.leb_spec (lenN pre + 8) (lenN pre + (lenN bs + lenN post))); [|lia].
      cbn [andb]. rewrite <- Hl at 2. rewrite slice_mid. rewrite Hl. reflexivity.
    - intros pre p q E Hq Hf. assert (Hf' := slice_fits_usize c _ Hc Hf). subst bs.
      rewrite ?lenN_app in *. unfold rd_usize.
      rewrite usize_add_ok by lia. rewrite ?lenN_app.
      assert (lenN q <> 0) by (intro; apply Hq; apply lenN_zero; assumption).
      destruct (N.leb_spec (lenN pre + 8) (lenN pre + lenN p)); [lia|].
      rewrite andb_false_r. eauto.
  Qed.

  Lemma Local_usize : Local (fun d => rd_usize c d).
  Proof.
    intros d o o' a Hf Ho H. assert (Hu := slice_fits_usize c _ Hc Hf).
    unfold rd_usize in H. rewrite usize_add_ok in H by lia.
    destruct (N.leb_spec o (o + 8)); [|lia].
    destruct (N.leb_spec (o + 8) (lenN d)); [|discriminate].
    cbn [andb] in H. inversion H; subst o' a. split; [lia|]. split; [assumption|].
    replace (o + 8 - o) with 8 by lia. apply Reads_usize8. apply slice_length. assumption.
  Qed.


  Lemma Local_bind_post {A B} (Q : A -> Prop) (m : list N -> bm A) (f : list N -> A -> bm B) :
    Local m -> (forall d o o' a, m d o = (o', Ok a) -> Q a) ->
    (forall a, Q a -> Local (fun d => f d a)) -> Local (fun d => bbind (m d) (f d)).
  Proof.
    intros Hm HQ Hk d o o' b Hf Ho H. unfold bbind in H.
    destruct (m d o) as [o1 [a|e|p|]] eqn:E; try discriminate.
    destruct (Hm _ _ _ _ Hf Ho E) as (L1 & L2 & R1).
    destruct (Hk a (HQ _ _ _ _ E) _ _ _ _ Hf L2 H) as (L3 & L4 & R2).
    split; [lia|]. split; [assumption|].
    rewrite <- (slice_app d o o1 o') by assumption.
    apply (Reads_bind c m f _ _ a b); assumption.
  Qed.

  Lemma usize_mod_pos : usize_mod c <> 0.
  Proof. unfold usize_mod. apply N.pow_nonzero. lia. Qed.

  Lemma rd_usize_bound d o o' a : rd_usize c d o = (o', Ok a) -> a < usize_mod c.
  Proof.
    unfold rd_usize. destruct (usize_add c o 8) as [e|e|p|]; try discriminate.
    destruct ((o <=? e) && (e <=? lenN d)); [|discriminate].
    intro H; inversion H. apply N.mod_lt. apply usize_mod_pos.
  Qed.

  (** usize addition of in-range operands either adds or wraps below both. *)
  Lemma usize_add_cases {E} a b r :
    a < usize_mod c -> b < usize_mod c -> @usize_add E c a b = Ok r ->
    r = a + b \/ (r < a /\ r = a + b - usize_mod c).
  Proof.
    intros Ha Hb. unfold usize_add. destruct (N.ltb_spec (a + b) (usize_mod c)).
    - intro H1; inversion H1; auto.
    - destruct (overflow_checks c); [discriminate|]. intro H1; inversion H1; subst r. right.
      assert (E1 : (a + b) mod usize_mod c = a + b - usize_mod c).
      { replace (a + b) with ((a + b - usize_mod c) + 1 * usize_mod c) at 1 by lia.
        rewrite N.mod_add by apply usize_mod_pos. apply N.mod_small. lia. }
      rewrite E1. lia.
  Qed.

  Lemma Local_str : Local (fun d => rd_str c d).
  Proof.
    unfold rd_str. apply (Local_bind_post (fun len => len < usize_mod c) (fun d => rd_usize c d) (fun d len o => _));
      [apply Local_usize|apply rd_usize_bound|].
    intros len Hlen d o o' s Hf Ho H. cbv beta in H.
    destruct (usize_add c o len) as [e|e|p|] eqn:Ea; try discriminate.
    destruct (N.ltb_spec (lenN d) e); [discriminate|].
    destruct (N.ltb_spec e o); [discriminate|].
    assert (Hu := slice_fits_usize c _ Hc Hf).
    apply usize_add_cases in Ea as [->|[? _]]; [|lia|lia|assumption].
    destruct (utf8_dec (slice o len d)) as [s'|] eqn:Eu; [|discriminate].
    inversion H; subst o' s'. split; [lia|]. split; [lia|].
    replace (o + len - o) with len by lia.
    assert (Hsl : lenN (slice o len d) = len) by (apply slice_length; lia).
    split.
    - intros pre post Hf2. assert (Hu2 := slice_fits_usize c _ Hc Hf2). rewrite ?lenN_app in *.
      rewrite usize_add_ok by lia.
      destruct (N.ltb_spec (lenN pre + (lenN (slice o len d) + lenN post)) (lenN pre + len)); [lia|].
      destruct (N.ltb_spec (lenN pre + len) (lenN pre)); [lia|].
      pose proof (slice_mid pre (slice o len d) post) as Hm. rewrite Hsl in Hm.
      rewrite Hm, Eu, Hsl. reflexivity.
    - intros pre p q E Hq Hf2. assert (Hu2 := slice_fits_usize c _ Hc Hf2).
      assert (lenN q <> 0) by (intro; apply Hq; apply lenN_zero; assumption).
      rewrite E in *. rewrite ?lenN_app in *. rewrite usize_add_ok by lia.
      destruct (N.ltb_spec (lenN pre + lenN p) (lenN pre + len)); [eauto|lia].
  Qed.

  Lemma Local_durnew s ns : Local (fun _ => duration_new s ns).
  Proof.
    unfold duration_new. destruct (ns <? 1000000000); [apply Local_ret|].
    destruct (s + ns / 1000000000 <? 2 ^ 64); [apply Local_ret|apply Local_fail; discriminate].
  Qed.
  Lemma Local_dur : Local (fun d => rd_dur c d).
  Proof.
    unfold rd_dur. apply (Local_bind (fun d => rd_fixed c d 8) (fun d bs => bbind _ (fun bn => let ns := of_le bn in _)));
      [apply Local_fixed; lia|]. intro bs.
    apply (Local_bind (fun d => rd_fixed c d 4) (fun d bn => let ns := of_le bn in _)); [apply Local_fixed; lia|].
    intro bn. cbv beta zeta. destruct (1000000000 <? of_le bn).
    - intros d o o' a _ _ H. discriminate.
    - apply Local_durnew.
  Qed.
  Lemma Local_time : Local (fun d => rd_time c d).
  Proof.
    unfold rd_time. apply (Local_bind (fun d => rd_fixed c d 1) (fun d b => _)); [apply Local_fixed; lia|].
    intro b. cbv beta. destruct (of_le b =? 1); [|apply Local_ret].
    apply (Local_bind (fun d => rd_dur c d) (fun d v => _)); [apply Local_dur|].
    intro v. cbv beta. destruct v; try (apply Local_fail; discriminate).
    destruct (secs <=? time_max c); [apply Local_ret|apply Local_fail; discriminate].
  Qed.

  Lemma Local_iter {A} (step : list N -> A -> bm A) k :
    (forall a, Local (fun d => step d a)) ->
    forall a, Local (fun d o => iter_nat_m (fun o a => step d a o) k o a).
  Proof.
    intro Hs. induction k as [|k IH]; intro a.
    - simpl. apply (Local_ret a).
    - eapply Local_ext; [|apply (Local_bind (fun d => step d a)
        (fun d a' o => iter_nat_m (fun o a => step d a o) k o a') (Hs a) IH)].
      intros d o. cbn [iter_nat_m]. unfold seq2, bbind.
      destruct (step d a o) as [o' [a'|e|p|]]; reflexivity.
  Qed.

  Lemma Local_capacity t len : Local (fun _ => with_capacity c t len).
  Proof. unfold with_capacity. destruct (len <=? alloc_max c t); [apply Local_ret|apply Local_fail; discriminate]. Qed.

  Section Helpers.
    Variable de : list N -> ty -> bm val.
    Hypothesis Hde : forall t, Local (fun d => de d t).

    Lemma Local_items k t len : Local (fun d => de_items (de d) k t len).
    Proof.
      unfold de_items.
      eapply Local_ext; [intros d o; rewrite iter_N_nat; reflexivity|].
      apply (Local_iter (fun d acc => bbind (de d t) (fun v => bret (seq_add k v acc)))).
      intro acc. apply (Local_map (fun v => seq_add k v acc)). apply Hde.
    Qed.
    Lemma Local_entries k tk tv len : Local (fun d => de_entries (de d) k tk tv len).
    Proof.
      unfold de_entries.
      eapply Local_ext; [intros d o; rewrite iter_N_nat; reflexivity|].
      apply (Local_iter (fun d acc => bbind (de d tk) (fun x => bbind (de d tv) (fun y => bret (map_add k x y acc))))).
      intro acc. apply (Local_bind (fun d => de d tk) (fun d x => _)); [apply Hde|].
      intro x. apply (Local_map (fun y => map_add k x y acc)). apply Hde.
    Qed.
    Lemma Local_rep n t : Local (fun d => de_rep (de d) n t).
    Proof.
      induction n as [|n IH]; simpl; [apply Local_ret|].
      apply (Local_bind (fun d => de d t) (fun d v => _)); [apply Hde|]. intro v.
      apply (Local_map (cons v)). assumption.
    Qed.
    Lemma Local_tys ts : Local (fun d => de_tys (de d) ts).
    Proof.
      induction ts as [|t ts IH]; simpl; [apply Local_ret|].
      apply (Local_bind (fun d => de d t) (fun d v => _)); [apply Hde|]. intro v.
      apply (Local_map (cons v)). assumption.
    Qed.
    Lemma Local_fields hs fs : Local (fun d => de_fields (de d) hs fs).
    Proof.
      induction fs as [|f fs IH]; simpl; [apply Local_ret|].
      apply (Local_bind (fun d => if hs && f_skip f then bret (f_tydefault f) else de d (f_ty f)) (fun d v => _)).
      - destruct (hs && f_skip f); [apply Local_ret|apply Hde].
      - intro v. apply (Local_map (cons v)). assumption.
    Qed.
  End Helpers.

  Theorem Local_de G n t : Local (fun d => de_bin c G d n t).
  Proof.
    revert t; induction n as [|n IH]; intro t.
    { intros d o o' a _ _ H. discriminate. }
    destruct t as [k| | | | | |t'|k t'|k tk tv|m t'|ts|t'| | |p t'|i]; cbn [de_bin].
    - destruct k; try (apply (Local_map (fun b => VZ (of_bits _ (of_le b)))); apply Local_fixed; simpl; lia).
      apply (Local_map (fun m => VZ (Z.of_N m))). apply Local_usize.
    - apply (Local_map (fun b => VF (of_le b))). apply Local_fixed; lia.
    - apply (Local_map (fun b => VF (of_le b))). apply Local_fixed; lia.
    - apply (Local_map (fun b => VBool (negb (of_le b =? 0)))). apply Local_fixed; lia.
    - apply (Local_map VStr). apply Local_str.
    - apply Local_ret.
    - apply (Local_bind (fun d => rd_fixed c d 1) (fun d b => _)); [apply Local_fixed; lia|].
      intro b. cbv beta. destruct (of_le b =? 1); [apply (Local_map VSome); apply IH|apply Local_ret].
    - apply (Local_bind (fun d => rd_usize c d) (fun d len => _)); [apply Local_usize|].
      intro len. apply (Local_bind (fun _ => match k with SVec | SHSet => with_capacity c t' len | _ => bret tt end)
        (fun d _ => bmap VSeq (de_items (de_bin c G d n) k t' len))).
      + destruct k; first [apply Local_capacity | apply Local_ret].
      + intros _. apply (Local_map VSeq). apply (Local_items (fun d => de_bin c G d n)). assumption.
    - apply (Local_bind (fun d => rd_usize c d) (fun d len => _)); [apply Local_usize|].
      intro len. apply (Local_bind (fun _ => match k with MHash => with_capacity c tk len | MBTree => bret tt end)
        (fun d _ => bmap VMap (de_entries (de_bin c G d n) k tk tv len))).
      + destruct k; first [apply Local_capacity | apply Local_ret].
      + intros _. apply (Local_map VMap). apply (Local_entries (fun d => de_bin c G d n)). assumption.
    - apply (Local_map VSeq). apply (Local_rep (fun d => de_bin c G d n)). assumption.
    - apply (Local_map VSeq). apply (Local_tys (fun d => de_bin c G d n)). assumption.
    - apply IH.
    - apply Local_dur.
    - apply Local_time.
    - apply (Local_map (p_from p)). apply IH.
    - destruct (nth_error G i) as [[dflt nul fs|tr fs|vs|p t']|]; [| | | |apply Local_fail; discriminate].
      + apply (Local_map VSeq). apply (Local_fields (fun d => de_bin c G d n)). assumption.
      + destruct (existsb f_skip fs); [apply Local_fail; discriminate|].
        apply (Local_map VSeq). apply (Local_fields (fun d => de_bin c G d n)). assumption.
      + apply (Local_bind (fun d => rd_fixed c d 2) (fun d b => let tag := of_le b in _)); [apply Local_fixed; lia|].
        intro b. cbv beta zeta. destruct (nth_error vs (N.to_nat (of_le b))) as [vr|]; [|apply Local_fail; discriminate].
        destruct (v_body vr) as [|ts|fs]; [apply Local_ret| |].
        * apply (Local_map (VEnum (of_le b))). apply (Local_tys (fun d => de_bin c G d n)). assumption.
        * apply (Local_map (VEnum (of_le b))). apply (Local_fields (fun d => de_bin c G d n)). assumption.
      + apply (Local_map (p_from p)). apply IH.
  Qed.
End Loc.
