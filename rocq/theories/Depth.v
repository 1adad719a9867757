(** How deep the calls of the binary reader go: a bound on the fuel, which counts
    nested calls. *)
From Verif Require Import Base Types BinModel BinRead BinLocal TyAll BinFuel SpecDepth.
Local Open Scope N_scope.

Lemma deepest_in n l : In n l -> (n <= deepest l)%nat.
Proof. unfold deepest. induction l as [|m l IH]; cbn [In fold_right]; [easy|]. intros [->|H]; [lia|]. specialize (IH H). lia. Qed.

Section Depth.
  Variable c : cfg.
  Variable G : env.
  Variable d : list N.
  Hypothesis Hc : cfg_ok c.
  Hypothesis Hd : slice_fits c (lenN d).
  Variable rank : nat -> nat.
  Variables H R : nat.
  Hypothesis Hrank : forall i d j, nth_error G i = Some d -> In j (decl_unguarded d) -> (rank j < rank i)%nat.
  Hypothesis HR : forall i, (i < length G)%nat -> (rank i < R)%nat.
  Hypothesis HH : Forall (fun d => Forall (fun t => (height t <= H)%nat) (decl_types d)) G.
  (** Nested calls per byte. *)
  Definition per : nat := (S R * S (S H))%nat.

  Definition within (rem : N) (r : nat) (t : ty) : Prop :=
    Done d rem (de_bin c G d (N.to_nat rem * per + r * S (S H) + S (S (height t))) t).
  Definition lower (rem : N) : Prop := forall q t, q < rem -> (height t <= H)%nat -> Done d q (de_bin c G d (N.to_nat (q + 1) * per) t).

  Lemma Dm rem n m t : (n <= m)%nat -> Done d rem (de_bin c G d n t) -> Done d rem (de_bin c G d m t).
  Proof. apply Done_mono. Qed.

  Lemma lower_at rem q k t n : lower rem -> 0 < k -> k <= rem -> q = rem - k -> (height t <= H)%nat -> (N.to_nat rem * per <= n)%nat -> Done d q (de_bin c G d n t).
  Proof.
    intros HB Hk Hr -> Ht Hn. eapply Dm; [|apply HB; [lia|exact Ht]].
    assert ((N.to_nat (rem - k + 1) <= N.to_nat rem)%nat) by lia. eapply Nat.le_trans; [apply Nat.mul_le_mono_r; eassumption|exact Hn].
  Qed.
  Lemma step n x y : (n * per + x + S (S y) = S (n * per + x + S y))%nat. Proof. lia. Qed.

  Lemma depth_ty rem : lower rem ->
    forall r t, (height t <= H)%nat -> (forall j, In j (unguarded t) -> (j < length G -> rank j < r)%nat) -> within rem r t.
  Proof.
    intros HB. induction r as [r IHr] using lt_wf_ind. intro t.
    assert (Hf : forall i dd t', (rank i < r)%nat -> nth_error G i = Some dd -> In t' (decl_types dd) -> (forall j, In j (unguarded t') -> In j (decl_unguarded dd)) ->
       Done d rem (de_bin c G d (N.to_nat rem * per + r * S (S H) + 1) t')).
    { intros i dd t' Hi EG Hin Hu. assert (Ht : (height t' <= H)%nat).
      { rewrite Forall_forall in HH. pose proof (HH _ (nth_error_In _ _ EG)) as HQ. rewrite Forall_forall in HQ. auto. }
      eapply Dm; [|apply (IHr (rank i) Hi t' Ht)]; [|intros j Hj _; eapply Hrank; eauto].
      assert ((rank i * S (S H) + S (S H) <= r * S (S H))%nat) by (replace (rank i * S (S H) + S (S H))%nat with (S (rank i) * S (S H))%nat by lia; apply Nat.mul_le_mono_r; lia). lia. }
    unfold within.
    induction t as [k| | | | | |t' IHt|k t' IHt|k tk tv IHk IHv|m t' IHt|ts IHts|t' IHt| | |p t' IHt|i] using ty_ind2; intros Hh Hu; rewrite step; cbn [de_bin]; cbn [height] in Hh |- *.
    - destruct k; apply Done_map; first [apply Done_fixed | apply Done_usize].
    - apply Done_map, Done_fixed.
    - apply Done_map, Done_fixed.
    - apply Done_map, Done_fixed.
    - apply Done_map, Done_str; auto.
    - apply Done_ret.
    - apply (Done_guard d rem 1); [lia|apply Done_fixed|apply Fwd_fixed; auto; lia|].
      intros Hr b. destruct (of_le b =? 1); [apply Done_map|apply Done_ret]. eapply lower_at; eauto; lia.
    - apply (Done_guard d rem 8); [lia|apply Done_usize|apply Fwd_usize; auto|].
      intros Hr len.
      assert (HC : Done d (rem - 8) (match k with SVec | SHSet => with_capacity c t' len | _ => bret tt end)
                 /\ Fwd d 0 (match k with SVec | SHSet => with_capacity c t' len | _ => bret tt end)).
      { unfold with_capacity. destruct k; (destruct (len <=? alloc_max c t') || idtac);
          (split; [intros o _ _; discriminate|first [apply Fwd_ret|intros o o' a _ E; discriminate]]). }
      destruct HC as [HC1 HC2].
      apply (Done_bind d _ 0); [assumption|assumption|]. intros _. rewrite N.sub_0_r.
      apply Done_map. apply Done_items; auto. eapply lower_at; eauto; lia.
    - apply (Done_guard d rem 8); [lia|apply Done_usize|apply Fwd_usize; auto|].
      intros Hr len.
      assert (HC : Done d (rem - 8) (match k with MHash => with_capacity c tk len | MBTree => bret tt end)
                 /\ Fwd d 0 (match k with MHash => with_capacity c tk len | MBTree => bret tt end)).
      { unfold with_capacity. destruct k; (destruct (len <=? alloc_max c tk) || idtac);
          (split; [intros o _ _; discriminate|first [apply Fwd_ret|intros o o' a _ E; discriminate]]). }
      destruct HC as [HC1 HC2].
      apply (Done_bind d _ 0); [assumption|assumption|]. intros _. rewrite N.sub_0_r.
      apply Done_map. apply Done_entries; auto; eapply lower_at; eauto; lia.
    - apply Done_map. apply Done_rep; auto. eapply Dm; [|apply IHt; [lia|exact Hu]]. lia.
    - apply Done_map. apply Done_tys; auto. apply Forall_forall. intros t Ht. rewrite Forall_forall in IHts.
      pose proof (deepest_in (height t) (map height ts) (in_map height _ _ Ht)).
      eapply Dm; [|apply (IHts t Ht); [lia|]]; [lia|]. intros j Hj. apply Hu. cbn [unguarded]. apply in_flat_map. eauto.
    - eapply Dm; [|apply IHt; [lia|exact Hu]]. lia.
    - apply Done_dur; auto.
    - apply Done_time; auto.
    - apply Done_map. eapply Dm; [|apply IHt; [lia|exact Hu]]. lia.
    - destruct (nth_error G i) as [dd|] eqn:EG; [|intros o _ _; discriminate].
      assert (Hi : (rank i < r)%nat). { apply Hu; [left; reflexivity|]. apply nth_error_Some. congruence. }
      destruct dd as [dflt nul fs|tr fs|vs|p t'].
      + apply Done_map. apply Done_fields; auto. apply Forall_forall. intros f Hf'. eapply Hf; eauto.
        * cbn. apply in_map. exact Hf'.
        * intros j Hj. cbn. apply in_flat_map. eauto.
      + destruct (existsb f_skip fs); [intros o _ _; discriminate|].
        apply Done_map. apply Done_fields; auto. apply Forall_forall. intros f Hf'. eapply Hf; eauto.
        * cbn. apply in_map. exact Hf'.
        * intros j Hj. cbn. apply in_flat_map. eauto.
      + apply (Done_guard d rem 2); [lia|apply Done_fixed|apply Fwd_fixed; auto; lia|].
        intros Hr b. cbv zeta. destruct (nth_error vs (N.to_nat (of_le b))) as [vr|] eqn:EV; [|intros o _ _; discriminate].
        apply nth_error_In in EV. pose proof (nth_error_In _ _ EG) as HQ. rewrite Forall_forall in HH. pose proof (HH _ HQ) as HV. cbn [decl_types] in HV.
        rewrite Forall_forall in HV.
        destruct (v_body vr) as [|ts|fs] eqn:EB; [apply Done_ret| |].
        * apply Done_map. apply Done_tys; auto. apply Forall_forall. intros t Ht. eapply lower_at; eauto; [lia| |lia].
          apply HV. apply in_flat_map. exists vr. rewrite EB. auto.
        * apply Done_map. apply Done_fields; auto. apply Forall_forall. intros f Ht. eapply lower_at; eauto; [lia| |lia].
          apply HV. apply in_flat_map. exists vr. rewrite EB. split; [assumption|]. apply in_map. assumption.
      + apply Done_map. eapply Hf; eauto; cbn; auto.
  Qed.

  Lemma depth_all rem : forall t, (height t <= H)%nat -> Done d rem (de_bin c G d (N.to_nat (rem + 1) * per) t).
  Proof.
    induction rem as [rem IH] using (well_founded_induction N.lt_wf_0). intros t Ht.
    eapply Dm; [|apply (depth_ty rem) with (r := R); [|exact Ht|]].
    - unfold per. replace (N.to_nat (rem + 1)) with (S (N.to_nat rem)) by lia. cbn [Nat.mul]. lia.
    - intros q t' Hq Ht'. apply IH; assumption.
    - intros j _ Hj. apply HR. exact Hj.
  Qed.
End Depth.
