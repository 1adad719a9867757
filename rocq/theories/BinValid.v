(** Decoded values are valid; re-encoding; fuel. *)
From Verif Require Import Base Utf8 Types TyAll BinModel BinRead BinLocal.
Local Open Scope N_scope.
Ltac Zify.zify_post_hook ::= Z.div_mod_to_equations.

Section Gives.
  Variable c : cfg.
  Hypothesis Hc : cfg_ok c.

  (** A successful run from inside the input yields a value satisfying [P]. *)
  Definition Gives {A} (m : list N -> bm A) (P : A -> Prop) : Prop :=
    forall d o o' a, slice_fits c (lenN d) -> bytes_ok d -> o <= lenN d -> m d o = (o', Ok a) -> P a.

  Lemma Gives_ret {A} (a : A) (P : A -> Prop) : P a -> Gives (fun _ => bret a) P.
  Proof. intros H d o o' a' _ _ _ E. inversion E; subst; assumption. Qed.
  Lemma Gives_fail {A} (r : res berr A) P : (forall a, r <> Ok a) -> Gives (fun _ => bfail r) P.
  Proof. intros Hr d o o' a _ _ _ E. inversion E; subst. exfalso. eapply Hr; eauto. Qed.
  Lemma Gives_bind {A B} (m : list N -> bm A) (f : list N -> A -> bm B) (P : A -> Prop) (Q : B -> Prop) :
    Local c m -> Gives m P -> (forall a, P a -> Gives (fun d => f d a) Q) ->
    Gives (fun d => bbind (m d) (f d)) Q.
  Proof.
    intros HL H1 H2 d o o' b Hf Hb Ho E. unfold bbind in E.
    destruct (m d o) as [o1 [a|e|p|]] eqn:E1; try discriminate.
    destruct (HL _ _ _ _ Hf Ho E1) as (_ & L & _).
    eapply H2; eauto.
  Qed.
  Lemma Gives_map {A B} (g : A -> B) (m : list N -> bm A) (P : A -> Prop) (Q : B -> Prop) :
    Local c m -> Gives m P -> (forall a, P a -> Q (g a)) -> Gives (fun d => bmap g (m d)) Q.
  Proof.
    intros HL H1 H2. apply (Gives_bind m (fun _ a => bret (g a)) P Q HL H1).
    intros a Ha. apply Gives_ret. auto.
  Qed.
  Lemma Gives_weaken {A} (m : list N -> bm A) (P Q : A -> Prop) :
    (forall a, P a -> Q a) -> Gives m P -> Gives m Q.
  Proof. intros H1 H2 d o o' a Hf Hb Ho E. eauto. Qed.

  Lemma Gives_fixed w : w <= 16 -> Gives (fun d => rd_fixed c d w) (fun bs => lenN bs = w /\ bytes_ok bs).
  Proof.
    intros Hw d o o' a Hf Hb Ho H. assert (Hu := slice_fits_usize c _ Hc Hf).
    unfold rd_fixed in H. rewrite usize_add_ok in H by lia.
    destruct (N.ltb_spec (lenN d) (o + w)); [discriminate|].
    destruct (N.ltb_spec (o + w) o); [discriminate|].
    inversion H; subst. split; [apply slice_length; assumption|apply bytes_ok_slice; assumption].
  Qed.
  Lemma Gives_usize : Gives (fun d => rd_usize c d) (fun n => n < usize_mod c).
  Proof. intros d o o' a _ _ _ H. eapply rd_usize_bound; eauto. Qed.

  Lemma Gives_str : Gives (fun d => rd_str c d) (fun s => Forall scalar s /\ lenN (utf8_enc s) < usize_mod c).
  Proof.
    unfold rd_str. apply (Gives_bind (fun d => rd_usize c d) (fun d len o => _) (fun n => n < usize_mod c));
      [apply Local_usize; assumption|apply Gives_usize|].
    intros len Hlen d o o' s Hf Hb Ho H. cbv beta in H.
    destruct (usize_add c o len) as [e|e|p|] eqn:Ea; try discriminate.
    destruct (N.ltb_spec (lenN d) e); [discriminate|].
    destruct (N.ltb_spec e o); [discriminate|].
    assert (Hu := slice_fits_usize c _ Hc Hf).
    apply usize_add_cases in Ea as [->|[? _]]; [|lia|lia|assumption].
    destruct (utf8_dec (slice o len d)) as [s'|] eqn:Eu; [|discriminate].
    inversion H; subst o' s'.
    apply utf8_dec_sound in Eu as [H1' H2']; [|apply bytes_ok_slice; assumption].
    split; [assumption|]. rewrite H2', slice_length by lia. assumption.
  Qed.

  Definition is_dur (v : val) : Prop :=
    match v with VDur s ns => s < 2 ^ 64 /\ ns < 1000000000 | _ => False end.

  Lemma Gives_dur : Gives (fun d => rd_dur c d) is_dur.
  Proof.
    unfold rd_dur.
    eapply (Gives_bind (fun d => rd_fixed c d 8) (fun d bs => bbind _ (fun bn => let ns := of_le bn in _)));
      [apply Local_fixed; [assumption|lia]|apply Gives_fixed; lia|].
    intros bs [Hl1 Hb1].
    eapply (Gives_bind (fun d => rd_fixed c d 4) (fun d bn => let ns := of_le bn in _));
      [apply Local_fixed; [assumption|lia]|apply Gives_fixed; lia|].
    intros bn [Hl2 Hb2]. cbv beta zeta.
    apply of_le_bound in Hb1. apply of_le_bound in Hb2. rewrite Hl1 in Hb1. rewrite Hl2 in Hb2.
    change (256 ^ 8) with (2 ^ 64) in Hb1. change (256 ^ 4) with 4294967296 in Hb2.
    destruct (N.ltb_spec 1000000000 (of_le bn)).
    - intros d o o' a _ _ _ E. discriminate.
    - unfold duration_new. destruct (N.ltb_spec (of_le bn) 1000000000).
      + apply Gives_ret. split; assumption.
      + destruct (N.ltb_spec (of_le bs + of_le bn / 1000000000) (2 ^ 64)).
        * apply Gives_ret. split; [assumption|]. apply N.mod_lt. lia.
        * apply Gives_fail. discriminate.
  Qed.

  Lemma Gives_iter {A} (step : list N -> A -> bm A) (I : nat -> A -> Prop) :
    (forall a, Local c (fun d => step d a)) ->
    (forall j a, I j a -> Gives (fun d => step d a) (I (S j))) ->
    forall k j a, I j a -> Gives (fun d o => iter_nat_m (fun o a => step d a o) k o a) (I (k + j)%nat).
  Proof.
    intros HL Hs. induction k as [|k IH]; intros j a HI.
    - simpl. apply (Gives_ret a). assumption.
    - intros d o o' b Hf Hb Ho E. cbn [iter_nat_m] in E. unfold seq2 in E.
      destruct (step d a o) as [o1 [a1|e|p|]] eqn:E1; try discriminate.
      destruct (HL a _ _ _ _ Hf Ho E1) as (_ & L & _).
      assert (H1 := Hs j a HI _ _ _ _ Hf Hb Ho E1).
      replace (S k + j)%nat with (k + S j)%nat by lia.
      eapply (IH (S j) a1 H1); eauto.
  Qed.

  Section Helpers.
    Variable de : list N -> ty -> bm val.
    Variable fit : ty -> val -> Prop.
    Hypothesis HL : forall t, Local c (fun d => de d t).
    Hypothesis HG : forall t, Gives (fun d => de d t) (fit t).

    Lemma Gives_items k t len :
      Gives (fun d => de_items (de d) k t len)
        (fun l => Forall (fit t) l /\ seq_inv k l /\ lenN l <= len).
    Proof.
      set (I := fun (j : nat) (l : list val) => Forall (fit t) l /\ seq_inv k l /\ (length l <= j)%nat).
      assert (HI : Gives (fun d o => iter_nat_m (fun o a => bbind (de d t) (fun v => bret (seq_add k v a)) o) (N.to_nat len) o [])
                     (I (N.to_nat len + 0)%nat)).
      { apply (Gives_iter (fun d a => bbind (de d t) (fun v => bret (seq_add k v a))) I).
        - intro a. apply (Local_map c (fun v => seq_add k v a)). apply HL.
        - intros j a (H1 & H2 & H3).
          apply (Gives_map (fun v => seq_add k v a) (fun d => de d t) (fit t)); [apply HL|apply HG|].
          intros v Hv. split; [|split].
          + rewrite Forall_forall in *. intros y Hy. apply seq_add_In in Hy as [->|Hy]; auto.
          + apply seq_add_keeps. assumption.
          + pose proof (seq_add_len k v a). lia.
        - split; [constructor|]. split; [|simpl; lia]. destruct k; simpl; auto. constructor. }
      intros d o o' l Hf Hb Ho E. unfold de_items in E. rewrite iter_N_nat in E.
      destruct (HI _ _ _ _ Hf Hb Ho E) as (H1 & H2 & H3).
      split; [assumption|]. split; [assumption|]. unfold lenN. lia.
    Qed.

    Lemma Gives_entries k tk tv len :
      Gives (fun d => de_entries (de d) k tk tv len)
        (fun l => Forall (fun e => fit tk (fst e) /\ fit tv (snd e)) l /\ map_inv k l /\ lenN l <= len).
    Proof.
      set (I := fun (j : nat) (l : list (val * val)) =>
             Forall (fun e => fit tk (fst e) /\ fit tv (snd e)) l /\ map_inv k l /\ (length l <= j)%nat).
      set (step := fun d a => bbind (de d tk) (fun x => bbind (de d tv) (fun y => bret (map_add k x y a)))).
      assert (HI : Gives (fun d o => iter_nat_m (fun o a => step d a o) (N.to_nat len) o [])
                     (I (N.to_nat len + 0)%nat)).
      { apply (Gives_iter step I).
        - intro a. apply (Local_bind c (fun d => de d tk) (fun d x => _)); [apply HL|].
          intro x. apply (Local_map c (fun y => map_add k x y a)). apply HL.
        - intros j a (H1 & H2 & H3).
          apply (Gives_bind (fun d => de d tk) (fun d x => bbind (de d tv) (fun y => bret (map_add k x y a))) (fit tk)); [apply HL|apply HG|].
          intros x Hx.
          apply (Gives_map (fun v => map_add k x v a) (fun d => de d tv) (fit tv)); [apply HL|apply HG|].
          intros v Hv. split; [|split].
          + rewrite Forall_forall in *. intros y Hy. apply map_add_In in Hy as [->|Hy]; auto.
          + apply map_add_keeps. assumption.
          + pose proof (map_add_len k x v a). lia.
        - split; [constructor|]. split; [|simpl; lia]. destruct k; simpl; auto. constructor. }
      intros d o o' l Hf Hb Ho E. unfold de_entries in E. rewrite iter_N_nat in E.
      destruct (HI _ _ _ _ Hf Hb Ho E) as (H1 & H2 & H3).
      split; [assumption|]. split; [assumption|]. unfold lenN. lia.
    Qed.

    Lemma Gives_rep n t : Gives (fun d => de_rep (de d) n t) (fun l => length l = n /\ Forall (fit t) l).
    Proof.
      induction n as [|n IH]; simpl; [apply Gives_ret; auto|].
      apply (Gives_bind (fun d => de d t) (fun d v => _) (fit t)); [apply HL|apply HG|]. intros v Hv.
      apply (Gives_map (cons v) (fun d => de_rep (de d) n t) (fun l => length l = n /\ Forall (fit t) l));
        [apply Local_rep; apply HL|assumption|].
      intros l [H1 H2]. simpl. auto.
    Qed.
    Lemma Gives_tys ts : Gives (fun d => de_tys (de d) ts) (fun l => Forall2 fit ts l).
    Proof.
      induction ts as [|t ts IH]; simpl; [apply Gives_ret; auto|].
      apply (Gives_bind (fun d => de d t) (fun d v => _) (fit t)); [apply HL|apply HG|]. intros v Hv.
      apply (Gives_map (cons v) (fun d => de_tys (de d) ts) (fun l => Forall2 fit ts l));
        [apply Local_tys; apply HL|assumption|].
      intros l H. auto.
    Qed.
    Lemma Gives_fields hs fs : Gives (fun d => de_fields (de d) hs fs)
      (fun l => Forall2 (fun f v => if hs && f_skip f then v = f_tydefault f else fit (f_ty f) v) fs l).
    Proof.
      induction fs as [|f fs IH]; simpl; [apply Gives_ret; auto|].
      apply (Gives_bind (fun d => if hs && f_skip f then bret (f_tydefault f) else de d (f_ty f)) (fun d v => _)
        (fun v => if hs && f_skip f then v = f_tydefault f else fit (f_ty f) v)).
      - destruct (hs && f_skip f); [apply Local_ret|apply HL].
      - destruct (hs && f_skip f); [apply Gives_ret; reflexivity|apply HG].
      - intros v Hv.
        apply (Gives_map (cons v) (fun d => de_fields (de d) hs fs)
          (fun l => Forall2 (fun f v => if hs && f_skip f then v = f_tydefault f else fit (f_ty f) v) fs l));
        [apply Local_fields; apply HL|assumption|].
        intros l H. auto.
    Qed.
  End Helpers.

  Theorem de_valid G n t : Gives (fun d => de_bin c G d n t) (fits px_image c G n t).
  Proof.
    revert t; induction n as [|n IH]; intro t.
    { intros d o o' a _ _ _ H. discriminate. }
    assert (HLn : forall t, Local c (fun d => de_bin c G d n t)) by (intro; apply Local_de; assumption).
    assert (Hl16 : forall w, w <= 16 -> Local c (fun d => rd_fixed c d w)) by (intros; apply Local_fixed; assumption).
    destruct t as [k| | | | | |t'|k t'|k tk tv|m t'|ts|t'| | |p t'|i]; cbn [de_bin].
    - assert (Hk : k <> Usize -> Gives (fun d => bmap (fun b => VZ (of_bits k (of_le b))) (rd_fixed c d (N.of_nat (ik_bytes k))))
                 (fits px_image c G (S n) (TInt k))).
      { intro Hk. eapply (Gives_map (fun b => VZ (of_bits k (of_le b))));
          [apply Hl16; destruct k; simpl; lia|apply Gives_fixed; destruct k; simpl; lia|].
        intros b [Hl Hb]. cbn [fits]. apply of_le_bound in Hb. rewrite Hl in Hb.
        apply to_bits_of_bits; assumption. }
      destruct k; try (apply Hk; discriminate).
      apply (Gives_map (fun m => VZ (Z.of_N m)) (fun d => rd_usize c d) (fun n => n < usize_mod c));
        [apply Local_usize; assumption|apply Gives_usize|].
      intros a Ha. cbn [fits]. unfold int_ok, ik_min, ik_sup. simpl. lia.
    - eapply (Gives_map (fun b => VF (of_le b))); [apply Hl16; lia|apply Gives_fixed; lia|].
      intros b [Hl Hb]. cbn [fits]. apply of_le_bound in Hb. rewrite Hl in Hb. assumption.
    - eapply (Gives_map (fun b => VF (of_le b))); [apply Hl16; lia|apply Gives_fixed; lia|].
      intros b [Hl Hb]. cbn [fits]. apply of_le_bound in Hb. rewrite Hl in Hb. assumption.
    - eapply (Gives_map (fun b => VBool (negb (of_le b =? 0)))); [apply Hl16; lia|apply Gives_fixed; lia|].
      intros b _. exact I.
    - eapply (Gives_map VStr); [apply Local_str; assumption|apply Gives_str|]. intros s H. exact H.
    - apply Gives_ret. exact I.
    - eapply (Gives_bind (fun d => rd_fixed c d 1) (fun d b => _)); [apply Hl16; lia|apply Gives_fixed; lia|].
      intros b _. cbv beta. destruct (of_le b =? 1); [|apply Gives_ret; exact I].
      eapply (Gives_map VSome); [apply HLn|apply IH|]. intros v Hv. exact Hv.
    - apply (Gives_bind (fun d => rd_usize c d) (fun d len => _) (fun n => n < usize_mod c));
        [apply Local_usize; assumption|apply Gives_usize|].
      intros len Hlen.
      apply (Gives_bind (fun _ => match k with SVec | SHSet => with_capacity c t' len | _ => bret tt end)
        (fun d _ => bmap VSeq (de_items (de_bin c G d n) k t' len))
        (fun _ => match k with SVec | SHSet => len <= alloc_max c t' | _ => True end)).
      + destruct k; first [apply Local_capacity | apply Local_ret].
      + destruct k; try (apply Gives_ret; exact I);
          (unfold with_capacity; destruct (N.leb_spec len (alloc_max c t'));
            [apply Gives_ret; assumption|apply Gives_fail; discriminate]).
      + intros _ Hcap. eapply (Gives_map VSeq);
          [apply (Local_items c (fun d => de_bin c G d n)); assumption
          |apply (Gives_items (fun d => de_bin c G d n) (fits px_image c G n)); assumption|].
        intros l (H1 & H2 & H3). cbn [fits]. split; [assumption|]. split; [assumption|].
        split; [lia|]. destruct k; auto; lia.
    - apply (Gives_bind (fun d => rd_usize c d) (fun d len => _) (fun n => n < usize_mod c));
        [apply Local_usize; assumption|apply Gives_usize|].
      intros len Hlen.
      apply (Gives_bind (fun _ => match k with MHash => with_capacity c tk len | MBTree => bret tt end)
        (fun d _ => bmap VMap (de_entries (de_bin c G d n) k tk tv len))
        (fun _ => match k with MHash => len <= alloc_max c tk | MBTree => True end)).
      + destruct k; first [apply Local_capacity | apply Local_ret].
      + destruct k; try (apply Gives_ret; exact I);
          (unfold with_capacity; destruct (N.leb_spec len (alloc_max c tk));
            [apply Gives_ret; assumption|apply Gives_fail; discriminate]).
      + intros _ Hcap. eapply (Gives_map VMap);
          [apply (Local_entries c (fun d => de_bin c G d n)); assumption
          |apply (Gives_entries (fun d => de_bin c G d n) (fits px_image c G n)); assumption|].
        intros l (H1 & H2 & H3). cbn [fits]. split; [assumption|]. split; [assumption|].
        split; [lia|]. destruct k; auto; lia.
    - eapply (Gives_map VSeq);
        [apply (Local_rep c (fun d => de_bin c G d n)); assumption
        |apply (Gives_rep (fun d => de_bin c G d n) (fits px_image c G n)); assumption|].
      intros l H. exact H.
    - eapply (Gives_map VSeq);
        [apply (Local_tys c (fun d => de_bin c G d n)); assumption
        |apply (Gives_tys (fun d => de_bin c G d n) (fits px_image c G n)); assumption|].
      intros l H. exact H.
    - eapply Gives_weaken; [|apply IH]. intros v Hv. destruct v; exact Hv.
    - eapply Gives_weaken; [|apply Gives_dur]. intros v Hv. destruct v; try contradiction. exact Hv.
    - eapply (Gives_bind (fun d => rd_fixed c d 1) (fun d b => _)); [apply Hl16; lia|apply Gives_fixed; lia|].
      intros b _. cbv beta. destruct (of_le b =? 1).
      + apply (Gives_bind (fun d => rd_dur c d) (fun d v => _) is_dur); [apply Local_dur; assumption|apply Gives_dur|].
        intros v Hv. cbv beta. destruct v; try contradiction. destruct Hv as [Hs Hn].
        destruct (N.leb_spec secs (time_max c)); [|apply Gives_fail; discriminate].
        apply Gives_ret. cbn [fits]. lia.
      + apply Gives_ret. cbn [fits]. lia.
    - eapply (Gives_map (p_from p)); [apply HLn|apply IH|]. intros w Hw.
      assert (HX : px_image p (fits px_image c G n t') (p_from p w)) by (exists w; auto).
      cbn [fits]. destruct (p_from p w); exact HX.
    - cbn [fits]. destruct (nth_error G i) as [[dflt nul fs|tr fs|vs|p t']|] eqn:EG; [| | | |apply Gives_fail; discriminate].
      + eapply (Gives_map VSeq);
          [apply (Local_fields c (fun d => de_bin c G d n)); assumption
          |apply (Gives_fields (fun d => de_bin c G d n) (fits px_image c G n)); assumption|].
        intros l H. exact H.
      + destruct (existsb f_skip fs) eqn:Es; [apply Gives_fail; discriminate|].
        eapply (Gives_map VSeq);
          [apply (Local_fields c (fun d => de_bin c G d n)); assumption
          |apply (Gives_fields (fun d => de_bin c G d n) (fits px_image c G n)); assumption|].
        intros l H. split; [reflexivity|]. exact H.
      + eapply (Gives_bind (fun d => rd_fixed c d 2) (fun d b => let tag := of_le b in _)); [apply Hl16; lia|apply Gives_fixed; lia|].
        intros b [Hl Hb]. cbv beta zeta. apply of_le_bound in Hb. rewrite Hl in Hb. change (256 ^ 2) with 65536 in Hb.
        destruct (nth_error vs (N.to_nat (of_le b))) as [vr|] eqn:EV; [|apply Gives_fail; discriminate].
        destruct (v_body vr) as [|ts|fs] eqn:EB.
        * apply Gives_ret. split; [assumption|]. rewrite EV, EB. reflexivity.
        * eapply (Gives_map (VEnum (of_le b)));
          [apply (Local_tys c (fun d => de_bin c G d n)); assumption
          |apply (Gives_tys (fun d => de_bin c G d n) (fits px_image c G n)); assumption|].
          intros l H. split; [assumption|]. rewrite EV, EB. exact H.
        * eapply (Gives_map (VEnum (of_le b)));
          [apply (Local_fields c (fun d => de_bin c G d n)); assumption
          |apply (Gives_fields (fun d => de_bin c G d n) (fits px_image c G n)); assumption|].
          intros l H. split; [assumption|]. rewrite EV, EB. exact H.
      + eapply (Gives_map (p_from p)); [apply HLn|apply IH|]. intros w Hw.
        assert (HX : px_image p (fits px_image c G n t') (p_from p w)) by (exists w; auto).
        destruct (p_from p w); exact HX.
  Qed.
End Gives.
