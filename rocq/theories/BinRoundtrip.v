(** Round trip and layout of the binary format: one induction. *)
From Verif Require Import Base Utf8 Types BinModel BinRead SpecBin.
Local Open Scope N_scope.
Ltac Zify.zify_post_hook ::= Z.div_mod_to_equations.

(** ** Layout facts for the primitives *)
Lemma nth_le_bytes w : forall n i, (i < w)%nat ->
  nth i (le_bytes w n) 0 = (n / 256 ^ N.of_nat i) mod 256.
Proof.
  induction w as [|w IH]; intros n i Hi; [lia|].
  cbn [le_bytes nth]. destruct i as [|i].
  - change (256 ^ N.of_nat 0) with 1. rewrite N.div_1_r. reflexivity.
  - rewrite IH by lia. replace (N.of_nat (S i)) with (N.succ (N.of_nat i)) by lia.
    rewrite N.pow_succ_r'. rewrite N.div_div; [reflexivity|lia|apply N.pow_nonzero; lia].
Qed.

Lemma is_le_N w n : is_le w (Z.of_N n) (le_bytes w n).
Proof.
  split; [apply le_bytes_length|]. intros i Hi. rewrite nth_le_bytes by assumption.
  rewrite N2Z.inj_mod, N2Z.inj_div, N2Z.inj_pow, nat_N_Z. reflexivity.
Qed.

Lemma is_le_bits w z : is_le w z (le_bytes w (to_bits w z)).
Proof.
  split; [apply le_bytes_length|]. intros i Hi. rewrite nth_le_bytes by assumption.
  rewrite N2Z.inj_mod, N2Z.inj_div, N2Z.inj_pow, nat_N_Z.
  unfold to_bits. rewrite Z2N.id by (apply Z.mod_pos_bound; lia).
  change (Z.of_N 256) with 256%Z.
  assert (Hsplit : (2 ^ (8 * Z.of_nat w) = 256 ^ Z.of_nat i * (256 * 256 ^ (Z.of_nat w - Z.of_nat i - 1)))%Z).
  { replace (2 ^ (8 * Z.of_nat w))%Z with (256 ^ Z.of_nat w)%Z
      by (change 256%Z with (2 ^ 8)%Z; rewrite <- Z.pow_mul_r by lia; reflexivity).
    rewrite <- Z.pow_succ_r by lia. rewrite <- Z.pow_add_r by lia. f_equal. lia. }
  rewrite Hsplit.
  assert (0 < 256 ^ Z.of_nat i)%Z by (apply Z.pow_pos_nonneg; lia).
  assert (0 < 256 ^ (Z.of_nat w - Z.of_nat i - 1))%Z by (apply Z.pow_pos_nonneg; lia).
  set (a := (256 ^ Z.of_nat i)%Z) in *. set (b := (256 ^ (Z.of_nat w - Z.of_nat i - 1))%Z) in *.
  rewrite Z.rem_mul_r by lia.
  rewrite (Z.mul_comm a ((z / a) mod (256 * b))%Z). rewrite Z.div_add by lia.
  rewrite (Z.div_small (z mod a) a) by (apply Z.mod_pos_bound; lia). rewrite Z.add_0_l.
  rewrite Z.rem_mul_r by lia. rewrite (Z.mul_comm 256), Z.mod_add by lia. apply Z.mod_mod. lia.
Qed.

Lemma is_len_le {A} (l : list A) : is_len (length l) (le_bytes 8 (lenN l)).
Proof. unfold is_len. replace (Z.of_nat (length l)) with (Z.of_N (lenN l)) by (unfold lenN; lia). apply is_le_N. Qed.

Section RT.
  Variable c : cfg.
  Variable G : env.
  Hypothesis Hc : cfg_ok c.

  (** What one level of the induction provides. *)
  Definition Codec (n : nat) (t : ty) (v : val) : Prop :=
    exists bs, Writes (ser_bin G n t v) bs /\ wire G t v bs /\
               Reads c (fun d => de_bin c G d n t) bs v.

  Variable n : nat.
  Hypothesis IH : forall t v, fits px_inverse c G n t v -> Codec n t v.
  Let ser := ser_bin G n.
  Let fit := fits px_inverse c G n.
  Let de := fun d => de_bin c G d n.

  Lemma items_codec t l :
    Forall (fit t) l ->
    exists bs, Writes (ser_items ser t l) bs /\ wire_items G t l bs /\
      (forall k acc,
         Reads c (fun d o => iter_nat_m (fun o acc => bbind (de d t) (fun v => bret (seq_add k v acc)) o)
                               (length l) o acc) bs (seq_of k l acc)).
  Proof.
    induction 1 as [|v l Hv Hl IHl].
    - exists []. split; [apply Writes_ok|]. split; [constructor|].
      intros k acc. apply (Reads_ret c acc).
    - destruct (IH t v Hv) as (b1 & W1 & X1 & R1).
      destruct IHl as (b2 & W2 & X2 & R2).
      exists (b1 ++ b2). split; [|split].
      + simpl. apply Writes_bind; assumption.
      + constructor; assumption.
      + intros k acc. cbn [length iter_nat_m].
        change (seq_of k (v :: l) acc) with (seq_of k l (seq_add k v acc)).
        pose proof (Reads_bind c (fun d => de d t)
          (fun d v o => iter_nat_m (fun o acc => bbind (de d t) (fun v => bret (seq_add k v acc)) o)
             (length l) o (seq_add k v acc)) b1 b2 v _ R1 (R2 k (seq_add k v acc))) as RB.
        eapply Reads_ext; [|exact RB].
        intros d o. unfold seq2, bbind. destruct (de d t o) as [o' [a|e|p|]]; reflexivity.
  Qed.

  Lemma entries_codec tk tv l :
    Forall (fun e => fit tk (fst e) /\ fit tv (snd e)) l ->
    exists bs, Writes (ser_entries ser tk tv l) bs /\ wire_entries G tk tv l bs /\
      (forall k acc,
         Reads c (fun d o => iter_nat_m (fun o acc =>
             bbind (de d tk) (fun x => bbind (de d tv) (fun y => bret (map_add k x y acc))) o)
             (length l) o acc) bs (map_of k l acc)).
  Proof.
    induction 1 as [|[x y] l [Hx Hy] Hl IHl].
    - exists []. split; [apply Writes_ok|]. split; [constructor|].
      intros k acc. apply (Reads_ret c acc).
    - destruct (IH tk x Hx) as (b1 & W1 & X1 & R1).
      destruct (IH tv y Hy) as (b2 & W2 & X2 & R2).
      destruct IHl as (b3 & W3 & X3 & R3).
      exists (b1 ++ b2 ++ b3). split; [|split].
      + simpl. apply Writes_bind; [assumption|]. apply Writes_bind; assumption.
      + constructor; assumption.
      + intros k acc. cbn [length iter_nat_m].
        change (map_of k ((x, y) :: l) acc) with (map_of k l (map_add k x y acc)).
        set (lp := fun d m acc => fun o : N => iter_nat_m (fun o acc =>
             bbind (de d tk) (fun x => bbind (de d tv) (fun y => bret (map_add k x y acc))) o)
             m o acc) in *.
        pose proof (Reads_bind c (fun d => de d tv)
          (fun d y => lp d (length l) (map_add k x y acc)) b2 b3 y _ R2 (R3 k (map_add k x y acc))) as RB.
        pose proof (Reads_bind c (fun d => de d tk)
          (fun d x => bbind (de d tv) (fun y => lp d (length l) (map_add k x y acc)))
          b1 (b2 ++ b3) x _ R1 RB) as RC.
        eapply Reads_ext; [|exact RC].
        intros d o. unfold seq2, bbind, lp. destruct (de d tk o) as [o' [a|e|p|]]; try reflexivity.
        destruct (de d tv o') as [o2 [a2|e|p|]]; reflexivity.
  Qed.

  Lemma rep_codec t l :
    Forall (fit t) l ->
    exists bs, Writes (ser_items ser t l) bs /\ wire_items G t l bs /\
      Reads c (fun d => de_rep (de d) (length l) t) bs l.
  Proof.
    induction 1 as [|v l Hv Hl IHl].
    - exists []. split; [apply Writes_ok|]. split; [constructor|]. apply (Reads_ret c []).
    - destruct (IH t v Hv) as (b1 & W1 & X1 & R1).
      destruct IHl as (b2 & W2 & X2 & R2).
      exists (b1 ++ b2). split; [apply Writes_bind; assumption|]. split; [constructor; assumption|].
      cbn [length de_rep].
      apply (Reads_bind c (fun d => de d t) (fun d v => bbind (de_rep (de d) (length l) t) (fun r => bret (v :: r)))
               b1 b2 v); [assumption|].
      apply (Reads_map c (cons v)). assumption.
  Qed.

  Lemma tys_codec ts l :
    Forall2 fit ts l ->
    exists bs, Writes (ser_tys ser ts l) bs /\ wire_parts G ts l bs /\
      Reads c (fun d => de_tys (de d) ts) bs l.
  Proof.
    induction 1 as [|t v ts l Hv Hl IHl].
    - exists []. split; [apply Writes_ok|]. split; [constructor|]. apply (Reads_ret c []).
    - destruct (IH t v Hv) as (b1 & W1 & X1 & R1).
      destruct IHl as (b2 & W2 & X2 & R2).
      exists (b1 ++ b2). split; [apply Writes_bind; assumption|]. split; [constructor; assumption|].
      cbn [de_tys].
      apply (Reads_bind c (fun d => de d t) (fun d v => bbind (de_tys (de d) ts) (fun r => bret (v :: r)))
               b1 b2 v); [assumption|].
      apply (Reads_map c (cons v)). assumption.
  Qed.

  (** Struct fields, the skipped ones holding anything; the reader puts the
      defaults there. *)
  Definition reset (fs : list field) (l : list val) : list val :=
    map (fun p => if f_skip (fst p) then f_tydefault (fst p) else snd p) (combine fs l).

  Lemma fields_codec fs l :
    Forall2 (fun f v => f_skip f = false -> fit (f_ty f) v) fs l ->
    exists bs, Writes (ser_fields ser true fs l) bs /\ wire_fields G fs l bs /\
      Reads c (fun d => de_fields (de d) true fs) bs (reset fs l).
  Proof.
    unfold reset.
    induction 1 as [|f v fs l Hv Hl IHl].
    - exists []. split; [apply Writes_ok|]. split; [constructor|]. apply (Reads_ret c []).
    - destruct IHl as (b2 & W2 & X2 & R2). cbn [ser_fields de_fields andb combine map fst snd].
      destruct (f_skip f) eqn:Es.
      + exists b2. split; [assumption|]. split; [constructor; assumption|].
        apply (Reads_bind c (fun d => bret (f_tydefault f)) (fun d v => bbind (de_fields (de d) true fs) (fun r => bret (v :: r)))
               [] b2 (f_tydefault f)); [apply Reads_ret|].
        apply (Reads_map c (cons (f_tydefault f))). assumption.
      + destruct (IH (f_ty f) v (Hv eq_refl)) as (b1 & W1 & X1 & R1).
        exists (b1 ++ b2). split; [apply Writes_bind; assumption|]. split; [constructor; assumption|].
        apply (Reads_bind c (fun d => de d (f_ty f)) (fun d v => bbind (de_fields (de d) true fs) (fun r => bret (v :: r)))
               b1 b2 v); [assumption|].
        apply (Reads_map c (cons v)). assumption.
  Qed.

  Lemma reset_id P fs l :
    Forall2 (fun f v => if f_skip f then v = f_tydefault f else P f v) fs l -> reset fs l = l.
  Proof.
    unfold reset. induction 1 as [|f v fs l Hv Hl IHl]; [reflexivity|]. simpl. rewrite IHl.
    destruct (f_skip f); congruence.
  Qed.

  Lemma varfields_codec fs l :
    Forall2 (fun f v => fit (f_ty f) v) fs l ->
    exists bs, Writes (ser_fields ser false fs l) bs /\ wire_parts G (map f_ty fs) l bs /\
      Reads c (fun d => de_fields (de d) false fs) bs l.
  Proof.
    induction 1 as [|f v fs l Hv Hl IHl].
    - exists []. split; [apply Writes_ok|]. split; [constructor|]. apply (Reads_ret c []).
    - destruct IHl as (b2 & W2 & X2 & R2). cbn [ser_fields de_fields andb map].
      destruct (IH (f_ty f) v Hv) as (b1 & W1 & X1 & R1).
      exists (b1 ++ b2). split; [apply Writes_bind; assumption|]. split; [constructor; assumption|].
      apply (Reads_bind c (fun d => de d (f_ty f)) (fun d v => bbind (de_fields (de d) false fs) (fun r => bret (v :: r)))
               b1 b2 v); [assumption|].
      apply (Reads_map c (cons v)). assumption.
  Qed.
End RT.

(** Any sequence of typed elements, with repetitions or not in order, written
    as a collection of kind [k] reads back as the collection they make up. *)
Lemma seq_codec c G n k t' l : cfg_ok c ->
  (forall t v, fits px_inverse c G n t v -> Codec c G n t v) ->
  Forall (fits px_inverse c G n t') l -> lenN l < usize_mod c ->
  match k with SVec | SHSet => lenN l <= alloc_max c t' | _ => True end ->
  exists bs, Writes (ser_bin G (S n) (TSeq k t') (VSeq l)) bs /\ wire G (TSeq k t') (VSeq l) bs /\
             Reads c (fun d => de_bin c G d (S n) (TSeq k t')) bs (VSeq (seq_of k l [])).
Proof.
  intros Hc IH Hl Hlen Hal.
  destruct (items_codec c G n IH t' l Hl) as (bs & W & X & R).
  exists (le_bytes 8 (lenN l) ++ bs). split; [|split].
  + cbn [ser_bin]. apply Writes_bind; [apply (ser_usize_writes c); assumption|assumption].
  + constructor; [apply is_len_le|assumption].
  + cbn [de_bin].
    apply (Reads_bind c (fun d => rd_usize c d)
      (fun d len => bbind (match k with SVec | SHSet => with_capacity c t' len | _ => bret tt end)
         (fun _ => bmap VSeq (de_items (de_bin c G d n) k t' len))) (le_bytes 8 (lenN l)) bs (lenN l)).
    * apply Reads_usize; assumption.
    * assert (Hcap : forall B (f : unit -> bm B), bbind (match k with SVec | SHSet => with_capacity c t' (lenN l) | _ => bret tt end) f
               = f tt).
      { intros B f. unfold with_capacity. destruct k; try reflexivity;
        (destruct (N.leb_spec (lenN l) (alloc_max c t')); [reflexivity|lia]). }
      eapply Reads_ext_r; [intros d o; rewrite Hcap; reflexivity|].
      apply (Reads_map c VSeq (fun d => de_items (de_bin c G d n) k t' (lenN l))).
      eapply Reads_ext; [|exact (R k [])].
      intros d o. unfold de_items. rewrite iter_N_nat. unfold lenN. rewrite Nnat.Nat2N.id. reflexivity.
Qed.

Lemma map_codec c G n k tk tv l : cfg_ok c ->
  (forall t v, fits px_inverse c G n t v -> Codec c G n t v) ->
  Forall (fun e => fits px_inverse c G n tk (fst e) /\ fits px_inverse c G n tv (snd e)) l ->
  lenN l < usize_mod c ->
  match k with MHash => lenN l <= alloc_max c tk | MBTree => True end ->
  exists bs, Writes (ser_bin G (S n) (TMap k tk tv) (VMap l)) bs /\ wire G (TMap k tk tv) (VMap l) bs /\
             Reads c (fun d => de_bin c G d (S n) (TMap k tk tv)) bs (VMap (map_of k l [])).
Proof.
  intros Hc IH Hl Hlen Hal.
  destruct (entries_codec c G n IH tk tv l Hl) as (bs & W & X & R).
  exists (le_bytes 8 (lenN l) ++ bs). split; [|split].
  + cbn [ser_bin]. apply Writes_bind; [apply (ser_usize_writes c); assumption|assumption].
  + constructor; [apply is_len_le|assumption].
  + cbn [de_bin].
    apply (Reads_bind c (fun d => rd_usize c d)
      (fun d len => bbind (match k with MHash => with_capacity c tk len | MBTree => bret tt end)
         (fun _ => bmap VMap (de_entries (de_bin c G d n) k tk tv len))) (le_bytes 8 (lenN l)) bs (lenN l)).
    * apply Reads_usize; assumption.
    * assert (Hcap : forall B (f : unit -> bm B), bbind (match k with MHash => with_capacity c tk (lenN l) | MBTree => bret tt end) f
               = f tt).
      { intros B f. unfold with_capacity. destruct k; try reflexivity;
        (destruct (N.leb_spec (lenN l) (alloc_max c tk)); [reflexivity|lia]). }
      eapply Reads_ext_r; [intros d o; rewrite Hcap; reflexivity|].
      apply (Reads_map c VMap (fun d => de_entries (de_bin c G d n) k tk tv (lenN l))).
      eapply Reads_ext; [|exact (R k [])].
      intros d o. unfold de_entries. rewrite iter_N_nat. unfold lenN. rewrite Nnat.Nat2N.id. reflexivity.
Qed.

Lemma Reads_dur c s ns :
  cfg_ok c -> s < 2 ^ 64 -> ns < 1000000000 ->
  Reads c (fun d => rd_dur c d) (le_bytes 8 s ++ le_bytes 4 ns) (VDur s ns).
Proof.
  intros Hc Hs Hn. unfold rd_dur.
  eapply (Reads_bind c (fun d => rd_fixed c d 8)
     (fun d bs => bbind (rd_fixed c d 4) (fun bn => let ns := of_le bn in _)));
    [apply Reads_fixed; [assumption|lia|rewrite lenN_le; reflexivity]|].
  rewrite <- (app_nil_r (le_bytes 4 ns)).
  eapply (Reads_bind c (fun d => rd_fixed c d 4) (fun d bn => let ns := of_le bn in _));
    [apply Reads_fixed; [assumption|lia|rewrite lenN_le; reflexivity]|].
  cbv beta zeta. rewrite !of_le_le_bytes; [|assumption|].
  2:{ change (256 ^ N.of_nat 4) with 4294967296. lia. }
  destruct (N.ltb_spec 1000000000 ns); [lia|].
  unfold duration_new. destruct (N.ltb_spec ns 1000000000); [|lia]. apply Reads_ret.
Qed.

Lemma not_usize_ser G n k z out : k <> Usize ->
  ser_bin G (S n) (TInt k) (VZ z) out = emit (le_bytes (ik_bytes k) (to_bits (ik_bytes k) z)) out.
Proof. destruct k; intro; first [congruence | reflexivity]. Qed.
Lemma not_usize_de c G d n k : k <> Usize ->
  de_bin c G d (S n) (TInt k) = bmap (fun b => VZ (of_bits k (of_le b))) (rd_fixed c d (N.of_nat (ik_bytes k))).
Proof. destruct k; intro; first [congruence | reflexivity]. Qed.

Lemma ik_bytes_le k : N.of_nat (ik_bytes k) <= 16.
Proof. destruct k; simpl; lia. Qed.

Lemma codec_step c G n : cfg_ok c ->
  (forall t v, fits px_inverse c G n t v -> Codec c G n t v) ->
  forall t v, fits px_inverse c G (S n) t v -> Codec c G (S n) t v.
Proof.
  intros Hc IH t v H. unfold Codec.
  destruct t as [k| | | | | |t'|k t'|k tk tv|m t'|ts|t'| | |p t'|i].
  - (* TInt *)
    destruct v; cbn [fits] in H; try contradiction.
    destruct (ik_signed k || match k with Usize => false | _ => true end) eqn:Ek.
    + assert (Hk : k <> Usize) by (intros ->; discriminate).
      exists (le_bytes (ik_bytes k) (to_bits (ik_bytes k) z)). split; [|split].
      * intro out. rewrite not_usize_ser by assumption. reflexivity.
      * constructor. apply is_le_bits.
      * apply (Reads_ext c (fun d => bmap (fun b => VZ (of_bits k (of_le b))) (rd_fixed c d (N.of_nat (ik_bytes k)))));
          [intros d o; rewrite (not_usize_de c G d n k Hk); reflexivity|].
        rewrite <- (of_bits_to_bits c k z Hk H) at 2.
        rewrite <- (of_le_le_bytes (ik_bytes k) (to_bits (ik_bytes k) z)) at 2 by apply to_bits_lt.
        apply (Reads_map c (fun b => VZ (of_bits k (of_le b))) (fun d => rd_fixed c d (N.of_nat (ik_bytes k)))).
        apply Reads_fixed; [assumption|apply ik_bytes_le|apply lenN_le].
    + assert (k = Usize) by (destruct k; simpl in Ek; congruence). subst k.
      unfold int_ok, ik_min, ik_sup in H. cbn [ik_signed] in H.
      assert (Hz : Z.to_N z < usize_mod c) by lia.
      exists (le_bytes 8 (Z.to_N z)). split; [|split].
      * intro out. apply (ser_usize_writes c); assumption.
      * constructor. cbn [ik_bytes]. rewrite <- (Z2N.id z) at 1 by lia. apply is_le_N.
      * rewrite <- (Z2N.id z) at 2 by lia.
        apply (Reads_map c (fun m => VZ (Z.of_N m)) (fun d => rd_usize c d)).
        apply Reads_usize; assumption.
  - (* TF32 *)
    destruct v; cbn [fits] in H; try contradiction.
    exists (le_bytes 4 bits). split; [intro; reflexivity|]. split; [constructor; apply is_le_N|].
    rewrite <- (of_le_le_bytes 4 bits) at 2 by assumption.
    apply (Reads_map c (fun b => VF (of_le b)) (fun d => rd_fixed c d 4)).
    apply Reads_fixed; [assumption|lia|apply lenN_le].
  - (* TF64 *)
    destruct v; cbn [fits] in H; try contradiction.
    exists (le_bytes 8 bits). split; [intro; reflexivity|]. split; [constructor; apply is_le_N|].
    rewrite <- (of_le_le_bytes 8 bits) at 2 by assumption.
    apply (Reads_map c (fun b => VF (of_le b)) (fun d => rd_fixed c d 8)).
    apply Reads_fixed; [assumption|lia|apply lenN_le].
  - (* TBool *)
    destruct v; cbn [fits] in H; try contradiction.
    exists [if b then 1 else 0]. split; [intro; reflexivity|]. split; [destruct b; constructor|].
    replace (VBool b) with (VBool (negb (of_le [if b then 1 else 0] =? 0))) by (destruct b; reflexivity).
    apply (Reads_map c (fun b => VBool (negb (of_le b =? 0))) (fun d => rd_fixed c d 1)).
    apply Reads_fixed; [assumption|lia|reflexivity].
  - (* TStr *)
    destruct v; cbn [fits] in H; try contradiction. destruct H as [Hs Hl].
    exists (le_bytes 8 (lenN (utf8_enc s)) ++ utf8_enc s). split; [|split].
    + cbn [ser_bin]. apply Writes_bind; [apply (ser_usize_writes c); assumption|apply Writes_emit].
    + constructor. apply is_len_le.
    + apply (Reads_map c VStr (fun d => rd_str c d)). apply Reads_str; assumption.
  - (* TUnit *)
    destruct v; cbn [fits] in H; try contradiction.
    exists []. split; [apply Writes_ok|]. split; [constructor|]. apply (Reads_ret c VUnit).
  - (* TOpt *)
    destruct v; cbn [fits] in H; try contradiction.
    + exists [0]. split; [intro; reflexivity|]. split; [constructor|].
      apply (Reads_bind c (fun d => rd_fixed c d 1)
               (fun d b => if of_le b =? 1 then bmap VSome (de_bin c G d n t') else bret VNone) [0] [] [0] VNone).
      * apply Reads_fixed; [assumption|lia|reflexivity].
      * apply (Reads_ret c VNone).
    + destruct (IH _ _ H) as (bs & W & X & R).
      exists ([1] ++ bs). split; [|split].
      * cbn [ser_bin]. apply Writes_bind; [apply Writes_emit|assumption].
      * constructor; assumption.
      * apply (Reads_bind c (fun d => rd_fixed c d 1)
               (fun d b => if of_le b =? 1 then bmap VSome (de_bin c G d n t') else bret VNone) [1] bs [1]).
        -- apply Reads_fixed; [assumption|lia|reflexivity].
        -- apply (Reads_map c VSome (fun d => de_bin c G d n t')). assumption.
  - (* TSeq *)
    destruct v; cbn [fits] in H; try contradiction. destruct H as (Hl & Hi & Hlen & Hal).
    destruct (seq_codec c G n k t' l Hc IH Hl Hlen Hal) as (bs & W & X & R).
    rewrite (seq_of_inv k l []) in R by exact Hi. exists bs. auto.
  - (* TMap *)
    destruct v; cbn [fits] in H; try contradiction. destruct H as (Hl & Hi & Hlen & Hal).
    destruct (map_codec c G n k tk tv l Hc IH Hl Hlen Hal) as (bs & W & X & R).
    rewrite (map_of_inv k l []) in R by exact Hi. exists bs. auto.
  - (* TArr *)
    destruct v; cbn [fits] in H; try contradiction. destruct H as (<- & Hl).
    destruct (rep_codec c G n IH t' l Hl) as (bs & W & X & R).
    exists bs. split; [exact W|]. split; [constructor; assumption|].
    apply (Reads_map c VSeq (fun d => de_rep (de_bin c G d n) (length l) t')). assumption.
  - (* TTup *)
    destruct v; cbn [fits] in H; try contradiction.
    destruct (tys_codec c G n IH ts l H) as (bs & W & X & R).
    exists bs. split; [exact W|]. split; [constructor; assumption|].
    apply (Reads_map c VSeq (fun d => de_tys (de_bin c G d n) ts)). assumption.
  - (* TBox *)
    assert (H' : fits px_inverse c G n t' v) by (destruct v; exact H).
    destruct (IH _ _ H') as (bs & W & X & R).
    exists bs. split; [|split; [constructor; assumption|exact R]].
    intro out. destruct v; cbn [ser_bin]; apply W.
  - (* TDur *)
    destruct v; cbn [fits] in H; try contradiction. destruct H as [Hs Hn].
    exists (le_bytes 8 secs ++ le_bytes 4 nanos). split; [|split].
    + cbn [ser_bin]. apply Writes_bind; apply Writes_emit.
    + constructor; apply is_le_N.
    + apply Reads_dur; assumption.
  - (* TTime *)
    destruct v; cbn [fits] in H; try contradiction. destruct H as (Hs & Hm & Hn).
    exists ([1] ++ le_bytes 8 (Z.to_N secs) ++ le_bytes 4 nanos). split; [|split].
    + intro out. cbn [ser_bin]. destruct (Z.ltb_spec secs 0); [lia|].
      apply Writes_bind; [apply Writes_emit|]. apply Writes_bind; apply Writes_emit.
    + apply (w_time G secs nanos (le_bytes 8 (Z.to_N secs)) (le_bytes 4 nanos)); [lia| |apply is_le_N]. rewrite <- (Z2N.id secs) at 1 by lia. apply is_le_N.
    + apply (Reads_bind c (fun d => rd_fixed c d 1)
        (fun d b => if of_le b =? 1 then bbind (rd_dur c d) (fun v => match v with
          | VDur s ns => if s <=? time_max c then bret (VTime (Z.of_N s) ns) else bfail (Panic PTime)
          | _ => bfail (Panic PIllTyped) end) else bret (VTime 0 0)) [1] _ [1]).
      * apply Reads_fixed; [assumption|lia|reflexivity].
      * cbv beta. change (of_le [1] =? 1) with true. cbv iota.
        rewrite <- (app_nil_r (le_bytes 8 (Z.to_N secs) ++ le_bytes 4 nanos)).
        eapply (Reads_bind c (fun d => rd_dur c d) (fun d v => _)).
        -- apply Reads_dur; [assumption|lia|assumption].
        -- cbv beta iota. destruct (N.leb_spec (Z.to_N secs) (time_max c)); [|lia].
           rewrite Z2N.id by lia. apply Reads_ret.
  - (* TProxy *)
    assert (H' : px_inverse p (fits px_inverse c G n t') v) by (destruct v; exact H).
    destruct H' as [Hf Hinv]. destruct (IH _ _ Hf) as (bs & W & X & R).
    exists bs. split; [|split; [constructor; assumption|]].
    + intro out. destruct v; cbn [ser_bin]; apply W.
    + rewrite <- Hinv. apply (Reads_map c (p_from p) (fun d => de_bin c G d n t')). assumption.
  - (* TNamed *)
    assert (H' : match nth_error G i, v with
      | Some (DStruct _ _ fs), VSeq l => Forall2 (fun f v => if f_skip f then v = f_tydefault f else fits px_inverse c G n (f_ty f) v) fs l
      | Some (DTuple _ fs), VSeq l => existsb f_skip fs = false /\ Forall2 (fun f v => if f_skip f then v = f_tydefault f else fits px_inverse c G n (f_ty f) v) fs l
      | Some (DProxy p t'), w' => px_inverse p (fits px_inverse c G n t') w'
      | Some (DEnum vs), VEnum tag l =>
        tag < 65536 /\
        match nth_error vs (N.to_nat tag) with
        | None => False
        | Some vr =>
          match v_body vr with
          | BUnit => l = []
          | BTuple ts => Forall2 (fits px_inverse c G n) ts l
          | BStruct fs => Forall2 (fun f w => fits px_inverse c G n (f_ty f) w) fs l
          end
        end
      | _, _ => False
      end) by (destruct v; exact H). clear H. rename H' into H.
    destruct (nth_error G i) as [[dflt nul fs|tr fs|vs|p t']|] eqn:EG; [| | | |destruct v; contradiction].
    + destruct v; try contradiction.
      assert (H2 : Forall2 (fun f v => f_skip f = false -> fits px_inverse c G n (f_ty f) v) fs l).
      { clear -H. induction H as [|f v fs l Hv Hl IHl]; constructor; auto. intro E. rewrite E in Hv. assumption. }
      destruct (fields_codec c G n IH fs l H2) as (bs & W & X & R).
      rewrite (reset_id _ _ _ H) in R.
      exists bs. split; [|split].
      * intro out. cbn [ser_bin]. rewrite EG. apply W.
      * eapply w_struct; eauto.
      * eapply Reads_ext_r; [intros; cbn [de_bin]; rewrite EG; reflexivity|].
        apply (Reads_map c VSeq (fun d => de_fields (de_bin c G d n) true fs)). assumption.
    + destruct v; try contradiction. destruct H as [Hsk H].
      assert (H2 : Forall2 (fun f v => f_skip f = false -> fits px_inverse c G n (f_ty f) v) fs l).
      { clear -H. induction H as [|f v fs l Hv Hl IHl]; constructor; auto. intro E. rewrite E in Hv. assumption. }
      destruct (fields_codec c G n IH fs l H2) as (bs & W & X & R).
      rewrite (reset_id _ _ _ H) in R.
      exists bs. split; [|split].
      * intro out. cbn [ser_bin]. rewrite EG. apply W.
      * eapply w_tstruct; eauto.
      * eapply Reads_ext_r; [intros; cbn [de_bin]; rewrite EG, Hsk; reflexivity|].
        apply (Reads_map c VSeq (fun d => de_fields (de_bin c G d n) true fs)). assumption.
    + destruct v; try contradiction. destruct H as [Htag H].
      destruct (nth_error vs (N.to_nat tag)) as [vr|] eqn:EV; [|contradiction].
      assert (RT : Reads c (fun d => rd_fixed c d 2) (le_bytes 2 tag) (le_bytes 2 tag))
        by (apply Reads_fixed; [assumption|lia|apply lenN_le]).
      assert (Etag : of_le (le_bytes 2 tag) = tag) by (apply of_le_le_bytes; assumption).
      destruct (v_body vr) as [|ts|fs] eqn:EB.
      * subst l. exists (le_bytes 2 tag). split; [|split].
        -- intro out. cbn [ser_bin]. rewrite EG, EV. cbn [rbind emit]. rewrite EB. reflexivity.
        -- eapply w_unitvar; eauto. apply is_le_N.
        -- eapply Reads_ext_r; [intros; cbn [de_bin]; rewrite EG; reflexivity|].
           rewrite <- (app_nil_r (le_bytes 2 tag)).
           eapply (Reads_bind c (fun d => rd_fixed c d 2) (fun d b => let tag := of_le b in _)); [exact RT|].
           cbv beta zeta. rewrite Etag, EV, EB. apply Reads_ret.
      * destruct (tys_codec c G n IH ts l H) as (bs & W & X & R).
        exists (le_bytes 2 tag ++ bs). split; [|split].
        -- intro out. cbn [ser_bin]. rewrite EG, EV. cbn [rbind emit]. rewrite EB, W, app_assoc. reflexivity.
        -- eapply w_tupvar; eauto. apply is_le_N.
        -- eapply Reads_ext_r; [intros; cbn [de_bin]; rewrite EG; reflexivity|].
           eapply (Reads_bind c (fun d => rd_fixed c d 2) (fun d b => let tag := of_le b in _)); [exact RT|].
           cbv beta zeta. rewrite Etag, EV, EB.
           apply (Reads_map c (VEnum tag) (fun d => de_tys (de_bin c G d n) ts)). assumption.
      * destruct (varfields_codec c G n IH fs l H) as (bs & W & X & R).
        exists (le_bytes 2 tag ++ bs). split; [|split].
        -- intro out. cbn [ser_bin]. rewrite EG, EV. cbn [rbind emit]. rewrite EB, W, app_assoc. reflexivity.
        -- eapply w_structvar; eauto. apply is_le_N.
        -- eapply Reads_ext_r; [intros; cbn [de_bin]; rewrite EG; reflexivity|].
           eapply (Reads_bind c (fun d => rd_fixed c d 2) (fun d b => let tag := of_le b in _)); [exact RT|].
           cbv beta zeta. rewrite Etag, EV, EB.
           apply (Reads_map c (VEnum tag) (fun d => de_fields (de_bin c G d n) false fs)). assumption.
    + destruct H as [Hf Hinv]. destruct (IH _ _ Hf) as (bs & W & X & R).
      exists bs. split; [|split; [eapply w_dproxy; eauto|]].
      * intro out. cbn [ser_bin]. rewrite EG. destruct v; apply W.
      * eapply Reads_ext_r; [intros; cbn [de_bin]; rewrite EG; reflexivity|].
        rewrite <- Hinv. apply (Reads_map c (p_from p) (fun d => de_bin c G d n t')). assumption.
Qed.

Theorem codec c G n t v : cfg_ok c -> fits px_inverse c G n t v -> Codec c G n t v.
Proof.
  intro Hc. revert t v. induction n as [|n IH]; intros t v H; [contradiction|].
  apply codec_step; assumption.
Qed.
