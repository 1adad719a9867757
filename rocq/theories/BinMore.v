(** Consequences for binary encoding: re-encoding, canonical types, streams,
    duplicate keys. *)
From Verif Require Import Base Utf8 Types BinModel BinRead SpecBin BinRoundtrip BinLocal TyAll BinValid BinFuel.
Local Open Scope N_scope.
Ltac Zify.zify_post_hook ::= Z.div_mod_to_equations.

(** ** Typing does not depend on the height bound *)
Definition px_mono (px : px_rule) : Prop :=
  forall p (P Q : val -> Prop) v, (forall w, P w -> Q w) -> px p P v -> px p Q v.
Lemma px_inverse_mono : px_mono px_inverse.
Proof. intros p P Q v H [H1 H2]. split; auto. Qed.
Lemma px_image_mono : px_mono px_image.
Proof. intros p P Q v H (w & H1 & H2). exists w; auto. Qed.

Lemma Forall2_impl {A B} (R S : A -> B -> Prop) l1 l2 :
  (forall a b, R a b -> S a b) -> Forall2 R l1 l2 -> Forall2 S l1 l2.
Proof. intros H. induction 1; constructor; auto. Qed.

(** A change of proxy rule and of height, at once. *)
Lemma fits_change (px px' : px_rule) c G n m :
  (n <= m)%nat ->
  (forall p (P Q : val -> Prop) v, (forall w, P w -> Q w) -> px p P v -> px' p Q v) ->
  forall t v, fits px c G n t v -> fits px' c G m t v.
Proof.
  intros Hle Hpx. revert m Hle. induction n as [|n IHn]; intros m Hle t v H; [contradiction|].
  destruct m as [|m]; [lia|].
  assert (IH : forall t v, fits px c G n t v -> fits px' c G m t v) by (intros; apply IHn; [lia|assumption]).
  clear IHn.
  destruct t; try (destruct v; cbn [fits] in *; try contradiction; auto; fail).
  - destruct v; cbn [fits] in *; try contradiction. destruct H as (H1 & H2 & H3 & H4).
    split; [|auto]. eapply Forall_impl; [|exact H1]. auto.
  - destruct v; cbn [fits] in *; try contradiction. destruct H as (H1 & H2 & H3 & H4).
    split; [|auto]. eapply Forall_impl; [|exact H1]. intros e [? ?]; auto.
  - destruct v; cbn [fits] in *; try contradiction. destruct H as (H1 & H2).
    split; [assumption|]. eapply Forall_impl; [|exact H2]. auto.
  - destruct v; cbn [fits] in *; try contradiction. eapply Forall2_impl; [|exact H]. auto.
  - destruct v; cbn [fits] in *; (eapply Hpx; [|exact H]; auto).
  - assert (H' : match nth_error G n0, v with
      | Some (DStruct _ _ fs), VSeq l => Forall2 (fun f v => if f_skip f then v = f_tydefault f else fits px c G n (f_ty f) v) fs l
      | Some (DTuple _ fs), VSeq l => existsb f_skip fs = false /\ Forall2 (fun f v => if f_skip f then v = f_tydefault f else fits px c G n (f_ty f) v) fs l
      | Some (DProxy p t'), w' => px p (fits px c G n t') w'
      | Some (DEnum vs), VEnum tag l =>
        tag < 65536 /\
        match nth_error vs (N.to_nat tag) with
        | None => False
        | Some vr =>
          match v_body vr with
          | BUnit => l = []
          | BTuple ts => Forall2 (fits px c G n) ts l
          | BStruct fs => Forall2 (fun f w => fits px c G n (f_ty f) w) fs l
          end
        end
      | _, _ => False end) by (destruct v; exact H).
    clear H.
    enough (match nth_error G n0, v with
      | Some (DStruct _ _ fs), VSeq l => Forall2 (fun f v => if f_skip f then v = f_tydefault f else fits px' c G m (f_ty f) v) fs l
      | Some (DTuple _ fs), VSeq l => existsb f_skip fs = false /\ Forall2 (fun f v => if f_skip f then v = f_tydefault f else fits px' c G m (f_ty f) v) fs l
      | Some (DProxy p t'), w' => px' p (fits px' c G m t') w'
      | Some (DEnum vs), VEnum tag l =>
        tag < 65536 /\
        match nth_error vs (N.to_nat tag) with
        | None => False
        | Some vr =>
          match v_body vr with
          | BUnit => l = []
          | BTuple ts => Forall2 (fits px' c G m) ts l
          | BStruct fs => Forall2 (fun f w => fits px' c G m (f_ty f) w) fs l
          end
        end
      | _, _ => False end) by (destruct v; assumption).
    destruct (nth_error G n0) as [[dflt nl fs|tr fs|vs|p t']|]; try contradiction.
    + destruct v; try contradiction. eapply Forall2_impl; [|exact H']. intros f w. cbv beta. destruct (f_skip f); auto.
    + destruct v; try contradiction. destruct H' as [He H']. split; [assumption|].
      eapply Forall2_impl; [|exact H']. intros f w. cbv beta. destruct (f_skip f); auto.
    + destruct v; try contradiction. destruct H' as [He H']. split; [assumption|].
      destruct (nth_error vs (N.to_nat tag)) as [vr|]; [|contradiction].
      destruct (v_body vr); [assumption| |].
      * eapply Forall2_impl; [|exact H']. auto.
      * eapply Forall2_impl; [|exact H']. intros f w. cbv beta. auto.
    + eapply Hpx; [|exact H']; auto.
Qed.

Lemma fits_mono px c G n m t v : px_mono px -> (n <= m)%nat -> fits px c G n t v -> fits px c G m t v.
Proof. intros H Hle. apply fits_change; auto. Qed.

(** Conversions that lose nothing of the proxy: converting a proxy value to the
    user's type and back gives the same proxy value. *)
Definition lawful (p : proxy) : Prop := forall w, p_to p (p_from p w) = w.
Definition lawful_node (t : ty) : Prop := match t with TProxy p _ => lawful p | _ => True end.
Definition lawful_decl (d : decl) : Prop := match d with DProxy p _ => lawful p | _ => True end.

Lemma valid_typed c G n :
  env_all lawful_node G -> Forall lawful_decl G ->
  forall t v, ty_all lawful_node t -> fits px_image c G n t v -> fits px_inverse c G n t v.
Proof.
  intros HG HD. induction n as [|n IH]; intros t v Ht H; [contradiction|].
  assert (Hpx : forall p t' w, lawful p -> ty_all lawful_node t' ->
     px_image p (fits px_image c G n t') w -> px_inverse p (fits px_inverse c G n t') w).
  { intros p t' w Hp Ht' (u & Hu & ->). split; rewrite Hp; auto. }
  destruct t; cbn [ty_all] in Ht; destruct Ht as [Hnode Ht];
    try (destruct v; cbn [fits] in *; try contradiction; auto; fail).
  - destruct v; cbn [fits] in *; try contradiction. destruct H as (H1 & H2 & H3 & H4).
    split; [|auto]. eapply Forall_impl; [|exact H1]. auto.
  - destruct v; cbn [fits] in *; try contradiction. destruct H as (H1 & H2 & H3 & H4).
    split; [|auto]. destruct Ht as [Ht1 Ht2]. eapply Forall_impl; [|exact H1]. intros e [? ?]; auto.
  - destruct v; cbn [fits] in *; try contradiction. destruct H as (H1 & H2).
    split; [assumption|]. eapply Forall_impl; [|exact H2]. auto.
  - destruct v; cbn [fits] in *; try contradiction. apply ty_all_list in Ht.
    revert l H; induction Ht; intros l0 HH0; inversion HH0; subst; constructor; auto.
  - assert (HG' := HG). unfold env_all in HG'. rewrite Forall_forall in HG', HD.
    assert (HF : forall fs l, Forall (field_all lawful_node) fs ->
       Forall2 (fun f v => if f_skip f then v = f_tydefault f else fits px_image c G n (f_ty f) v) fs l ->
       Forall2 (fun f v => if f_skip f then v = f_tydefault f else fits px_inverse c G n (f_ty f) v) fs l).
    { intros fs l Hfs. revert l; induction Hfs; intros l0 HH0; inversion HH0; subst; constructor; auto.
      destruct (f_skip x); auto. }
    assert (HF2 : forall fs l, Forall (field_all lawful_node) fs ->
       Forall2 (fun f v => fits px_image c G n (f_ty f) v) fs l ->
       Forall2 (fun f v => fits px_inverse c G n (f_ty f) v) fs l).
    { intros fs l Hfs. revert l; induction Hfs; intros l0 HH0; inversion HH0; subst; constructor; auto. }
    assert (HT : forall ts l, Forall (ty_all lawful_node) ts ->
       Forall2 (fits px_image c G n) ts l -> Forall2 (fits px_inverse c G n) ts l).
    { intros fs l Hfs. revert l; induction Hfs; intros l0 HH0; inversion HH0; subst; constructor; auto. }
    cbn [fits] in *.
    destruct (nth_error G n0) as [dc|] eqn:E; [|contradiction].
    assert (Hdc := env_all_nth _ _ _ _ HG E). apply nth_error_In in E. apply HD in E.
    destruct dc as [dflt nl fs|tr fs|vs|p t']; simpl in Hdc, E.
    + destruct v; try contradiction. auto.
    + destruct v; try contradiction. destruct H as [He H]. auto.
    + destruct v; try contradiction. destruct H as [He H]. split; [assumption|].
      destruct (nth_error vs (N.to_nat tag)) as [vr|] eqn:Ev; [|contradiction].
      assert (Hv := decl_all_variant _ vs _ vr Hdc Ev).
      destruct (v_body vr); [assumption| |]; auto.
    + auto.
Qed.

(** ** Types whose encoding is canonical *)
(** No type node that accepts several encodings of one value. *)
Definition canon_node (t : ty) : Prop :=
  match t with
  | TBool | TOpt _ | TDur | TTime | TMap _ _ _ => False
  | TSeq SHSet _ | TSeq SBSet _ => False
  | TProxy p _ => lawful p
  | _ => True
  end.

Section Canon.
  Variable c : cfg.
  Variable G : env.
  Hypothesis Hc : cfg_ok c.
  Hypothesis H64 : usize_bits c = 64.

  Definition Eats {A} (m : list N -> bm A) (R : A -> list N -> Prop) : Prop :=
    forall d o o' a, slice_fits c (lenN d) -> bytes_ok d -> o <= lenN d -> m d o = (o', Ok a) ->
      R a (slice o (o' - o) d).

  Lemma Eats_ret {A} (a : A) (R : A -> list N -> Prop) : R a [] -> Eats (fun _ => bret a) R.
  Proof. intros H d o o' b _ _ _ E. inversion E; subst. rewrite N.sub_diag, slice_zero. assumption. Qed.
  Lemma Eats_bind {A B} (m : list N -> bm A) (f : list N -> A -> bm B) (P : A -> list N -> Prop) (R : B -> list N -> Prop) :
    Local c m -> (forall a, Local c (fun d => f d a)) -> Eats m P ->
    (forall a b1, P a b1 -> Eats (fun d => f d a) (fun b b2 => R b (b1 ++ b2))) ->
    Eats (fun d => bbind (m d) (f d)) R.
  Proof.
    intros L1 L2 H1 H2 d o o' b Hf Hb Ho E. unfold bbind in E.
    destruct (m d o) as [o1 [a|e|p|]] eqn:E1; try discriminate.
    destruct (L1 _ _ _ _ Hf Ho E1) as (Ha & Hb1 & _).
    destruct (L2 a _ _ _ _ Hf Hb1 E) as (Ha2 & Hb2 & _).
    rewrite <- (slice_app d o o1 o') by lia.
    apply (H2 a _ (H1 _ _ _ _ Hf Hb Ho E1)); auto.
  Qed.
  Lemma Eats_map {A B} (g : A -> B) (m : list N -> bm A) (P : A -> list N -> Prop) (R : B -> list N -> Prop) :
    Eats m P -> (forall a bs, P a bs -> R (g a) bs) -> Eats (fun d => bmap g (m d)) R.
  Proof.
    intros H1 H2 d o o' b Hf Hb Ho E. unfold bmap, bbind in E.
    destruct (m d o) as [o1 [a|e|p|]] eqn:E1; try discriminate. inversion E; subst.
    apply H2. eapply H1; eauto.
  Qed.
  Lemma Eats_ext {A} (m1 m2 : list N -> bm A) R : (forall d o, m2 d o = m1 d o) -> Eats m1 R -> Eats m2 R.
  Proof. intros E H d o o' a Hf Hb Ho H1. rewrite E in H1. eapply H; eauto. Qed.

  Lemma Eats_fixed w : w <= 16 -> Eats (fun d => rd_fixed c d w) (fun b bs => b = bs /\ lenN bs = w /\ bytes_ok bs).
  Proof.
    intros Hw d o o' a Hf Hb Ho E. destruct (slice_fits_usize _ _ Hc Hf) as [A1 A2].
    unfold rd_fixed in E. rewrite usize_add_ok in E by lia.
    destruct (N.ltb_spec (lenN d) (o + w)); [discriminate|].
    destruct (N.ltb_spec (o + w) o); [discriminate|]. inversion E; subst.
    replace (o + w - o) with w by lia. split; [reflexivity|].
    split; [apply slice_length; assumption|apply bytes_ok_slice; assumption].
  Qed.
  Lemma Eats_usize : Eats (fun d => rd_usize c d) (fun m bs => bs = le_bytes 8 m).
  Proof.
    intros d o o' a Hf Hb Ho E. destruct (slice_fits_usize _ _ Hc Hf) as [A1 A2].
    unfold rd_usize in E. rewrite usize_add_ok in E by lia.
    destruct (N.leb_spec o (o + 8)); [|discriminate].
    destruct (N.leb_spec (o + 8) (lenN d)); [|discriminate]. cbn [andb] in E. inversion E; subst.
    replace (o + 8 - o) with 8 by lia.
    assert (Hl : lenN (slice o 8 d) = 8) by (apply slice_length; assumption).
    assert (Hk : bytes_ok (slice o 8 d)) by (apply bytes_ok_slice; assumption).
    rewrite N.mod_small.
    - symmetry. replace 8%nat with (length (slice o 8 d)) by (unfold lenN in Hl; lia). apply le_bytes_of_le. assumption.
    - assert (Hb' := of_le_bound _ Hk). rewrite Hl in Hb'. unfold usize_mod. rewrite H64. exact Hb'.
  Qed.
  Lemma Eats_str : Eats (fun d => rd_str c d) (fun s bs => exists lb, is_len (length (utf8_enc s)) lb /\ bs = lb ++ utf8_enc s).
  Proof.
    intros d o o' s Hf Hb Ho E. destruct (slice_fits_usize _ _ Hc Hf) as [A1 A2].
    unfold rd_str, bbind in E.
    destruct (rd_usize c d o) as [o1 [len|e|p|]] eqn:E1; try discriminate.
    assert (Hlen := Eats_usize _ _ _ _ Hf Hb Ho E1). assert (Hlb := rd_usize_bound _ _ _ _ _ E1).
    destruct (Local_usize c Hc _ _ _ _ Hf Ho E1) as (B1 & B2 & _).
    destruct (usize_add c o1 len) as [e|e|p|] eqn:E2; try discriminate.
    destruct (N.ltb_spec (lenN d) e); [discriminate|].
    destruct (N.ltb_spec e o1); [discriminate|].
    destruct (utf8_dec (slice o1 len d)) as [s'|] eqn:E3; [|discriminate].
    inversion E; subst s' o'.
    apply usize_add_cases in E2; [|lia|assumption]. assert (e = o1 + len) by lia. subst e.
    rewrite <- (slice_app d o o1 (o1 + len)) by lia. rewrite Hlen.
    replace (o1 + len - o1) with len by lia.
    assert (Hs := slice_length o1 len d ltac:(lia)).
    apply utf8_dec_sound in E3; [|apply bytes_ok_slice; assumption]. destruct E3 as [_ E3]. rewrite E3 in *.
    exists (le_bytes 8 len). split; [|reflexivity].
    replace (le_bytes 8 len) with (le_bytes 8 (lenN (slice o1 len d))) by (rewrite Hs; reflexivity). apply is_len_le.
  Qed.

  Lemma Eats_iter t (de : list N -> ty -> bm val) k :
    (forall t, Local c (fun d => de d t)) -> Eats (fun d => de d t) (wire G t) ->
    (k = SVec \/ k = SList) ->
    forall m acc, Eats (fun d o => iter_nat_m (fun o acc => bbind (de d t) (fun v => bret (seq_add k v acc)) o) m o acc)
       (fun l bs => exists l2, l = acc ++ l2 /\ length l2 = m /\ wire_items G t l2 bs).
  Proof.
    intros L H Hk. induction m as [|m IH]; intro acc.
    - apply (Eats_ret acc). exists []. rewrite app_nil_r. split; [reflexivity|]. split; [reflexivity|]. constructor.
    - apply (Eats_ext (fun d => bbind (de d t) (fun v o => iter_nat_m (fun o acc => bbind (de d t) (fun v => bret (seq_add k v acc)) o) m o (acc ++ [v])))).
      { intros d o. cbn [iter_nat_m]. unfold seq2, bbind. destruct (de d t o) as [o' [b|e|p|]]; try reflexivity.
        unfold bret. destruct Hk as [-> | ->]; reflexivity. }
      apply (Eats_bind (fun d => de d t) (fun d v o => iter_nat_m (fun o acc => bbind (de d t) (fun v => bret (seq_add k v acc)) o) m o (acc ++ [v])) (wire G t)).
      + apply L.
      + intro v. apply (Local_iter c (fun d acc => bbind (de d t) (fun v => bret (seq_add k v acc)))); auto.
        intro a. apply (Local_bind c (fun d => de d t) (fun d v => bret (seq_add k v a))); [apply L|]. intro; apply Local_ret.
      + exact H.
      + intros v b1 Hv d o o' l Hf Hb Ho E. destruct (IH _ _ _ _ _ Hf Hb Ho E) as (l2 & -> & Hl & Hw).
        exists (v :: l2). split; [rewrite <- app_assoc; reflexivity|]. split; [simpl; congruence|]. constructor; assumption.
  Qed.

  Section Helpers.
    Variable de : list N -> ty -> bm val.
    Hypothesis HL : forall t, Local c (fun d => de d t).
    Lemma Eats_rep m t : Eats (fun d => de d t) (wire G t) ->
      Eats (fun d => de_rep (de d) m t) (wire_items G t).
    Proof.
      intro H. induction m as [|m IH]; [apply (Eats_ret []); constructor|].
      cbn [de_rep].
      apply (Eats_bind (fun d => de d t) (fun d v => bbind (de_rep (de d) m t) (fun r => bret (v :: r))) (wire G t)); auto.
      - intro a. apply (Local_map c (fun r => a :: r) (fun d => de_rep (de d) m t)). apply (Local_rep c de); assumption.
      - intros v b1 Hv. apply (Eats_map (fun r => v :: r) (fun d => de_rep (de d) m t) (wire_items G t)); [exact IH|].
        intros r b2 Hr. constructor; assumption.
    Qed.
    Lemma Eats_tys ts : Forall (fun t => Eats (fun d => de d t) (wire G t)) ts ->
      Eats (fun d => de_tys (de d) ts) (wire_parts G ts).
    Proof.
      induction 1 as [|t ts H Hs IH]; [apply (Eats_ret []); constructor|].
      cbn [de_tys].
      apply (Eats_bind (fun d => de d t) (fun d v => bbind (de_tys (de d) ts) (fun r => bret (v :: r))) (wire G t)); auto.
      - intro a. apply (Local_map c (fun r => a :: r) (fun d => de_tys (de d) ts)). apply (Local_tys c de); assumption.
      - intros v b1 Hv. apply (Eats_map (fun r => v :: r) (fun d => de_tys (de d) ts) (wire_parts G ts)); [exact IH|].
        intros r b2 Hr. constructor; assumption.
    Qed.
    Lemma Eats_fields fs : Forall (fun f => Eats (fun d => de d (f_ty f)) (wire G (f_ty f))) fs ->
      Eats (fun d => de_fields (de d) true fs) (wire_fields G fs).
    Proof.
      induction 1 as [|f fs H Hs IH]; [apply (Eats_ret []); constructor|].
      cbn [de_fields andb].
      assert (HLr : forall a, Local c (fun d => bbind (de_fields (de d) true fs) (fun r => bret (a :: r)))).
      { intro a. apply (Local_map c (fun r => a :: r) (fun d => de_fields (de d) true fs)). apply (Local_fields c de); assumption. }
      destruct (f_skip f) eqn:Ef.
      - apply (Eats_bind (fun _ => bret (f_tydefault f)) (fun d v => bbind (de_fields (de d) true fs) (fun r => bret (v :: r))) (fun _ b => b = [])); auto.
        + apply Local_ret.
        + apply (Eats_ret (f_tydefault f)). reflexivity.
        + intros v b1 ->. apply (Eats_map (fun r => v :: r) (fun d => de_fields (de d) true fs) (wire_fields G fs)); [exact IH|].
          intros r b2 Hr. apply wf_skip; assumption.
      - apply (Eats_bind (fun d => de d (f_ty f)) (fun d v => bbind (de_fields (de d) true fs) (fun r => bret (v :: r))) (wire G (f_ty f))); auto.
        intros v b1 Hv. apply (Eats_map (fun r => v :: r) (fun d => de_fields (de d) true fs) (wire_fields G fs)); [exact IH|].
        intros r b2 Hr. apply wf_cons; assumption.
    Qed.
    Lemma Eats_varfields fs : Forall (fun f => Eats (fun d => de d (f_ty f)) (wire G (f_ty f))) fs ->
      Eats (fun d => de_fields (de d) false fs) (wire_parts G (map f_ty fs)).
    Proof.
      induction 1 as [|f fs H Hs IH]; [apply (Eats_ret []); constructor|].
      cbn [de_fields andb map].
      apply (Eats_bind (fun d => de d (f_ty f)) (fun d v => bbind (de_fields (de d) false fs) (fun r => bret (v :: r))) (wire G (f_ty f))); auto.
      - intro a. apply (Local_map c (fun r => a :: r) (fun d => de_fields (de d) false fs)). apply (Local_fields c de); assumption.
      - intros v b1 Hv. apply (Eats_map (fun r => v :: r) (fun d => de_fields (de d) false fs) (wire_parts G (map f_ty fs))); [exact IH|].
        intros r b2 Hr. constructor; assumption.
    Qed.
  End Helpers.

  Hypothesis HG : env_all canon_node G.
  Hypothesis HD : Forall lawful_decl G.

  Lemma bytes_le w bs : bytes_ok bs -> length bs = w -> is_le w (Z.of_N (of_le bs)) bs.
  Proof. intros H <-. rewrite <- (le_bytes_of_le bs) at 3 by assumption. apply is_le_N. Qed.

  Theorem Eats_de n t : ty_all canon_node t -> Eats (fun d => de_bin c G d n t) (wire G t).
  Proof.
    revert t; induction n as [|n IH]; intros t Ht.
    { intros d o o' a _ _ _ E. discriminate. }
    assert (HLn : forall t, Local c (fun d => de_bin c G d n t)) by (intro; apply Local_de; assumption).
    destruct t; cbn [ty_all] in Ht; destruct Ht as [Hn Ht]; simpl in Hn; try contradiction.
    - destruct (match k with Usize => true | _ => false end) eqn:Ek.
      + assert (k = Usize) by (destruct k; congruence). subst k. cbn [de_bin].
        apply (Eats_map (fun m => VZ (Z.of_N m)) (fun d => rd_usize c d) _ _ Eats_usize).
        intros m bs ->. constructor. apply is_le_N.
      + assert (Hk : k <> Usize) by (intros ->; discriminate).
        apply (Eats_ext (fun d => bmap (fun b => VZ (of_bits k (of_le b))) (rd_fixed c d (N.of_nat (ik_bytes k))))).
        { intros d o. rewrite not_usize_de by assumption. reflexivity. }
        apply (Eats_map (fun b => VZ (of_bits k (of_le b))) (fun d => rd_fixed c d (N.of_nat (ik_bytes k))) _ _ (Eats_fixed _ (ik_bytes_le k))).
        intros b bs (-> & Hl & Hb). constructor.
        assert (Hlen : length bs = ik_bytes k) by (unfold lenN in Hl; lia).
        assert (Hlt := of_le_bound bs Hb). rewrite Hl in Hlt.
        destruct (to_bits_of_bits c k (of_le bs) Hk Hlt) as [_ Ht2].
        assert (X := is_le_bits (ik_bytes k) (of_bits k (of_le bs))). rewrite Ht2 in X.
        rewrite <- Hlen in X at 2. rewrite (le_bytes_of_le bs Hb) in X. exact X.
    - cbn [de_bin]. apply (Eats_map (fun b => VF (of_le b)) (fun d => rd_fixed c d 4) _ _ (Eats_fixed 4 ltac:(lia))).
      intros b bs (-> & Hl & Hb). constructor. apply bytes_le; [assumption|]. unfold lenN in Hl; lia.
    - cbn [de_bin]. apply (Eats_map (fun b => VF (of_le b)) (fun d => rd_fixed c d 8) _ _ (Eats_fixed 8 ltac:(lia))).
      intros b bs (-> & Hl & Hb). constructor. apply bytes_le; [assumption|]. unfold lenN in Hl; lia.
    - cbn [de_bin]. apply (Eats_map VStr (fun d => rd_str c d) _ _ Eats_str).
      intros s bs (lb & Hl & ->). constructor; assumption.
    - apply (Eats_ret VUnit). constructor.
    - assert (Hk : k = SVec \/ k = SList) by (destruct k; try contradiction; auto).
      cbn [de_bin].
      apply (Eats_bind (fun d => rd_usize c d) (fun d len =>
          bbind (match k with SVec | SHSet => with_capacity c t len | _ => bret tt end)
                (fun _ => bmap VSeq (de_items (de_bin c G d n) k t len))) (fun m bs => bs = le_bytes 8 m)).
      { apply Local_usize; assumption. }
      { intro len. apply (Local_bind c (fun d => match k with SVec | SHSet => with_capacity c t len | _ => bret tt end)
           (fun d _ => bmap VSeq (de_items (de_bin c G d n) k t len))).
        - destruct k; try apply Local_ret; apply Local_capacity.
        - intros _. apply (Local_map c VSeq (fun d => de_items (de_bin c G d n) k t len)). apply (Local_items c (fun d => de_bin c G d n)); assumption. }
      { apply Eats_usize. }
      intros len b1 ->.

      apply (Eats_bind (fun d => match k with SVec | SHSet => with_capacity c t len | _ => bret tt end)
           (fun d _ => bmap VSeq (de_items (de_bin c G d n) k t len)) (fun _ b => b = [])).
      { destruct k; try apply Local_ret; apply Local_capacity. }
      { intros _. apply (Local_map c VSeq (fun d => de_items (de_bin c G d n) k t len)). apply (Local_items c (fun d => de_bin c G d n)); assumption. }
      { destruct k; try (apply (Eats_ret tt); reflexivity);
          unfold with_capacity; destruct (len <=? alloc_max c t);
          try (apply (Eats_ret tt); reflexivity); intros d o o' a _ _ _ E; discriminate. }
      intros _ b ->.
      apply (Eats_map VSeq (fun d => de_items (de_bin c G d n) k t len)
        (fun l bs => exists l2, l = [] ++ l2 /\ length l2 = N.to_nat len /\ wire_items G t l2 bs)).
      + eapply Eats_ext; [intros d o; unfold de_items; rewrite iter_N_nat; reflexivity|].
        apply (Eats_iter t (fun d => de_bin c G d n)); auto.
      + intros l bs (l2 & -> & Hl & Hw). change ([] ++ l2) with l2. change ([] ++ bs) with bs. apply w_seq; [|assumption].
        replace len with (lenN l2) by (unfold lenN; lia). apply is_len_le.
    - cbn [de_bin]. apply (Eats_map VSeq (fun d => de_rep (de_bin c G d n) n0 t) (wire_items G t)).
      + apply (Eats_rep (fun d => de_bin c G d n)); auto.
      + intros l bs H. constructor; assumption.
    - cbn [de_bin]. apply (Eats_map VSeq (fun d => de_tys (de_bin c G d n) ts) (wire_parts G ts)).
      + apply (Eats_tys (fun d => de_bin c G d n)); auto. apply ty_all_list in Ht.
        eapply Forall_impl; [|exact Ht]. intros; apply IH; assumption.
      + intros l bs H. constructor; assumption.
    - cbn [de_bin]. intros d o o' a Hf Hb Ho E. constructor. eapply IH; eauto.
    - cbn [de_bin]. apply (Eats_map (p_from p) (fun d => de_bin c G d n t) (wire G t)); auto.
      intros a bs H. constructor. rewrite Hn. assumption.
    - eapply Eats_ext; [intros d o; rewrite de_bin_named; reflexivity|].
      assert (HFs : forall fs, Forall (field_all canon_node) fs -> Forall (fun f => Eats (fun d => de_bin c G d n (f_ty f)) (wire G (f_ty f))) fs).
      { intros fs H. eapply Forall_impl; [|exact H]. intros f Hf. apply IH. exact Hf. }
      assert (HTs : forall ts, Forall (ty_all canon_node) ts -> Forall (fun t => Eats (fun d => de_bin c G d n t) (wire G t)) ts).
      { intros ts H. eapply Forall_impl; [|exact H]. intros; apply IH; assumption. }
      destruct (nth_error G n0) as [dc|] eqn:E; [|intros d o o' a _ _ _ E1; discriminate].
      assert (Hd := env_all_nth _ _ _ _ HG E).
      assert (Hlaw : lawful_decl dc) by (rewrite Forall_forall in HD; apply HD; eapply nth_error_In; eauto).
      destruct dc as [dflt nl fs|tr fs|vs|p t']; simpl in Hd.
      + apply (Eats_map VSeq (fun d => de_fields (de_bin c G d n) true fs) (wire_fields G fs)).
        * apply (Eats_fields (fun d => de_bin c G d n)); auto.
        * intros l bs H. eapply w_struct; eauto.
      + destruct (existsb f_skip fs); [intros d o o' a _ _ _ E1; discriminate|].
        apply (Eats_map VSeq (fun d => de_fields (de_bin c G d n) true fs) (wire_fields G fs)).
        * apply (Eats_fields (fun d => de_bin c G d n)); auto.
        * intros l bs H. eapply w_tstruct; eauto.
      + eapply (Eats_bind (fun d => rd_fixed c d 2) (fun d b => let tag := of_le b in _)).
        * apply Local_fixed; [assumption|lia].
        * intro b. cbv beta zeta. destruct (nth_error vs (N.to_nat (of_le b))) as [vr|]; [|apply Local_fail; discriminate].
          destruct (v_body vr) as [|ts|fs].
          -- apply Local_ret.
          -- apply (Local_map c (VEnum (of_le b)) (fun d => de_tys (de_bin c G d n) ts)). apply (Local_tys c (fun d => de_bin c G d n)); assumption.
          -- apply (Local_map c (VEnum (of_le b)) (fun d => de_fields (de_bin c G d n) false fs)). apply (Local_fields c (fun d => de_bin c G d n)); assumption.
        * apply (Eats_fixed 2); lia.
        * cbv beta zeta. intros b b1 (-> & Hl & Hb).
          assert (Htag : is_le 2 (Z.of_N (of_le b1)) b1) by (apply bytes_le; [assumption|unfold lenN in Hl; lia]).
          destruct (nth_error vs (N.to_nat (of_le b1))) as [vr|] eqn:Ev; [|intros d o o' a _ _ _ E1; discriminate].
          assert (Hv := decl_all_variant _ vs _ vr Hd Ev).
          destruct (v_body vr) as [|ts|fs] eqn:Eb.
          -- apply (Eats_ret (VEnum (of_le b1) [])). rewrite app_nil_r. eapply w_unitvar; eauto.
          -- apply (Eats_map (VEnum (of_le b1)) (fun d => de_tys (de_bin c G d n) ts) (wire_parts G ts)).
             ++ apply (Eats_tys (fun d => de_bin c G d n)); auto.
             ++ intros l bs H. eapply w_tupvar; eauto.
          -- apply (Eats_map (VEnum (of_le b1)) (fun d => de_fields (de_bin c G d n) false fs) (wire_parts G (map f_ty fs))).
             ++ apply (Eats_varfields (fun d => de_bin c G d n)); auto.
             ++ intros l bs H. eapply w_structvar; eauto.
      + apply (Eats_map (p_from p) (fun d => de_bin c G d n t') (wire G t')); auto.
        intros a bs H. eapply w_dproxy; eauto. rewrite Hlaw. assumption.
  Qed.
End Canon.
