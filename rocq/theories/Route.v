(** Portable types: their values are values of all three formats. *)
From Verif Require Import Base Utf8 Types TyAll BinModel BinFuel BinMore Text TextModel SpecText SpecValid SpecRoute.
Local Open Scope N_scope.

Lemma solid_none G t : solid G t -> forall fm n v, looks_none G fm n t v = false.
Proof.
  induction 1 as [t Ht|t _ IH|i a b fs Hi|i fs Hi|i f Hi _ IH|i vs Hi Hv]; intros fm [|n] v; try reflexivity.
  - destruct t; try contradiction; reflexivity.
  - cbn [looks_none]. apply IH.
  - cbn [looks_none]. rewrite Hi. destruct v; reflexivity.
  - cbn [looks_none]. rewrite Hi. destruct v; reflexivity.
  - cbn [looks_none]. rewrite Hi. destruct v as [| | | | | | |[|w [|]]| | | |]; try reflexivity. destruct fm; [apply IH | reflexivity].
  - cbn [looks_none]. rewrite Hi. destruct v; try reflexivity; destruct fm; try reflexivity.
    destruct (nth_error vs (N.to_nat tag)) as [vr|] eqn:E; [|reflexivity].
    apply nth_error_In in E. rewrite Forall_forall in Hv. apply Hv in E. apply not_true_is_false. intro Hs. apply E. apply str_eqb_eq in Hs. exact Hs.
Qed.

Lemma ff_sub G t v t' w : (forall a u, part G t' w a u -> part G t v a u) -> finite_floats G t v -> finite_floats G t' w.
Proof. intros H Hf b. destruct (Hf b) as [H1 H2]. split; intro Hp; [apply H1 | apply H2]; apply H; exact Hp. Qed.
Lemma im_sub c G t v t' w : (forall a u, part G t' w a u -> part G t v a u) -> in_memory c G t v -> in_memory c G t' w.
Proof. intros H Hm a u Hp. exact (Hm a u (H a u Hp)). Qed.

Lemma f2_nth {A B} (R : A -> B -> Prop) (Q : A -> B -> Prop) (la : list A) (lb : list B) : Forall2 R la lb ->
  (forall i a b, nth_error la i = Some a -> nth_error lb i = Some b -> R a b -> Q a b) -> Forall2 Q la lb.
Proof.
  induction 1 as [|a b la lb Hab _ IH]; intro H; [constructor|]. constructor.
  - apply (H 0%nat); auto.
  - apply IH. intros i x y Hx Hy. exact (H (S i) x y Hx Hy).
Qed.

Section Portable.
  Variables (c : cfg) (G : env).
  Hypothesis HG : env_all (portable_node G) G.
  Hypothesis HD : Forall portable_decl G.

  Lemma decl_nodes i d : nth_error G i = Some d -> decl_all (portable_node G) d /\ portable_decl d.
  Proof.
    intro E. split; [exact (env_all_nth _ _ _ _ HG E)|]. apply nth_error_In in E. rewrite Forall_forall in HD. apply HD. exact E.
  Qed.
  Lemma fields_nodes fs i f : Forall (field_all (portable_node G)) fs -> nth_error fs i = Some f -> ty_all (portable_node G) (f_ty f).
  Proof. intros H E. apply nth_error_In in E. rewrite Forall_forall in H. exact (H _ E). Qed.
  Lemma port_wf f : portable_field f -> ty_all (portable_node G) (f_ty f) -> wf_field f.
  Proof.
    intros (Hp & Ho & _) Ht. unfold wf_field. apply ty_all_node in Ht.
    destruct (f_ty f) eqn:E; try exact Hp; try (split; [exact Hp|]; apply not_true_is_false; intro Hi; destruct (Ho Hi) as [[t' Ht'] _]; discriminate Ht').
    contradiction Ht.
  Qed.
  Lemma good_both fm s : portable_name s -> good_name fm s.
  Proof. intros [H1 H2]. destruct fm; assumption. Qed.

  Variable fm : fmt.
  (** Value of a field. *)
  Lemma port_field (n : nat) f v null : portable_field f -> ty_all (portable_node G) (f_ty f) ->
    (if f_skip f then v = f_tydefault f else fits px_inverse c G n (f_ty f) v) ->
    (f_skip f = false -> forall t w, ty_all (portable_node G) t -> (exists m, (m <= n)%nat /\ fits px_inverse c G m t w) -> part G (f_ty f) v t w -> text_value c G fm n t w) ->
    field_value (text_value c G fm n) (looks_none G fm n) null f v.
  Proof.
    intros Hp Ht Hv Hw. split; [apply port_wf; assumption|]. pose proof Hp as (Hpx & Ho & Hs).
    destruct (f_skip f) eqn:Es; [unfold omitted_value; rewrite Hs by reflexivity; exact Hv|].
    specialize (Hw eq_refl).
    assert (Hwhole : text_value c G fm n (f_ty f) v) by (apply Hw; [exact Ht | exists n; auto | constructor]).
    destruct (f_isopt f) eqn:Eo; [|exact Hwhole].
    destruct (Ho eq_refl) as [[t Et] Hd]. rewrite Et in *. cbn [ty_all portable_node] in Ht. destruct Ht as [Hn Ht].
    destruct n as [|n]; [contradiction|]. destruct v as [| | | | | |w| | | | |]; cbn [fits] in Hv; try contradiction.
    - right. apply Hd. reflexivity.
    - split; [|apply solid_none; exact Hn]. apply Hw; [exact Ht | exists n; split; [lia | exact Hv] | apply pa_some; constructor].
  Qed.
End Portable.

Section Values.
  Variables (c : cfg) (G : env) (fm : fmt).
  Hypothesis HG : env_all (portable_node G) G.
  Hypothesis HD : Forall portable_decl G.

  Lemma port_text n : forall t v, ty_all (portable_node G) t -> fits px_inverse c G n t v -> finite_floats G t v ->
    text_value c G fm n t v.
  Proof.
    induction n as [n IHn] using lt_wf_ind. intros t v Ht Hv Hf. destruct n as [|n]; [contradiction|].
    assert (IH : forall t v, ty_all (portable_node G) t -> fits px_inverse c G n t v -> finite_floats G t v -> text_value c G fm n t v) by (intros; apply IHn; auto).
    assert (IHle : forall t0 w f v0, (forall a u, part G (f_ty f) v0 a u -> part G t v a u) -> ty_all (portable_node G) t0 -> (exists m, (m <= n)%nat /\ fits px_inverse c G m t0 w) -> part G (f_ty f) v0 t0 w -> text_value c G fm n t0 w).
    { intros t0 w f v0 Hsub Ht0 (m & Hm & Hw) Hp. apply IH; [exact Ht0 | apply (fits_mono _ c G m); auto using px_inverse_mono |].
      apply (ff_sub G t v); [|exact Hf]. intros a u Hu. apply Hsub. revert Hu. clear - Hp. induction Hp; intro Hu; [exact Hu|..]; try (econstructor; eauto; fail). }
    destruct (match t with TNamed _ => true | _ => false end) eqn:Enm.
    { destruct t; try discriminate. cbn [ty_all portable_node] in Ht; destruct Ht as [Hnode Ht]; destruct v; cbn [fits] in Hv; cbn [text_value];
          destruct (nth_error G n0) as [[dflt cnull fs|tr fs|vs|p t]|] eqn:EG; try contradiction; destruct (decl_nodes G HG HD _ _ EG) as [Hall Hdecl]; cbn [decl_all portable_decl] in Hall, Hdecl; try contradiction.
      - destruct Hdecl as (Hnd & Hnames & Hfields). split; [exact Hnd|]. split.
        + eapply Forall_impl; [|exact Hnames]. intros f Hn Hs. apply good_both. apply Hn. exact Hs.
        + eapply f2_nth; [exact Hv|]. intros i f w Hfi Hwi Hw. rewrite Forall_forall in Hfields. pose proof (Hfields _ (nth_error_In _ _ Hfi)) as Hp.
          pose proof (fields_nodes G fs i f Hall Hfi) as Htf. apply (port_field c G); [exact Hp | exact Htf | exact Hw|].
          intros Hs t u Htu Hm Hpart. apply (IHle t u f w); [|exact Htu | exact Hm | exact Hpart]. intros a x. apply (pa_struct G n0 dflt cnull fs l i); assumption.
      - destruct Hdecl as (Hne & Hsk & Hfields). destruct Hv as [_ Hv]. split; [|auto]. eapply f2_nth; [exact Hv|]. intros i f w Hfi Hwi Hw. rewrite Forall_forall in Hfields. pose proof (Hfields _ (nth_error_In _ _ Hfi)) as Hp.
        split; [apply Hp|]. pose proof (fields_nodes G fs i f Hall Hfi) as Htf.
        assert (Es : f_skip f = false). { apply not_true_is_false. intro E. apply not_true_iff_false in Hsk. apply Hsk. apply existsb_exists. exists f. split; [eapply nth_error_In; exact Hfi | exact E]. }
        cbv beta in Hw; rewrite Es in Hw. apply (IHle _ _ f w); [|exact Htf | exists n; auto | constructor]. intros a x. apply (pa_tstruct G n0 tr fs l i); assumption.
      - destruct Hdecl as (_ & Hnd1 & Hnd2 & Hvs). destruct Hv as [_ Hv]. split.
        { destruct fm; [exact Hnd1|]. erewrite map_ext; [exact Hnd2|]. intro a. unfold key_of_variant. reflexivity. }
        destruct (nth_error vs (N.to_nat tag)) as [vr|] eqn:Ev; [|contradiction]. rewrite Forall_forall in Hvs, Hall.
        destruct (Hvs _ (nth_error_In _ _ Ev)) as (Hn1 & Hn2 & Hb). pose proof (Hall _ (nth_error_In _ _ Ev)) as Hall1.
        split. { destruct fm; [exact Hn1 | exact Hn2]. }
        destruct (v_body vr) as [|ts|fs] eqn:Eb; [exact Hv|..].
        + split; [exact Hb|]. eapply f2_nth; [exact Hv|]. intros i t w Hti Hwi Hw. apply IH; [|exact Hw|].
          * rewrite Forall_forall in Hall1. exact (Hall1 _ (nth_error_In _ _ Hti)).
          * apply (ff_sub G _ _ t w) in Hf; [exact Hf|]. intros a u. apply (pa_tvariant G n0 vs tag vr ts l i); assumption.
        + destruct Hb as [Hnd Hfs]. split; [exact Hnd|]. split.
          * eapply Forall_impl; [|exact Hfs]. intros f (H1 & H2 & H3 & _). split; [exact H1|]. split; [exact H2|]. apply good_both. exact H3.
          * eapply f2_nth; [exact Hv|]. intros i f w Hfi Hwi Hw. rewrite Forall_forall in Hfs. destruct (Hfs _ (nth_error_In _ _ Hfi)) as (Hs & _ & _ & Hp).
            pose proof (fields_nodes G fs i f Hall1 Hfi) as Htf. apply (port_field c G); [exact Hp | exact Htf | rewrite Hs; exact Hw|].
            intros _ t u Htu Hm Hpart. apply (IHle t u f w); [|exact Htu | exact Hm | exact Hpart]. intros a x. apply (pa_svariant G n0 vs tag vr fs l i); assumption. }
    destruct t; try discriminate Enm; cbn [ty_all portable_node] in Ht; destruct Ht as [Hnode Ht]; destruct v; cbn [fits] in Hv; try contradiction; cbn [text_value]; auto.
    - tauto.
    - apply (Hf bits). constructor.
    - apply (Hf bits). constructor.
    - apply Hv.
    - split; [|apply solid_none; exact Hnode]. apply IH; [exact Ht | exact Hv |]. apply (ff_sub G _ _ _ _ (pa_some G t v) Hf).
    - destruct Hv as (H1 & H2 & _). split; [|exact H2]. rewrite Forall_forall in H1 |- *. intros w Hw. apply IH; [exact Ht | apply H1; exact Hw|].
      apply (ff_sub G _ _ t w) in Hf; [exact Hf|]. intros a u. apply pa_item. exact Hw.
    - destruct Hv as (H1 & H2 & _). destruct Ht as [Ht1 Ht2]. split; [|exact H2]. rewrite Forall_forall in H1 |- *. intros [a b] Hw. destruct (H1 _ Hw) as [Ha Hb]. cbn [fst snd] in *. split.
      + apply IH; [exact Ht1 | exact Ha|]. apply (ff_sub G _ _ t1 a) in Hf; [exact Hf|]. intros x u. apply (pa_key G k t1 t2 l a b). exact Hw.
      + apply IH; [exact Ht2 | exact Hb|]. apply (ff_sub G _ _ t2 b) in Hf; [exact Hf|]. intros x u. apply (pa_value G k t1 t2 l a b). exact Hw.
    - destruct Hv as (H1 & H2). split; [exact H1|]. split; [|intro E; contradiction (Hnode E)]. rewrite Forall_forall in H2 |- *. intros w Hw. apply IH; [exact Ht | apply H2; exact Hw|].
      apply (ff_sub G _ _ t w) in Hf; [exact Hf|]. intros a u. apply pa_slot. exact Hw.
    - split; [exact Hnode|]. apply ty_all_list in Ht. eapply f2_nth; [exact Hv|]. intros i t w Hti Hwi Hw. apply IH; [|exact Hw|].
      + apply nth_error_In in Hti. rewrite Forall_forall in Ht. apply Ht. exact Hti.
      + apply (ff_sub G _ _ t w) in Hf; [exact Hf|]. intros a u. apply (pa_tuple G ts l i); assumption.
    - apply IH; [exact Ht | exact Hv |]. apply (ff_sub G _ _ _ _ (pa_box G t _) Hf).
    - apply IH; [exact Ht | exact Hv |]. apply (ff_sub G _ _ _ _ (pa_box G t _) Hf).
    - apply IH; [exact Ht | exact Hv |]. apply (ff_sub G _ _ _ _ (pa_box G t _) Hf).
    - apply IH; [exact Ht | exact Hv |]. apply (ff_sub G _ _ _ _ (pa_box G t _) Hf).
    - apply IH; [exact Ht | exact Hv |]. apply (ff_sub G _ _ _ _ (pa_box G t _) Hf).
    - apply IH; [exact Ht | exact Hv |]. apply (ff_sub G _ _ _ _ (pa_box G t _) Hf).
    - apply IH; [exact Ht | exact Hv |]. apply (ff_sub G _ _ _ _ (pa_box G t _) Hf).
    - apply IH; [exact Ht | exact Hv |]. apply (ff_sub G _ _ _ _ (pa_box G t _) Hf).
    - apply IH; [exact Ht | exact Hv |]. apply (ff_sub G _ _ _ _ (pa_box G t _) Hf).
    - apply IH; [exact Ht | exact Hv |]. apply (ff_sub G _ _ _ _ (pa_box G t _) Hf).
    - apply IH; [exact Ht | exact Hv |]. apply (ff_sub G _ _ _ _ (pa_box G t _) Hf).
    - apply IH; [exact Ht | exact Hv |]. apply (ff_sub G _ _ _ _ (pa_box G t _) Hf).
  Qed.
End Values.

Lemma common {A} (R : nat -> A -> Prop) l :
  (forall n m a, (n <= m)%nat -> R n a -> R m a) -> Forall (fun a => exists n, R n a) l -> exists n, Forall (R n) l.
Proof.
  intros Hm. induction 1 as [|a l [n Hn] Hl [m Hl2]]; [exists 0%nat; constructor|].
  exists (n + m)%nat. constructor; [eapply Hm; [|exact Hn]; lia|].
  eapply Forall_impl; [|exact Hl2]. intros b. apply Hm. lia.
Qed.

Section Memory.
  Variables (c : cfg) (G : env).
  Hypothesis HG : env_all (portable_node G) G.
  Hypothesis HD : Forall portable_decl G.
  Notation has n := (fits px_inverse c G n).

  Definition dflt_at (n : nat) (dflt : bool) (f : field) : Prop :=
    f_skip f = false -> f_default f <> None \/ f_isopt f = true \/ dflt = true -> has n (f_ty f) (omitted_value f).
  Definition vdflt_at (n : nat) (v : variant) : Prop := match v_body v with BStruct fs => Forall (dflt_at n false) fs | _ => True end.
  Definition ddflt_at (n : nat) (d : decl) : Prop :=
    match d with
    | DStruct dflt _ fs => Forall (dflt_at n dflt) fs
    | DEnum vs => Forall (vdflt_at n) vs
    | _ => True
    end.
  Lemma dflt_mono dflt n m f : (n <= m)%nat -> dflt_at n dflt f -> dflt_at m dflt f.
  Proof. intros Hle H Hs Ho. apply (fits_mono _ c G n); auto using px_inverse_mono. Qed.
  Lemma vdflt_mono n m v : (n <= m)%nat -> vdflt_at n v -> vdflt_at m v.
  Proof. unfold vdflt_at. destruct (v_body v); auto. intros Hle. apply Forall_impl. intro f. apply dflt_mono. exact Hle. Qed.
  Lemma ddflt_mono n m d : (n <= m)%nat -> ddflt_at n d -> ddflt_at m d.
  Proof.
    intros Hle. destruct d; cbn; auto; apply Forall_impl; intro a; [apply dflt_mono | apply vdflt_mono]; exact Hle.
  Qed.
  Lemma fields_height dflt fs : Forall (default_ok c G dflt) fs -> exists n, Forall (dflt_at n dflt) fs.
  Proof.
    intro H. apply common; [intros; eapply dflt_mono; eauto|]. eapply Forall_impl; [|exact H]. intros f Hf.
    unfold dflt_at. destruct (f_skip f) eqn:Es; [exists O; discriminate|].
    assert (Hdec : (f_default f <> None \/ f_isopt f = true \/ dflt = true) \/ ~ (f_default f <> None \/ f_isopt f = true \/ dflt = true)).
    { destruct (f_default f); [left; left; discriminate|]. destruct (f_isopt f); [left; auto|]. destruct dflt; [left; auto|]. right. intros [?|[?|?]]; congruence. }
    destruct Hdec as [Hy|Hno]; [|exists O; intros _ Hy; contradiction]. destruct (Hf Es Hy) as [n Hn]. exists n. auto.
  Qed.
  Lemma defaults_height : defaults_ok c G -> exists n, Forall (ddflt_at n) G.
  Proof.
    intro H. apply common; [intros; eapply ddflt_mono; eauto|]. eapply Forall_impl; [|exact H]. intros [dflt nl fs|tr fs|vs|p t] Hd; cbn [ddflt_at]; try (exists O; exact I).
    - apply fields_height. exact Hd.
    - apply common; [intros; eapply vdflt_mono; eauto|]. eapply Forall_impl; [|exact Hd]. intros v. unfold vdflt_at. destruct (v_body v); try (intros _; exists O; exact I). apply fields_height.
  Qed.

  Variable N0 : nat.
  Hypothesis HN : Forall (ddflt_at N0) G.

  Lemma valid_field n dflt f v : portable_field f -> dflt_at N0 dflt f ->
    (f_skip f = false -> text_valid c G n (f_ty f) v -> has (n + N0)%nat (f_ty f) v) ->
    field_valid (text_valid c G n) dflt f v -> if f_skip f then v = f_tydefault f else has (n + N0)%nat (f_ty f) v.
  Proof.
    intros (Hp & Ho & Hs) Hd IH H. unfold field_valid in H. destruct (f_skip f) eqn:Es.
    - subst v. unfold omitted_value. rewrite Hs by reflexivity. reflexivity.
    - rewrite Hp, andb_false_r in H. destruct H as [[-> Hm]|H]; [|apply IH; auto].
      apply (fits_mono _ c G N0); [apply px_inverse_mono | lia | apply Hd; assumption].
  Qed.

  Lemma port_fits n : forall t v, ty_all (portable_node G) t -> text_valid c G n t v -> in_memory c G t v -> has (n + N0)%nat t v.
  Proof.
    induction n as [|n IH]; intros t v Ht Hv Hm; [contradiction|]. cbn [Nat.add].
    assert (Hsub : forall t' w, ty_all (portable_node G) t' -> (forall a u, part G t' w a u -> part G t v a u) -> text_valid c G n t' w -> has (n + N0)%nat t' w).
    { intros t' w Ht' Hp Hw. apply IH; [exact Ht' | exact Hw | apply (im_sub c G t v); assumption]. }
    pose proof (Hm t v (pa_here G t v)) as Hhere.
    destruct (match t with TNamed _ => true | _ => false end) eqn:Enm.
    { destruct t as [| | | | | | | | | | | | | | |n0]; try discriminate. cbn [text_valid] in Hv. cbn [fits].
      destruct v; destruct (nth_error G n0) as [[dflt cnull fs|tr fs|vs|p t]|] eqn:EG; try contradiction; destruct (decl_nodes G HG HD _ _ EG) as [Hall Hdecl]; cbn [decl_all portable_decl] in Hall, Hdecl; try contradiction;
        pose proof (proj1 (Forall_forall _ _) HN _ (nth_error_In _ _ EG)) as Hdf; cbn [ddflt_at] in Hdf.
      - destruct Hdecl as (_ & _ & Hfields). eapply f2_nth; [exact Hv|]. intros i f w Hfi Hwi Hw. rewrite Forall_forall in Hfields, Hdf. apply (valid_field n dflt).
        + apply Hfields. eapply nth_error_In. exact Hfi.
        + apply Hdf. eapply nth_error_In. exact Hfi.
        + intros Hs. apply Hsub; [exact (fields_nodes G fs i f Hall Hfi)|]. intros a x. apply (pa_struct G n0 dflt cnull fs l i); assumption.
        + exact Hw.
      - destruct Hdecl as (Hne & Hsk & Hfields). split; [exact Hsk|]. eapply f2_nth; [exact Hv|]. intros i f w Hfi Hwi Hw.
        assert (Es : f_skip f = false). { apply not_true_is_false. intro E. apply not_true_iff_false in Hsk. apply Hsk. apply existsb_exists. exists f. split; [eapply nth_error_In; exact Hfi | exact E]. }
        cbv beta. rewrite Es. apply Hsub; [exact (fields_nodes G fs i f Hall Hfi)| |exact Hw]. intros a x. apply (pa_tstruct G n0 tr fs l i); assumption.
      - destruct Hdecl as (Hlen & _ & _ & Hvs). destruct (nth_error vs (N.to_nat tag)) as [vr|] eqn:Ev; [|contradiction].
        split. { assert (Hlt : (N.to_nat tag < length vs)%nat) by (apply nth_error_Some; congruence). unfold lenN in Hlen. lia. }
        rewrite Forall_forall in Hvs, Hall, Hdf. destruct (Hvs _ (nth_error_In _ _ Ev)) as (_ & _ & Hb). pose proof (Hall _ (nth_error_In _ _ Ev)) as Hall1. pose proof (Hdf _ (nth_error_In _ _ Ev)) as Hdf1. unfold vdflt_at in Hdf1.
        destruct (v_body vr) as [|ts|fs] eqn:Eb; [exact Hv|..].
        + eapply f2_nth; [exact Hv|]. intros i t w Hti Hwi Hw. apply Hsub; [|intros a u; apply (pa_tvariant G n0 vs tag vr ts l i); assumption | exact Hw].
          rewrite Forall_forall in Hall1. exact (Hall1 _ (nth_error_In _ _ Hti)).
        + destruct Hb as [_ Hfs]. eapply f2_nth; [exact Hv|]. intros i f w Hfi Hwi Hw. rewrite Forall_forall in Hfs, Hdf1. destruct (Hfs _ (nth_error_In _ _ Hfi)) as (Hs & _ & _ & Hp).
          assert (HV := valid_field n false f w Hp (Hdf1 _ (nth_error_In _ _ Hfi))). rewrite Hs in HV. cbv beta. apply HV; [|exact Hw].
          intros _. apply Hsub; [exact (fields_nodes G fs i f Hall1 Hfi)|]. intros a x. apply (pa_svariant G n0 vs tag vr fs l i); assumption. }
    destruct t; try discriminate Enm; clear Enm; cbn [ty_all portable_node] in Ht; destruct Ht as [Hnode Ht]; destruct v; cbn [text_valid] in Hv; try contradiction; cbn [fits]; auto;
      try (apply Hsub; [exact Ht | apply (pa_box G t _) | exact Hv]; fail).
    - apply Hsub; [exact Ht | apply (pa_some G t v) | exact Hv].
    - destruct Hv as (H1 & H2). split; [|split; [exact H2|]; split; [apply Hhere | destruct k; auto; apply Hhere; auto]].
      rewrite Forall_forall in H1 |- *. intros w Hw. apply Hsub; [exact Ht | intros a u; apply pa_item; exact Hw | apply H1; exact Hw].
    - destruct Hv as (H1 & H2). destruct Ht as [Ht1 Ht2]. split; [|split; [exact H2|]; split; [apply Hhere | destruct k; auto; apply Hhere; auto]].
      rewrite Forall_forall in H1 |- *. intros [a b] Hw. destruct (H1 _ Hw) as [Ha Hb]. cbn [fst snd] in *. split.
      + apply Hsub; [exact Ht1 | intros x u; apply (pa_key G k t1 t2 l a b); exact Hw | exact Ha].
      + apply Hsub; [exact Ht2 | intros x u; apply (pa_value G k t1 t2 l a b); exact Hw | exact Hb].
    - destruct Hv as (H1 & H2). split; [exact H1|]. rewrite Forall_forall in H2 |- *. intros w Hw. apply Hsub; [exact Ht | intros a u; apply pa_slot; exact Hw | apply H2; exact Hw].
    - apply ty_all_list in Ht. eapply f2_nth; [exact Hv|]. intros i t w Hti Hwi Hw. apply Hsub; [| intros a u; apply (pa_tuple G ts l i); assumption | exact Hw].
      apply nth_error_In in Hti. rewrite Forall_forall in Ht. apply Ht. exact Hti.
  Qed.
End Memory.
