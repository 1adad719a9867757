(** A value read from a text can be written and read again. *)
From Verif Require Import Base Utf8 Types TyAll BinModel BinRead Text TextModel TextSim TextToks SpecText SpecValid TextObj TextValid SpecStable.
Local Open Scope N_scope.

(** ** Heights do not matter *)
Section Mono.
  Variables (c : cfg) (G : env) (fm : fmt).
  Lemma Forall_imp2 {A} (P Q : A -> Prop) l : (forall a, P a -> Q a) -> Forall P l -> Forall Q l.
  Proof. intros H Hl. induction Hl; constructor; auto. Qed.
  Lemma Forall2_imp2 {A B} (P Q : A -> B -> Prop) l m : (forall a b, P a b -> Q a b) -> Forall2 P l m -> Forall2 Q l m.
  Proof. intros H Hl. induction Hl; constructor; auto. Qed.
  Lemma field_value_imp (fit fit' : ty -> val -> Prop) (none none' : ty -> val -> bool) null f v :
    (forall t v, fit t v -> fit' t v /\ none' t v = none t v) -> field_value fit none null f v -> field_value fit' none' null f v.
  Proof.
    intros H [H1 H2]. split; [exact H1|]. destruct (f_skip f); [exact H2|]. destruct (f_isopt f); [|apply H; exact H2].
    destruct v; try exact H2. destruct (f_ty f); try (apply H; exact H2). destruct H2 as [H2 H3]. destruct (H _ _ H2) as [H4 H5]. split; [exact H4 | congruence].
  Qed.
  Lemma text_value_S n : forall t v, text_value c G fm n t v -> text_value c G fm (S n) t v /\ looks_none G fm (S n) t v = looks_none G fm n t v.
  Proof.
    induction n as [|n IH]; [contradiction|]. intros t v H.
    assert (IH1 : forall t v, text_value c G fm n t v -> text_value c G fm (S n) t v) by (intros; apply IH; assumption).
    remember (S n) as n1 eqn:En. rewrite En in H. replace (looks_none G fm n1 t v) with (looks_none G fm (S n) t v) by (rewrite En; reflexivity). clear En.
    destruct t as [k| | | | | |t|k t|k tk tv|m t|ts|t| | |p t|i]; cbn [text_value] in H; cbn [text_value];
      try (split; [exact H | reflexivity]).
    - destruct v; try contradiction; [split; [exact I|]; reflexivity|]. destruct H as [H1 H2]. destruct (IH _ _ H1) as [H3 H4].
      split; [split; [exact H3 | congruence]|]. cbn [looks_none]. exact H4.
    - split; [|reflexivity]. destruct v; try contradiction. destruct H as [H1 H2]. split; [|exact H2]. eapply Forall_imp2; [|exact H1]. apply IH1.
    - split; [|reflexivity]. destruct v; try contradiction. destruct H as [H1 H2]. split; [|exact H2]. eapply Forall_imp2; [|exact H1]. intros e [? ?]. split; apply IH1; assumption.
    - split; [|reflexivity]. destruct v; try contradiction. destruct H as [H0 [H1 H2]]. split; [exact H0|]. split; [|exact H2]. eapply Forall_imp2; [|exact H1]. apply IH1.
    - split; [|reflexivity]. destruct v; try contradiction. destruct H as [H0 H1]. split; [exact H0|]. eapply Forall2_imp2; [|exact H1]. apply IH1.
    - destruct (IH _ _ H) as [H1 H2]. split; [exact H1|]. cbn [looks_none]. exact H2.
    - destruct H as (H0 & H1 & H2). destruct (IH _ _ H1) as [H3 H4]. split; [auto|]. cbn [looks_none]. exact H4.
    - destruct (nth_error G i) as [[dflt cnull fs|tr fs|vs|p t]|] eqn:Ei; try contradiction.
      + destruct v; try contradiction. destruct H as (H0 & H1 & H2). split; [|cbn [looks_none]; rewrite Ei; reflexivity].
        split; [exact H0|]. split; [exact H1|]. eapply Forall2_imp2; [|exact H2]. intros f v Hv. eapply field_value_imp; [|exact Hv]. exact IH.
      + destruct v; try contradiction. destruct H as (H1 & H2). split.
        * split; [|exact H2]. eapply Forall2_imp2; [|exact H1]. intros f v [? ?]. split; [assumption | apply IH1; assumption].
        * cbn [looks_none]. rewrite Ei. destruct tr; [|reflexivity]. destruct fs as [|f [|]]; [reflexivity| |reflexivity].
          destruct l as [|w [|]]; [reflexivity| |reflexivity]. destruct fm; [|reflexivity]. inversion H1 as [|? ? ? ? [_ Hw] _]; subst. apply IH. exact Hw.
      + destruct v; try contradiction. destruct H as (H0 & H1). split; [|cbn [looks_none]; rewrite Ei; reflexivity]. split; [exact H0|].
        destruct (nth_error vs (N.to_nat tag)) as [vr|]; [|contradiction]. destruct H1 as [H1 H2]. split; [exact H1|]. destruct (v_body vr) as [|ts|fs]; [exact H2| |].
        * destruct H2 as [H2 H3]. split; [exact H2|]. eapply Forall2_imp2; [|exact H3]. apply IH1.
        * destruct H2 as (H2 & H3 & H4). split; [exact H2|]. split; [exact H3|]. eapply Forall2_imp2; [|exact H4]. intros f v Hv. eapply field_value_imp; [|exact Hv]. exact IH.
      + destruct H as (H0 & H1 & H2). destruct (IH _ _ H1) as [H3 H4]. split; [auto|]. cbn [looks_none]. rewrite Ei. destruct fm; [exact H4 | reflexivity].
  Qed.
  Lemma text_value_le n m t v : (n <= m)%nat -> text_value c G fm n t v -> text_value c G fm m t v /\ looks_none G fm m t v = looks_none G fm n t v.
  Proof.
    intros H Hv. induction H as [|m H [IH1 IH2]]; [auto|]. destruct (text_value_S m t v IH1) as [H1 H2]. split; [exact H1 | congruence].
  Qed.
  Lemma heights {A} (P : nat -> A -> Prop) l : (forall n m a, (n <= m)%nat -> P n a -> P m a) -> Forall (fun a => exists n, P n a) l -> exists n, Forall (P n) l.
  Proof.
    intros H Hl. induction Hl as [|a l [n Hn] _ [m Hm]]; [exists O; constructor|]. exists (Nat.max n m). constructor; [apply (H n); [lia | exact Hn]|].
    eapply Forall_imp2; [|exact Hm]. intros b Hb. apply (H m); [lia | exact Hb].
  Qed.
  Lemma heights2 {A B} (P : nat -> A -> B -> Prop) l k : (forall n m a b, (n <= m)%nat -> P n a b -> P m a b) -> Forall2 (fun a b => exists n, P n a b) l k -> exists n, Forall2 (P n) l k.
  Proof.
    intros H Hl. induction Hl as [|a b l k [n Hn] _ [m Hm]]; [exists O; constructor|]. exists (Nat.max n m). constructor; [apply (H n); [lia | exact Hn]|].
    eapply Forall2_imp2; [|exact Hm]. intros x y Hb. apply (H m); [lia | exact Hb].
  Qed.
End Mono.

Section Stable.
  Variable F : flt.
  Hypothesis HI : flt_ints F.
  Variable text : str.
  Hypothesis Htext : Forall scalar text.
  Variable c : cfg.
  Variable G : env.
  Variable fm : fmt.
  Hypothesis HG : stable_env F c G fm text.
  Local Notation L := (text_lexer F fm).
  Local Notation Gives := (Gives F text).
  Local Notation tval n := (text_value c G fm n).
  Definition sok (t : ty) : Prop := ty_all (stable_node F c text) t.

  Lemma pmap_inv {A B} (g : A -> B) (m : @pm dst A) s s' b : pmap g m s = (s', Ok b) -> exists a, m s = (s', Ok a) /\ b = g a.
  Proof.
    unfold pmap, pbind. destruct (m s) as [s1 [a|e|p|]]; intro H; try discriminate. injection H as -> <-. eauto.
  Qed.

  (** A value read where the text does not have the absent option. *)
  Lemma not_none n : forall t s s' v, sok t -> at_none L fm s = false -> de_text L F c G fm n t s = (s', Ok v) -> forall m, looks_none G fm m t v = false.
  Proof.
    induction n as [|n IH]; intros t s s' v Ht Hs E m; cbn [de_text] in E; [discriminate|]. destruct m as [|m]; [reflexivity|].
    destruct t as [k| | | | | |t|k t|k tk tv|a t|ts|t| | |p t|i]; cbn [looks_none]; try reflexivity.
    - destruct fm; [|reflexivity]. exfalso. unfold at_none in Hs. unfold pbind, expect in E. rewrite Hs in E. discriminate.
    - unfold de_opt in E. rewrite Hs in E. apply pmap_inv in E as (w & E & ->). eapply IH; [|exact Hs|exact E]. apply Ht.
    - eapply IH; [|exact Hs|exact E]. apply Ht.
    - destruct Ht as [Hp Ht]. destruct fm eqn:Ef; [|discriminate]. apply pmap_inv in E as (w & E & ->). cbn [stable_node] in Hp. rewrite Hp. rewrite <- Ef in *. eapply IH; [exact Ht|exact Hs|exact E].
    - destruct (nth_error G i) as [[dflt cnull fs|tr fs|vs|p t]|] eqn:Ei; try discriminate.
      + reflexivity.
      + destruct tr; [|reflexivity]. destruct fs as [|f [|]]; [reflexivity| |reflexivity]. destruct v; try reflexivity. destruct l as [|w [|]]; [reflexivity| |reflexivity].
        destruct fm eqn:Ef; [|reflexivity]. destruct (existsb f_hasproxy [f]); [discriminate|]. cbn [de_unnamed] in E. apply pmap_inv in E as (l & E & E2). apply pmap_inv in E as (w' & E & E3).
        subst l. injection E2 as ->. rewrite <- Ef in *. eapply IH; [|exact Hs|exact E]. destruct HG as [H1 _]. apply (env_all_nth _ _ _ _ H1) in Ei. cbn in Ei. inversion Ei; assumption.
      + destruct v; try reflexivity. destruct fm eqn:Ef; [reflexivity|].
        destruct (nth_error vs (N.to_nat tag)) as [vr|] eqn:Ev; [|reflexivity]. destruct HG as [_ H2]. rewrite Forall_forall in H2. apply nth_error_In in Ei. specialize (H2 _ Ei). cbn in H2.
        destruct H2 as [_ H2]. rewrite Forall_forall in H2. apply nth_error_In in Ev. destruct (H2 _ Ev) as (_ & H3 & _). specialize (H3 eq_refl).
        destruct (str_eqb (v_name vr) (chars "None")) eqn:E4; [|reflexivity]. apply str_eqb_eq in E4. contradiction.
      + destruct v; (destruct fm eqn:Ef; [|reflexivity]); apply pmap_inv in E as (w & E & E2);
        (destruct HG as [H1 H2]; pose proof (env_all_nth _ _ _ _ H1 Ei) as Ht2; apply nth_error_In in Ei; rewrite Forall_forall in H2; specialize (H2 _ Ei); cbn in H2, Ht2; rewrite E2, H2;
         rewrite <- Ef in *; eapply IH; [exact Ht2|exact Hs|exact E]).
  Qed.

  Definition fit (t : ty) (v : val) : Prop := sok t -> exists n, tval n t v.

  Lemma fit_list ts l : Forall sok ts -> Forall2 fit ts l -> exists n, Forall2 (tval n) ts l.
  Proof.
    intros Hs H. apply heights2; [intros; eapply text_value_le; eassumption|]. induction H as [|t v ts l H1 H IH]; constructor; inversion Hs; subst; auto.
  Qed.
  Lemma stable_fields dflt fs l (null : field -> bool) : Forall (fun f => stable_field c G fm dflt (null f) f) fs -> Forall (fun f => sok (f_ty f)) fs ->
    Forall2 (field_valid fit dflt) fs l -> exists n, Forall2 (fun f => field_value (tval n) (looks_none G fm n) (null f) f) fs l.
  Proof.
    intros Hs Ho H.
    assert (Hm : forall n m f v, (n <= m)%nat -> field_value (tval n) (looks_none G fm n) (null f) f v -> field_value (tval m) (looks_none G fm m) (null f) f v).
    { intros n m f v Hnm Hv. eapply field_value_imp; [|exact Hv]. intros t w Hw. apply text_value_le; assumption. }
    apply heights2; [exact Hm|]. induction H as [|f v fs l H1 H IH]; constructor; [|inversion Hs; inversion Ho; subst; auto].
    clear IH. inversion Hs as [|? ? [Hw Hf] _]; subst. inversion Ho as [|? ? Hty _]; subst. unfold field_valid in H1. destruct (f_skip f) eqn:Esk.
    { exists O. split; [exact Hw|]. rewrite Esk. exact H1. }
    destruct (Hf eq_refl) as [Hn Hd]. destruct H1 as [[-> H1]|H1]; [exact (Hd H1)|].
    destruct (f_isopt f && f_hasproxy f) eqn:Eb.
    - destruct H1 as (w & -> & H1). destruct (H1 Hty) as [n H2]. exists n. split; [exact Hw|]. rewrite Esk. apply andb_prop in Eb as [-> Eb].
      unfold wf_field in Hw. destruct (f_ty f); try (destruct Hw; congruence); congruence.
    - destruct (H1 Hty) as [n H2]. destruct (f_isopt f) eqn:Eo; [|exists n; split; [exact Hw|]; rewrite Esk, Eo; exact H2]. cbn [andb] in Eb.
      unfold wf_field in Hw. destruct (f_ty f) eqn:Et; try (destruct Hw; congruence); try congruence.
      destruct n as [|n]; [contradiction|]. cbn [text_value] in H2. exists n. split; [unfold wf_field; rewrite Et; exact Hw|]. rewrite Esk, Eo.
      destruct v; try contradiction; [apply Hn; reflexivity|]. rewrite Et. exact H2.
  Qed.

  Theorem Gives_stable n : forall t, Gives (de_text L F c G fm n t) (fit t).
  Proof.
    induction n as [|n IH]; intro t; cbn [de_text]; [apply Gives_fail; discriminate|].
    assert (ONE : forall v m, text_value c G fm (S m) t v -> fit t v) by (intros v m Hv _; exists (S m); exact Hv).
    destruct t as [k| | | | | |t|k t|k tk tv|m t|ts|t| | |p t|i].
    - assert (H : k = U128 \/ k = I128 \/ (k <> U128 /\ k <> I128)) by (destruct k; auto; right; right; split; discriminate).
      destruct H as [-> | [-> | [K1 K2]]]; try (apply Gives_fail; discriminate).
      eapply Gives_weaken; [|apply Gives_int; exact Htext]. intros a (z & -> & H). apply (ONE _ O). cbn. auto.
    - apply (Gives_map _ _ _ _ (float_src F text)); [apply Gives_f64; exact Htext|]. intros b Hb [Hs _]. exists 1%nat. cbn [text_value]. cbn [stable_node] in Hs.
      destruct Hb as [(s & H1 & H2)|(z & H1 & ->)]; [eapply Hs; eassumption | apply HI; exact H1].
    - apply (Gives_map _ _ _ _ (float_src F text)); [apply Gives_f64; exact Htext|]. intros b Hb [Hs _]. exists 1%nat. cbn [text_value]. cbn [stable_node] in Hs.
      destruct Hb as [(s & H1 & H2)|(z & H1 & ->)]; [eapply Hs; eassumption | apply HI; exact H1].
    - eapply Gives_weaken; [|apply Gives_bool; exact Htext]. intros a (b & ->). apply (ONE _ O). exact I.
    - apply (Gives_map _ _ _ _ (Forall scalar)); [apply Gives_str; exact Htext|]. intros s Hs. apply (ONE _ O). exact Hs.
    - assert (HJ : forall k w, Gives (pbind (expect L k w) (fun _ => pret VUnit)) (fit TUnit)).
      { intros k w. apply Gives_then; [apply Gives_expect; exact Htext|]. intros _. apply Gives_ret. apply (ONE _ O). exact I. }
      assert (HR : Gives (pbind (expect L KParenOpen (chars "(")) (fun _ => pbind (expect L KParenClose (chars ")")) (fun _ => pret VUnit))) (fit TUnit)).
      { apply Gives_then; [apply Gives_expect; exact Htext|]. intros _. apply HJ. }
      destruct fm; [apply HJ | exact HR].
    - intros s s' a Hs E.
      assert (H : Inv F text s' /\ opt_of (fit t) a) by (eapply Gives_opt; [exact Htext | apply IH | exact Hs | exact E]).
      destruct H as [H1 H2]. split; [exact H1|]. unfold de_opt in E. destruct (at_none L fm s) eqn:En.
      + unfold pbind in E. destruct (l_next L s) as [s1 [u|e|p|]]; try discriminate. injection E as _ <-. apply (ONE _ O). exact I.
      + apply pmap_inv in E as (w & E & ->). destruct H2 as [H2 | (w' & H2 & H3)]; [discriminate|]. injection H2 as <-. intros [_ Ht]. destruct (H3 Ht) as [m Hm]. exists (S m). split; [exact Hm|].
        eapply not_none; eassumption.
    - apply (Gives_map _ _ _ _ (fun l => Forall (fit t) l /\ seq_inv k l)); [apply Gives_seq; [exact Htext | exact IH]|]. intros l [H1 H2] [_ Ht].
      destruct (heights (fun n => tval n t) l) as [m Hm]; [intros; eapply text_value_le; eassumption | eapply Forall_imp2; [|exact H1]; intros a Ha; exact (Ha Ht)|].
      exists (S m). split; assumption.
    - apply (Gives_map _ _ _ _ (fun l => Forall (fun e => fit tk (fst e) /\ fit tv (snd e)) l /\ map_inv k l)); [apply Gives_maps; [exact Htext | exact IH]|].
      intros l [H1 H2] [_ [Hk Hv]].
      destruct (heights (fun n e => tval n tk (fst e) /\ tval n tv (snd e)) l) as [m Hm].
      + intros a b e Hab [? ?]. split; eapply text_value_le; eassumption.
      + eapply Forall_imp2; [|exact H1]. intros e [Ha Hb]. destruct (Ha Hk) as [a Ha']. destruct (Hb Hv) as [b Hb']. exists (Nat.max a b).
        split; [apply (text_value_le c G fm a) | apply (text_value_le c G fm b)]; try lia; assumption.
      + exists (S m). split; assumption.
    - replace (repeat (de_item L fm (de_text L F c G fm n) t) m) with (map (fun t => de_item L fm (de_text L F c G fm n) t) (repeat t m)) by (clear; induction m; cbn; congruence).
      apply (Gives_map _ _ _ _ (Forall2 fit (repeat t m))); [apply Gives_bracketed; [exact Htext|]; intro; apply Gives_item; [exact Htext | exact IH]|].
      intros l Hl [Hm Ht]. cbn [stable_node] in Hm. destruct (fit_list (repeat t m) l) as [a Ha]; [clear -Ht; induction m; constructor; auto | exact Hl|].
      exists (S a). assert (H : length l = m /\ Forall (tval a t) l); [|destruct H; cbn [text_value]; auto].
      clear -Ha. revert l Ha. induction m as [|m IHm]; intros l Hl; cbn [repeat] in Hl; inversion Hl as [|? ? ? ? H1 H2]; subst; [split; [reflexivity | constructor]|].
      destruct (IHm _ H2) as [<- H3]. split; [reflexivity | constructor; assumption].
    - destruct (tuple_arity (length ts)) eqn:Ea; [|apply Gives_fail; discriminate].
      apply (Gives_map _ _ _ _ (Forall2 fit ts)); [apply Gives_bracketed; [exact Htext|]; intro; apply Gives_comma; [exact Htext | exact IH]|].
      intros l Hl [_ Ht]. apply ty_all_list in Ht. destruct (fit_list ts l Ht Hl) as [a Ha]. exists (S a). split; [|exact Ha].
      unfold tuple_arity in Ea. lia.
    - eapply Gives_weaken; [|apply IH]. intros v Hv [_ Ht]. destruct (Hv Ht) as [a Ha]. exists (S a). exact Ha.
    - eapply Gives_weaken; [|apply Gives_dur; exact Htext]. intros a (s & ns & -> & H). apply (ONE _ O). exact H.
    - eapply Gives_weaken; [|apply Gives_time; exact Htext]. intros a (s & ns & -> & H). apply (ONE _ O). exact H.
    - assert (H : fm = Json -> Gives (pmap (p_from p) (de_text L F c G fm n t)) (fit (TProxy p t))).
      { intro Ej. apply (Gives_map _ _ _ _ (fit t)); [apply IH|]. intros v Hv [Hp Ht]. cbn [stable_node] in Hp. destruct (Hv Ht) as [a Ha]. exists (S a). cbn [text_value]. rewrite Hp. auto. }
      destruct fm; [apply H; reflexivity | apply Gives_fail; discriminate].
    - destruct (nth_error G i) as [d|] eqn:Ei; [|apply Gives_fail; discriminate].
      pose proof (env_all_nth _ _ _ _ (proj1 HG) Ei) as Hall.
      assert (Hd : stable_decl c G fm d) by (pose proof (proj2 HG) as H2; rewrite Forall_forall in H2; apply H2; eapply nth_error_In; exact Ei).
      destruct d as [dflt cnull fs|tr fs|vs|p t]; cbn [stable_decl decl_all] in Hd, Hall.
      + apply (Gives_map _ _ _ _ (Forall2 (field_valid fit dflt) fs)); [apply Gives_named; [exact Htext | exact IH]|]. intros l Hl _. destruct Hd as (D1 & D2 & D3).
        destruct (stable_fields dflt fs l (none_as_null fm cnull) D3 Hall Hl) as [a Ha]. exists (S a). cbn [text_value]. rewrite Ei. auto.
      + destruct (existsb f_hasproxy fs) eqn:Ep; [apply Gives_fail; discriminate|].
        assert (H : (fm = Ron -> fs <> []) -> Gives (pmap VSeq (de_unnamed L fm (de_text L F c G fm n) tr fs)) (fit (TNamed i))).
        { intro Hne. apply (Gives_map _ _ _ _ (Forall2 (fun f => fit (f_ty f)) fs)); [apply Gives_unnamed; [exact Htext | exact IH]|]. intros l Hl _.
          destruct (heights2 (fun a f w => f_hasproxy f = false /\ tval a (f_ty f) w) fs l) as [a Ha].
          - intros x y f w Hxy [? ?]. split; [assumption|]. eapply text_value_le; eassumption.
          - clear -Hl Ep Hall. induction Hl as [|f w fs l H1 H IH]; constructor; cbn [existsb] in Ep; apply orb_false_elim in Ep as [E1 E2]; inversion Hall; subst; [|apply IH; assumption].
            destruct (H1 ltac:(assumption)) as [a Ha]. exists a. auto.
          - exists (S a). cbn [text_value]. rewrite Ei. split; [exact Ha|]. intro Er. split; [apply Hne; exact Er | apply Hd; exact Er]. }
        destruct fm; [apply H; discriminate|]. destruct fs; [apply Gives_fail; discriminate | apply H; discriminate].
      + assert (H : forall v, enum_of fit vs v -> fit (TNamed i) v).
        { intros v Hv _. destruct v; try contradiction. cbn [enum_of] in Hv. destruct (nth_error vs (N.to_nat tag)) as [vr|] eqn:Ev; [|contradiction].
          destruct Hd as [D1 D2]. pose proof (decl_all_variant _ _ _ _ Hall Ev) as Hb. rewrite Forall_forall in D2. pose proof (nth_error_In _ _ Ev) as Hin. destruct (D2 _ Hin) as (D3 & _ & D4).
          assert (H : exists a, match v_body vr with BUnit => l = [] | BTuple ts => ts <> [] /\ Forall2 (tval a) ts l
            | BStruct fs => NoDup (map f_name fs) /\ Forall (fun f => f_skip f = false /\ f_rename f = None /\ good_name fm (f_name f)) fs /\ Forall2 (field_value (tval a) (looks_none G fm a) false) fs l end).
          { destruct (v_body vr) as [|ts|fs].
            - exists O. exact Hv.
            - destruct (fit_list ts l Hb Hv) as [a Ha]. exists a. auto.
            - destruct D4 as (D5 & D6 & D7). destruct (stable_fields false fs l (fun _ => false) D7 Hb Hv) as [a Ha]. exists a. auto. }
          destruct H as [a Ha]. exists (S a). cbn [text_value]. rewrite Ei, Ev. auto. }
        pose proof (Gives_enum_json F text Htext fm (de_text L F c G fm n) n fit IH vs) as HJ. pose proof (Gives_enum_ron F text Htext fm (de_text L F c G fm n) n fit IH vs) as HR.
        destruct fm; (eapply Gives_weaken; [exact H|]); [exact HJ | exact HR].
      + assert (H : fm = Json -> Gives (pmap (p_from p) (de_text L F c G fm n t)) (fit (TNamed i))).
        { intro Ej. apply (Gives_map _ _ _ _ (fit t)); [apply IH|]. intros v Hv _. destruct (Hv Hall) as [a Ha]. exists (S a). cbn [text_value]. rewrite Ei, Hd. auto. }
        destruct fm; [apply H; reflexivity | apply Gives_fail; discriminate].
  Qed.
End Stable.
