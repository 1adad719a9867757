(** Proofs about SpecRonShow.v: the RON writer emits a text of the document a value is shown as. *)
From Verif Require Import Base Utf8 Types BinModel TyAll Text TextModel TextLex TextFuel TextRun SpecText SpecGram SpecRfc PropsRfc TextGram TomlRead Doc SpecDoc SpecShow Show SpecRon SpecRonShow.
Local Open Scope N_scope.

Lemma esc_ron_chars x : chars_of (esc_char Ron x) [x].
Proof.
  assert (E : forall e y, lib_escape e y -> chars_of [92; e] [y]) by (intros; apply (ch_esc e y [] []); [assumption | constructor]).
  unfold esc_char.
  destruct (N.eqb_spec x 10) as [-> |E1]; [apply E; left; cbn; tauto|].
  destruct (N.eqb_spec x 13) as [-> |E2]; [apply E; left; cbn; tauto|].
  destruct (N.eqb_spec x 9) as [-> |E3]; [apply E; left; cbn; tauto|].
  destruct (N.eqb_spec x 0) as [-> |E4]; [apply E; right; left; auto|].
  destruct (N.eqb_spec x c_bslash) as [-> |E5]; [apply E; left; cbn; tauto|].
  destruct (N.eqb_spec x c_quote) as [-> |E6]; [apply E; left; cbn; tauto|].
  unfold c_bslash, c_quote in *. apply (ch_plain x [] []); [lia | lia | lia | constructor].
Qed.
Lemma esc_chars_ron s : chars_of (flat_map (esc_char Ron) s) s.
Proof. induction s as [|x s IH]; [constructor|]. cbn [flat_map]. apply (chars_app _ _ [x]); [apply esc_ron_chars | exact IH]. Qed.
Lemma good_ron_name k : good_name Ron k -> ron_name k.
Proof.
  intros (H1 & H2 & H3 & H4 & H5). split; [|auto]. destruct k as [|x r]; [congruence|]. exists x, r. split; [reflexivity|].
  assert (L : forall y, is_alpha y = true -> letter y).
  { unfold is_alpha, letter. intros y. rewrite !orb_true_iff, !andb_true_iff, !N.leb_le, N.eqb_eq. lia. }
  split; [apply L; exact H2|]. cbn [forallb] in H3. apply andb_prop in H3 as [_ H3]. rewrite forallb_forall in H3. apply Forall_forall.
  intros y Hy. specialize (H3 y Hy). apply orb_prop in H3 as [H3|H3]; [left; apply L; exact H3|]. right. revert H3. unfold is_digit. rewrite !andb_true_iff, !N.leb_le. lia.
Qed.
Lemma none_name : ron_name (chars "None").
Proof. apply good_ron_name. repeat split; try discriminate. Qed.

Section Texts.
  Variable F : flt.
  Notation den := (rdenotes F).
  Lemma each_rseq ds ps : Forall2 den ds ps -> rseq F ds (each comma ps).
  Proof.
    induction 1 as [|d x ds ps Hx H IH]; [constructor; apply gap0|]. cbn [each flat_map].
    pose proof (rs_more F [] d x [] ds (each comma ps) gap0 Hx gap0 IH) as M. cbn [app] in M. rewrite <- app_assoc. exact M.
  Qed.
  Lemma join_rseq g ds ps : gap g -> Forall2 den ds ps -> forall g0, gap g0 -> rseq F ds (g0 ++ join (44 :: g) ps).
  Proof.
    intros Hg H. induction H as [|d x ds ps Hx H IH]; intros g0 Hg0; [cbn [join]; rewrite app_nil_r; constructor; exact Hg0|]. destruct H as [|e y ds ps Hy H].
    - cbn [join]. rewrite <- (app_nil_r x). apply rs_one; auto. apply gap0.
    - pose proof (rs_more F g0 d x [] (e :: ds) (g ++ join (44 :: g) (y :: ps)) Hg0 Hx gap0 (IH g Hg)) as M. exact M.
  Qed.
  Lemma wrap_list s ds : rseq F ds s -> den (RList ds) (wrap 91 93 s). Proof. apply rn_list. Qed.
  Lemma wrap_tup s ds : rseq F ds s -> den (RTup ds) (wrap 40 41 s). Proof. apply rn_tup. Qed.
  Definition rmem (m : str * rdoc) (s : str) : Prop := exists x, s = fst m ++ [58] ++ x /\ ron_name (fst m) /\ den (snd m) x.
  Lemma each_rmembers ms ps : Forall2 rmem ms ps -> rmembers F ms (each comma ps).
  Proof.
    induction 1 as [|[k d] p ms ps (x & -> & Hk & Hx) H IH]; [constructor; apply gap0|]. cbn [each flat_map fst snd] in *.
    pose proof (rm_more F [] k [] [] d x [] ms (each comma ps) gap0 Hk gap0 gap0 Hx gap0 IH) as M. cbn [app] in M. rewrite <- !app_assoc. exact M.
  Qed.
  Lemma wrap_members ms ps : Forall2 rmem ms ps -> den (members_rdoc ms) (wrap 40 41 (each comma ps)).
  Proof.
    intro H. unfold members_rdoc. destruct H as [|m p ms ps Hm H]; [apply (rn_tup F [] []); constructor; apply gap0|].
    apply (rn_obj F); [discriminate|]. apply each_rmembers. constructor; assumption.
  Qed.
  Definition rent (m : rdoc * rdoc) (s : str) : Prop := exists y x, s = y ++ [58] ++ x /\ den (fst m) y /\ den (snd m) x.
  Lemma each_rentries ms ps : Forall2 rent ms ps -> rentries F ms (each comma ps).
  Proof.
    induction 1 as [|[k d] p ms ps (y & x & -> & Hk & Hx) H IH]; [constructor; apply gap0|]. cbn [each flat_map fst snd] in *.
    pose proof (re_more F [] k y [] [] d x [] ms (each comma ps) gap0 Hk gap0 gap0 Hx gap0 IH) as M. cbn [app] in M. rewrite <- !app_assoc. exact M.
  Qed.
  Lemma rdur_written s ns d : s < 2 ^ 64 -> ns < 1000000000 -> dur_rdoc s ns d -> den d (ser_dur s ns).
  Proof.
    intros Hs Hn (a & b & (sa & Ha & ->) & (sb & Hb & ->) & ->). apply literal_dec in Ha, Hb.
    assert (D : forall n, dec_z (Z.of_N n) = dec n) by (intro n; unfold dec_z; destruct (Z.ltb_spec (Z.of_N n) 0); [lia|]; rewrite N2Z.id; reflexivity).
    rewrite D in Ha, Hb. subst sa sb.
    assert (N1 : forall k, In k [chars "secs"; chars "nanos"] -> den (RStr k) (quoted k)).
    { intros k Hk. apply rn_str. destruct Hk as [<-|[<-|[]]]; apply name_chars; repeat constructor; cbv; discriminate. }
    assert (N2 : forall n, n < 2 ^ 64 -> den (RNum (dec n)) (dec n)) by (intros n Hl; apply rn_num; rewrite <- D; apply dec_z_ok; lia).
    pose proof (N1 (chars "secs") ltac:(cbn; auto)) as Q1. pose proof (N1 (chars "nanos") ltac:(cbn; auto)) as Q2.
    pose proof (N2 s Hs) as Q3. assert (Q4 : den (RNum (dec ns)) (dec ns)) by (apply N2; lia).
    unfold ser_dur. apply rn_map. destruct (ns =? 0).
    - rewrite app_nil_r. pose proof (re_one F [] _ _ [] [] _ _ [] gap0 Q1 gap0 gap0 Q3 gap0) as M. cbn [app] in M. rewrite app_nil_r in M. exact M.
    - pose proof (re_one F [] _ _ [] [] _ _ [] gap0 Q2 gap0 gap0 Q4 gap0) as M. cbn [app] in M. rewrite app_nil_r in M.
      pose proof (re_more F [] _ _ [] [] _ _ [] _ _ gap0 Q1 gap0 gap0 Q3 gap0 M) as M2. cbn [app] in M2. exact M2.
  Qed.
End Texts.

Lemma rmembers_shown_impl (P Q : ty -> val -> rdoc -> Prop) skip key fs l ms : (forall t v d, P t v d -> Q t v d) ->
  rmembers_shown P skip key fs l ms -> rmembers_shown Q skip key fs l ms.
Proof.
  intros PQ. induction 1 as [|f v fs l ms Hs H IH|f fs l ms Hs Ho H IH|f v d fs l ms Hs Hk Hf H IH];
    [constructor | constructor 2; assumption | constructor 3; assumption | constructor 4; try assumption].
  unfold rfield_shown in *. destruct (f_isopt f); [|auto]. destruct v; auto. destruct (f_ty f); auto.
Qed.
Lemma unnamed_shown_impl (P Q : ty -> val -> rdoc -> Prop) fs l ds : (forall t v d, P t v d -> Q t v d) ->
  unnamed_shown P fs l ds -> unnamed_shown Q fs l ds.
Proof. intros PQ. induction 1; [constructor | constructor 2; auto | constructor 3; auto]. Qed.
Lemma rshows1_impl F c G (P Q : ty -> val -> rdoc -> Prop) : (forall t v d, P t v d -> Q t v d) -> forall t v d, rshows1 F c G P t v d -> rshows1 F c G Q t v d.
Proof.
  intros IH t v d H. destruct t as [k| | | | | |t'|k t'|k tk tv|k t'|ts|t'| | |p t'|i]; cbn [rshows1] in *; try exact H.
  - destruct v; auto.
  - destruct v; auto. destruct H as (ds & -> & H). exists ds. split; [reflexivity|]. eapply forall2_impl; [apply IH | exact H].
  - destruct v; auto. destruct H as (ms & -> & H). exists ms. split; [reflexivity|]. eapply forall2_impl; [|exact H]. cbn. intros a b [X Y]. auto.
  - destruct v; auto. destruct H as (A & B & ds & -> & H). split; [exact A|]. split; [exact B|]. exists ds. split; [reflexivity|]. eapply forall2_impl; [apply IH | exact H].
  - destruct v; auto. destruct H as (A & ds & -> & H). split; [exact A|]. exists ds. split; [reflexivity|]. eapply tuple_shown_impl; [apply IH | exact H].
  - destruct v; apply IH; exact H.
  - destruct (nth_error G i) as [[dflt cn fs|tr fs|vs|p t']|]; [| | |exact H|exact H].
    + destruct v; auto. destruct H as (ms & -> & H). exists ms. split; [reflexivity|]. eapply rmembers_shown_impl; [apply IH | exact H].
    + destruct v; auto. destruct H as (A & B & ds & -> & H). split; [exact A|]. split; [exact B|]. exists ds. split; [reflexivity|]. eapply unnamed_shown_impl; [apply IH | exact H].
    + destruct v; auto. destruct (nth_error vs (N.to_nat tag)) as [vr|]; auto. destruct H as [A H]. split; [exact A|]. destruct (v_body vr); [exact H | |].
      * destruct H as (B & ds & -> & H). split; [exact B|]. exists ds. split; [reflexivity|]. eapply tuple_shown_impl; [apply IH | exact H].
      * destruct H as (ms & -> & H). exists ms. split; [reflexivity|]. eapply rmembers_shown_impl; [apply IH | exact H].
Qed.
Lemma rshows_S F c G : forall n t v d, rshows F c G n t v d -> rshows F c G (S n) t v d.
Proof. induction n as [|n IH]; intros t v d H; [contradiction|]. eapply (rshows1_impl F c G); [|exact H]. exact IH. Qed.
Lemma rshows_le F c G n m t v d : (n <= m)%nat -> rshows F c G n t v d -> rshows F c G m t v d.
Proof. intro H. induction H as [|m H IH]; [auto|]. intro X. apply rshows_S. auto. Qed.

Section Write.
  Variables (F : flt) (c : cfg) (G : env).
  Hypothesis HF : flt_ok F.
  Hypothesis Hc : cfg_ok c.
  Notation den := (rdenotes F).
  Notation ser := (ser_text F c G Ron).
  Definition rwritten (n : nat) (t : ty) (v : val) (d : rdoc) : Prop := exists out, ser n t v = Ok out /\ den d out.

  Lemma rlist_written n t l ds : Forall2 (rwritten n t) l ds -> exists ps, rall (map (ser n t) l) = Ok ps /\ Forall2 den ds ps.
  Proof.
    induction 1 as [|v d l ds (x & Ex & Dx) H (ps & Ep & Dp)]; [exists []; split; [reflexivity | constructor]|].
    exists (x :: ps). cbn [map rall]. rewrite Ex. cbn [rbind]. rewrite Ep. split; [reflexivity | constructor; assumption].
  Qed.
  Lemma rtys_written n ts l ds : tuple_shown (rwritten n) ts l ds -> exists ps, ser_tys (ser n) ts l = Ok ps /\ Forall2 den ds ps.
  Proof.
    induction 1 as [|t v d ts l ds (x & Ex & Dx) H (ps & Ep & Dp)]; [exists []; split; [reflexivity | constructor]|].
    exists (x :: ps). cbn [ser_tys]. rewrite Ex. cbn [rbind]. rewrite Ep. split; [reflexivity | constructor; assumption].
  Qed.
  Lemma rseq_space ds s : rseq F ds s -> rseq F ds (32 :: s).
  Proof.
    assert (K : forall a, gap a -> gap (32 :: a)) by (intros a Ha; apply gap_ws; [left; reflexivity | exact Ha]).
    intro H. inversion H as [g Hg|a d x b Ha Hx Hb|a d x b l0 s0 Ha Hx Hb Hs]; subst.
    - constructor. apply K, Hg.
    - apply (rs_one F (32 :: a) d x b); auto.
    - apply (rs_more F (32 :: a) d x b); auto.
  Qed.
  Lemma runnamed_written n fs l ds : unnamed_shown (rwritten n) fs l ds ->
    exists s, ser_unnamed Ron (ser n) fs l = Ok s /\ rseq F ds s.
  Proof.
    induction 1 as [|f v fs l ds Hs H (s & Es & Ds)|f v d fs l ds Hs (x & Ex & Dx) H (s & Es & Ds)]; cbn [ser_unnamed]; rewrite ?Hs.
    - exists []. split; [reflexivity | constructor; apply gap0].
    - exists s. auto.
    - rewrite Ex. cbn [rbind]. rewrite Es. cbn [rbind]. eexists. split; [reflexivity|]. destruct fs as [|g fs].
      + inversion H; subst. cbn [ser_unnamed] in Es. injection Es as <-. rewrite <- (app_nil_r x). cbn [app]. rewrite app_nil_r.
        pose proof (rs_one F [] d x [] gap0 Dx gap0) as M. exact M.
      + pose proof (rs_more F [] d x [] ds (32 :: s) gap0 Dx gap0 (rseq_space _ _ Ds)) as M. exact M.
  Qed.
  Lemma rfield_written n name f v d : ron_name name -> rfield_shown (rwritten n) f v d ->
    exists s, ser_field Ron (ser n) false name f v = Ok (Some s) /\ rmem F (name, d) s.
  Proof.
    intros Hn H. unfold rfield_shown, ser_field in *. destruct (f_isopt f).
    - destruct v; try contradiction.
      unfold ser_some. destruct (f_ty f); try contradiction; destruct H as (x & Ex & Dx); rewrite Ex.
      eexists. split; [reflexivity|]. exists x. cbn [fst snd]. split; [cbn [field_hdr]; rewrite <- app_assoc; reflexivity | auto].
    - destruct H as (x & Ex & Dx). rewrite Ex. eexists. split; [reflexivity|]. exists x. cbn [fst snd]. split; [cbn [field_hdr]; rewrite <- app_assoc; reflexivity | auto].
  Qed.
  Lemma rnamed_written n cn fs l ms : rmembers_shown (rwritten n) f_skip key_of_field fs l ms ->
    exists ps, ser_named Ron (ser n) cn fs l = Ok ps /\ Forall2 (rmem F) ms ps.
  Proof.
    induction 1 as [|f v fs l ms Hs H (ps & Ep & Dp)|f fs l ms Hs Ho H (ps & Ep & Dp)|f v d fs l ms Hs Hk Hf H (ps & Ep & Dp)];
      cbn [ser_named]; rewrite ?Hs.
    - exists []. split; [reflexivity | constructor].
    - exists ps. auto.
    - exists ps. unfold ser_field. rewrite Ho. cbn [null_on_none rbind]. rewrite Ep. auto.
    - destruct (rfield_written n (key_of_field f) f v d Hk Hf) as (s & Es & Ds). cbn [null_on_none].
      change (field_key f) with (key_of_field f). rewrite Es. cbn [rbind]. rewrite Ep.
      exists (s :: ps). split; [reflexivity | constructor; assumption].
  Qed.
  Lemma rvariant_written n fs l ms : rmembers_shown (rwritten n) (fun _ => false) f_name fs l ms ->
    exists ps, ser_variant_fields Ron (ser n) fs l = Ok (each comma ps) /\ Forall2 (rmem F) ms ps.
  Proof.
    induction 1 as [|f v fs l ms Hs H (ps & Ep & Dp)|f fs l ms Hs Ho H (ps & Ep & Dp)|f v d fs l ms Hs Hk Hf H (ps & Ep & Dp)];
      cbn [ser_variant_fields].
    - exists []. split; [reflexivity | constructor].
    - discriminate.
    - exists ps. unfold ser_field. rewrite Ho. cbn [rbind]. rewrite Ep. auto.
    - destruct (rfield_written n (f_name f) f v d Hk Hf) as (s & Es & Ds). rewrite Es. cbn [rbind]. rewrite Ep. cbn [rbind].
      exists (s :: ps). split; [|constructor; assumption]. cbn [each flat_map]. rewrite <- app_assoc. reflexivity.
  Qed.
  Theorem rshows_written n : forall t v d, rshows F c G n t v d -> rwritten n t v d.
  Proof.
    induction n as [|n IH]; intros t v d H; [contradiction|]. unfold rwritten. cbn [rshows] in H.
    destruct t as [k| | | | | |t'|k t'|k tk tv|m t'|ts|t'| | |p t'|i].
    - destruct v; try contradiction. destruct H as (K1 & K2 & Hz & (s & Hs & ->)). exists s. apply literal_dec in Hs. subst s. split.
      + cbn [ser_text]. destruct k; congruence.
      + apply rn_num, dec_z_ok. eapply int_range; eassumption.
    - destruct v; try contradiction. destruct H as [Hb ->]. eexists. split; [reflexivity|]. apply rn_num.
      destruct (show32_parse F HF _ Hb) as (b & Eb & _). eapply float_ok; [apply (show32_text F HF); exact Hb | exact Eb].
    - destruct v; try contradiction. destruct H as [Hb ->]. eexists. split; [reflexivity|]. apply rn_num.
      eapply float_ok; [apply (show64_text F HF); exact Hb | apply (show64_parse F HF); exact Hb].
    - destruct v; try contradiction. cbn [rshows1] in H. subst d. eexists. split; [reflexivity|]. destruct b; constructor.
    - destruct v; try contradiction. cbn [rshows1] in H. subst d. eexists. split; [reflexivity|]. apply (rn_str F), esc_chars_ron.
    - destruct v; try contradiction. cbn [rshows1] in H. subst d. eexists. split; [reflexivity|]. apply (rn_tup F [] []). constructor. apply gap0.
    - destruct v; try contradiction; cbn [rshows1] in H; [subst d; eexists; split; [reflexivity | constructor; apply none_name]|]. apply IH. exact H.
    - destruct v; try contradiction. destruct H as (ds & -> & H).
      destruct (rlist_written n t' l ds (forall2_impl _ _ _ _ (IH t') H)) as (ps & Ep & Dp). cbn [ser_text]. rewrite Ep.
      eexists. split; [reflexivity|]. apply wrap_list. destruct k; try (apply (join_rseq F [] ds ps gap0 Dp [] gap0)). apply each_rseq. exact Dp.
    - destruct v; try contradiction. destruct H as (ms & -> & H). cbn [ser_text].
      assert (X : exists ps, rall (map (ser_entry (ser n) tk tv) l) = Ok ps /\ Forall2 (rent F) ms ps).
      { induction H as [|e [k0 d] l ms [H1 H2] H (ps & Ep & Dp)]; [exists []; split; [reflexivity | constructor]|]. cbn [fst snd] in *.
        destruct (IH _ _ _ H1) as (a & Ea & Da). destruct (IH _ _ _ H2) as (b & Eb & Db).
        exists ((a ++ [58] ++ b) :: ps). cbn [map rall]. unfold ser_entry at 1. rewrite Ea, Eb. cbn [rbind]. rewrite Ep. split; [reflexivity|].
        constructor; [|exact Dp]. exists a, b. auto. }
      destruct X as (ps & Ep & Dp). rewrite Ep. eexists. split; [reflexivity|]. apply rn_map. apply each_rentries. exact Dp.
    - destruct v; try contradiction. destruct H as (Hlen & Hm & ds & -> & H). cbn [ser_text].
      destruct (rlist_written n t' l ds (forall2_impl _ _ _ _ (IH t') H)) as (ps & Ep & Dp). destruct l as [|v0 l].
      + destruct m; [|discriminate]. rewrite (Hm eq_refl). inversion H; subst. eexists. split; [reflexivity|]. apply (rn_tup F [] []). constructor. apply gap0.
      + rewrite Ep. eexists. split; [reflexivity|]. apply wrap_tup. apply (join_rseq F [] ds ps gap0 Dp [] gap0).
    - destruct v; try contradiction. destruct H as (Hl & ds & -> & H). cbn [ser_text].
      assert (tuple_arity (length ts) = true) as -> by (apply andb_true_iff; split; apply Nat.leb_le; lia).
      destruct (rtys_written n ts l ds (tuple_shown_impl _ _ _ _ _ IH H)) as (ps & Ep & Dp). rewrite Ep.
      eexists. split; [reflexivity|]. apply wrap_tup. apply (join_rseq F [] ds ps gap0 Dp [] gap0).
    - cbn [rshows1] in H. assert (H' : rshows F c G n t' v d) by (destruct v; exact H). destruct (IH _ _ _ H') as (out & E & D). exists out.
      split; [|exact D]. cbn [ser_text]. destruct v; exact E.
    - destruct v; try contradiction. destruct H as (H1 & H2 & H3). eexists. split; [reflexivity|]. apply rdur_written; assumption.
    - destruct v; try contradiction. cbn [ser_text]. eexists. split; [reflexivity|]. destruct H as [[H ->]|(H1 & H2 & H3)].
      + destruct (Z.ltb_spec secs 0); [constructor; apply none_name | lia].
      + destruct (Z.ltb_spec secs 0); [lia|]. apply rdur_written; [lia | exact H2 | exact H3].
    - destruct v; contradiction.
    - cbn [rshows1 ser_text] in *. destruct (nth_error G i) as [[dflt cn fs|tr fs|vs|p t']|] eqn:EG; [| | |destruct v; contradiction|destruct v; contradiction].
      + destruct v; try contradiction. destruct H as (ms & -> & H).
        destruct (rnamed_written n cn fs l ms (rmembers_shown_impl _ _ _ _ _ _ _ IH H)) as (ps & Ep & Dp). rewrite Ep.
        eexists. split; [reflexivity|]. apply wrap_members. exact Dp.
      + destruct v; try contradiction. destruct H as (Hp & Hne & ds & -> & H). rewrite Hp.
        destruct (runnamed_written n fs l ds (unnamed_shown_impl _ _ _ _ _ IH H)) as (s & Es & Ds).
        destruct fs as [|f fs]; [congruence|]. assert (E : exists out, rmap (wrap (t_open Ron) (t_close Ron)) (ser_unnamed Ron (ser n) (f :: fs) l) = Ok out /\ den (RTup ds) out).
        { rewrite Es. eexists. split; [reflexivity|]. apply wrap_tup. exact Ds. }
        destruct E as (out & E & D). exists out. split; [|exact D]. destruct fs, l as [|? [|? ?]]; exact E.
      + destruct v; try contradiction. destruct (nth_error vs (N.to_nat tag)) as [vr|]; [|contradiction]. destruct H as [Hk H].
        change (variant_key Ron vr) with (key_of_variant Ron vr). cbn [label].
        assert (Hnest : forall e body, in_parens e -> den e body -> den (RVar (key_of_variant Ron vr) e) (key_of_variant Ron vr ++ body)).
        { intros e body He Hb. apply (rn_var F (key_of_variant Ron vr) [] e body); auto. apply gap0. }
        destruct (v_body vr) as [|ts|fs].
        * destruct H as [-> ->]. eexists. split; [reflexivity|]. constructor. exact Hk.
        * destruct H as (Hne & ds & -> & H). destruct (rtys_written n ts l ds (tuple_shown_impl _ _ _ _ _ IH H)) as (ps & Ep & Dp).
          destruct ts as [|t0 ts]; [congruence|]. rewrite Ep. eexists. split; [reflexivity|]. apply Hnest; [exact I|]. apply wrap_tup. apply (join_rseq F [] ds ps gap0 Dp [] gap0).
        * destruct H as (ms & -> & H). destruct (rvariant_written n fs l ms (rmembers_shown_impl _ _ _ _ _ _ _ IH H)) as (ps & Ep & Dp). rewrite Ep.
          eexists. split; [reflexivity|]. apply Hnest; [destruct ms; exact I|]. apply wrap_members. exact Dp.
  Qed.
End Write.

(** ** One document per value *)
Section Unique.
  Variable sh : ty -> val -> rdoc -> Prop.
  Hypothesis Hsh : forall t v d d', sh t v d -> sh t v d' -> d = d'.
  Lemma rfield_unique f v d d' : rfield_shown sh f v d -> rfield_shown sh f v d' -> d = d'.
  Proof.
    unfold rfield_shown. destruct (f_isopt f); [|apply Hsh]. destruct v; try contradiction.
    destruct (f_ty f); try contradiction; apply Hsh.
  Qed.
  Lemma rmembers_unique skip key fs l ms : rmembers_shown sh skip key fs l ms -> forall ms', rmembers_shown sh skip key fs l ms' -> ms = ms'.
  Proof.
    assert (K : forall f d, f_isopt f = true -> rfield_shown sh f VNone d -> False).
    { unfold rfield_shown. intros f d -> []. }
    induction 1 as [|f v fs l ms Hs H IH|f fs l ms Hs Ho H IH|f v d fs l ms Hs Hk Hf H IH]; intros ms' B; inversion B; subst; try congruence; auto.
    - exfalso. eapply K; eassumption.
    - exfalso. eapply K; eassumption.
    - f_equal; [|auto]. f_equal. eapply rfield_unique; eassumption.
  Qed.
  Lemma unnamed_unique fs l ds : unnamed_shown sh fs l ds -> forall ds', unnamed_shown sh fs l ds' -> ds = ds'.
  Proof. induction 1; intros ds' B; inversion B; subst; try congruence; auto. f_equal; eauto. Qed.
End Unique.
Lemma rnumber_unique z d d' : number_rdoc z d -> number_rdoc z d' -> d = d'.
Proof. intros (s & Hs & ->) (s' & Hs' & ->). apply literal_dec in Hs, Hs'. congruence. Qed.
Lemma rdur_unique s ns d d' : dur_rdoc s ns d -> dur_rdoc s ns d' -> d = d'.
Proof.
  intros (a & b & Ha & Hb & ->) (a' & b' & Ha' & Hb' & ->).
  rewrite (rnumber_unique _ _ _ Ha Ha'), (rnumber_unique _ _ _ Hb Hb'). reflexivity.
Qed.
Lemma rshows_unique F c G n : forall t v d d', rshows F c G n t v d -> rshows F c G n t v d' -> d = d'.
Proof.
  induction n as [|n IH]; intros t v d d' A B; [contradiction|]. cbn [rshows rshows1] in A, B.
  destruct t as [k| | | | | |t'|k t'|k tk tv|k t'|ts|t'| | |p t'|i].
  - destruct v; try contradiction. eapply rnumber_unique; [apply A | apply B].
  - destruct v; try contradiction. destruct A, B; congruence.
  - destruct v; try contradiction. destruct A, B; congruence.
  - destruct v; try contradiction. congruence.
  - destruct v; try contradiction. congruence.
  - destruct v; try contradiction. congruence.
  - destruct v; try contradiction; [congruence | eapply IH; eassumption].
  - destruct v; try contradiction. destruct A as (x & -> & A), B as (y & -> & B). f_equal. eapply list_unique; eauto.
  - destruct v; try contradiction. destruct A as (x & -> & A), B as (y & -> & B). f_equal.
    revert y B. induction A as [|e [k0 d0] l x [A1 A2] A IHl]; intros y B; inversion B as [|? [k1 d1] ? y' [B1 B2] B3]; subst; [reflexivity|].
    cbn [fst snd] in *. rewrite (IH _ _ _ _ A1 B1), (IH _ _ _ _ A2 B2). f_equal. auto.
  - destruct v; try contradiction. destruct A as (_ & _ & x & -> & A), B as (_ & _ & y & -> & B). f_equal. eapply list_unique; eauto.
  - destruct v; try contradiction. destruct A as (_ & x & -> & A), B as (_ & y & -> & B). f_equal. eapply tuple_unique; eauto.
  - assert (A' : rshows F c G n t' v d) by (destruct v; exact A). assert (B' : rshows F c G n t' v d') by (destruct v; exact B). eapply IH; eassumption.
  - destruct v; try contradiction. eapply rdur_unique; [apply A | apply B].
  - destruct v; try contradiction. destruct A as [[A1 ->]|(A1 & A2 & A3)], B as [[B1 ->]|(B1 & B2 & B3)]; try lia; [reflexivity|]. eapply rdur_unique; eassumption.
  - destruct v; contradiction.
  - cbn [rshows1] in A, B. destruct (nth_error G i) as [[dflt cn fs|tr fs|vs|p t']|]; [| | |destruct v; contradiction|destruct v; contradiction].
    + destruct v; try contradiction. destruct A as (x & -> & A), B as (y & -> & B). f_equal. eapply rmembers_unique; eauto.
    + destruct v; try contradiction. destruct A as (_ & _ & x & -> & A), B as (_ & _ & y & -> & B). f_equal. eapply unnamed_unique; eauto.
    + destruct v; try contradiction. destruct (nth_error vs (N.to_nat tag)) as [vr|]; [|contradiction]. destruct A as [_ A], B as [_ B].
      destruct (v_body vr).
      * destruct A, B; congruence.
      * destruct A as (_ & x & -> & A), B as (_ & y & -> & B). do 2 f_equal. eapply tuple_unique; eauto.
      * destruct A as (x & -> & A), B as (y & -> & B). do 2 f_equal. eapply rmembers_unique; eauto.
Qed.
Lemma rshows_one F c G n m t v d d' : rshows F c G n t v d -> rshows F c G m t v d' -> d = d'.
Proof.
  intros A B. apply (rshows_unique F c G (n + m) t v); [apply (rshows_le F c G n); [lia | exact A] | apply (rshows_le F c G m); [lia | exact B]].
Qed.
