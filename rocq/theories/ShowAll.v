(** Every value with a round trip has a document. *)
From Verif Require Import Base Utf8 Types BinModel TyAll Text TextModel SpecText SpecGram SpecRfc SpecDoc SpecShow Show.
Local Open Scope N_scope.

Lemma number_shown z : exists d, number_doc z d.
Proof. exists (JNum (dec_z z)), (dec_z z). split; [apply dec_literal | reflexivity]. Qed.
Lemma dur_shown s ns : exists d, dur_doc s ns d.
Proof.
  destruct (number_shown (Z.of_N s)) as [a Ha], (number_shown (Z.of_N ns)) as [b Hb]. eexists. exists a, b. split; [exact Ha|]. split; [exact Hb|]. reflexivity.
Qed.
Section All.
  Variables (F : flt) (c : cfg) (G : env).
  Hypothesis HG : json_env G.
  Definition shown (n : nat) (t : ty) (v : val) : Prop := exists d, shows F c G n t v d.
  Lemma key_shown n t v : string_key t -> text_value c G Json n t v -> exists s, shows F c G n t v (JStr s).
  Proof.
    revert t v. induction n as [|n IH]; intros t v Hk Hv; [contradiction|].
    destruct t; try contradiction; cbn [text_value] in *.
    - destruct v; try contradiction. exists s. reflexivity.
    - destruct (IH t v Hk) as (s & Hs); [destruct v; exact Hv|]. exists s. cbn [shows]. destruct v; exact Hs.
  Qed.
  Lemma list_shown n t l : Forall (shown n t) l -> exists ds, Forall2 (shows F c G n t) l ds.
  Proof. induction 1 as [|v l [d Hd] H [ds Hds]]; [exists [] | exists (d :: ds)]; constructor; assumption. Qed.
  Lemma tys_shown n ts l : Forall2 (shown n) ts l -> exists ds, tuple_shown (shows F c G n) ts l ds.
  Proof. induction 1 as [|t v ts l [d Hd] H [ds Hds]]; [exists [] | exists (d :: ds)]; constructor; assumption. Qed.
  Definition field_has (n : nat) (null : bool) (f : field) (v : val) : Prop :=
    (f_isopt f = true /\ v = VNone /\ null = false) \/ exists d, field_shown (shows F c G n) null f v d.
  Lemma fields_shown n skip null key fs l :
    Forall2 (fun f v => skip f = false -> json_name (key f) /\ field_has n (null f) f v) fs l ->
    exists ms, members_shown (shows F c G n) skip null key fs l ms.
  Proof.
    induction 1 as [|f v fs l Hf H [ms Hms]]; [exists []; constructor|]. destruct (skip f) eqn:Es; [exists ms; apply msh_skip; assumption|].
    destruct (Hf eq_refl) as [Hk [(A & -> & B)|[d Hd]]]; [exists ms; apply msh_none; assumption|]. exists ((key f, d) :: ms). apply msh_member; assumption.
  Qed.
  Theorem all_shown n : forall t v, text_value c G Json n t v -> ty_all json_node t -> shown n t v.
  Proof.
    destruct HG as [HGn HGd].
    induction n as [|n IH]; intros t v Hv Ht; [contradiction|].
    assert (Hdecl : forall i d, nth_error G i = Some d -> decl_all json_node d /\ json_decl d).
    { intros i d Hi. split; [eapply env_all_nth; eassumption|]. rewrite Forall_forall in HGd. apply HGd. eapply nth_error_In; exact Hi. }
    assert (Hfield : forall null f v, ty_all json_node (f_ty f) -> field_value (text_value c G Json n) (looks_none G Json n) null f v ->
              f_skip f = false -> field_has n null f v).
    { intros null f w Hf [Hw Hx] Hs. rewrite Hs in Hx. unfold field_has, field_shown. destruct (f_isopt f) eqn:Ho.
      - destruct w; try contradiction.
        + destruct null; [right; exists JNull; auto | left; auto].
        + right. unfold wf_field in Hw. destruct (f_ty f) eqn:Et; try (destruct Hw; congruence);
            [destruct (IH _ _ (proj1 Hx) (proj2 Hf)) as [d Hd] | destruct (IH _ _ Hx Hf) as [d Hd]]; exists d; exact Hd.
      - right. destruct (IH _ _ Hx Hf) as [d Hd]. exists d. exact Hd. }
    destruct t as [k| | | | | |t'|k t'|k tk tv|m t'|ts|t'| | |p t'|i]; unfold shown; cbn [shows].
    - destruct v; cbn [text_value] in Hv; try (destruct k; contradiction). destruct Hv as (H1 & H2 & H3).
      destruct (number_shown z) as [d Hd]. exists d. auto.
    - destruct v; try contradiction. eexists. split; [exact Hv | reflexivity].
    - destruct v; try contradiction. eexists. split; [exact Hv | reflexivity].
    - destruct v; try contradiction. eexists. reflexivity.
    - destruct v; try contradiction. eexists. reflexivity.
    - destruct v; try contradiction. eexists. reflexivity.
    - destruct v; try contradiction; [eexists; reflexivity|]. apply IH; [apply Hv | apply Ht].
    - destruct v; try contradiction. destruct Hv as [Hv _]. destruct (list_shown n t' l) as [ds Hds].
      { rewrite Forall_forall in *. intros x Hx. apply IH; [apply Hv; exact Hx | apply Ht]. }
      exists (JArr ds), ds. auto.
    - destruct v; try contradiction. destruct Hv as [Hv _]. destruct Ht as (Hk & Ht1 & Ht2).
      assert (X : exists ms, Forall2 (fun e m => shows F c G n tk (fst e) (JStr (fst m)) /\ shows F c G n tv (snd e) (snd m)) l ms).
      { induction Hv as [|e l [H1 H2] H [ms Hms]]; [exists []; constructor|].
        destruct (key_shown n tk _ Hk H1) as (s & Hs). destruct (IH _ _ H2 Ht2) as [d Hd]. exists ((s, d) :: ms). constructor; auto. }
      destruct X as [ms Hms]. exists (JObj ms), ms. auto.
    - destruct v; try contradiction. destruct Hv as (H1 & H2 & H3). destruct (list_shown n t' l) as [ds Hds].
      { rewrite Forall_forall in *. intros x Hx. apply IH; [apply H2; exact Hx | apply Ht]. }
      exists (JArr ds). split; [exact H1|]. split; [exact H3|]. exists ds. auto.
    - destruct v; try contradiction. destruct Hv as [H1 H2]. destruct Ht as [_ Ht]. apply ty_all_list in Ht. destruct (tys_shown n ts l) as [ds Hds].
      { clear H1. revert Ht. induction H2 as [|x y ts l Hx H IHl]; intro Ht; inversion Ht; subst; constructor; [apply IH; assumption | auto]. }
      exists (JArr ds). split; [exact H1|]. exists ds. auto.
    - cbn [text_value] in Hv. destruct (IH t' v) as [d Hd]; [destruct v; exact Hv | apply Ht|]. exists d. destruct v; exact Hd.
    - destruct v; try contradiction. destruct Hv as [H1 H2]. destruct (dur_shown secs nanos) as [d Hd]. exists d. auto.
    - destruct v; try contradiction. destruct Hv as (H1 & H2 & H3). destruct (dur_shown (Z.to_N secs) nanos) as [d Hd]. exists d. right. auto.
    - cbn [text_value] in Hv. assert (Hv' : text_value c G Json n t' (p_to p v)) by (destruct v; apply Hv).
      destruct (IH t' (p_to p v) Hv') as [d Hd]; [apply Ht|]. exists d. destruct v; exact Hd.
    - cbn [text_value] in Hv. destruct (nth_error G i) as [dd|] eqn:EG; [|destruct v; contradiction].
      destruct (Hdecl _ _ EG) as [Da Dj].
      destruct dd as [dflt cn fs|tr fs|vs|p t'].
      + destruct v; try contradiction. destruct Hv as (_ & Hn & Hv). cbn in Da, Dj.
        destruct (fields_shown n f_skip (none_as_null Json cn) key_of_field fs l) as [ms Hms].
        { clear - Hv Da Dj Hn Hfield. revert Da Dj Hn. induction Hv as [|f v fs l Hf H IHl]; intros Da Dj Hn; [constructor|].
          inversion Da as [|? ? A1 A2]; inversion Dj as [|? ? B1 B2]; inversion Hn as [|? ? C1 C2]; subst. constructor; [|auto].
          intro Hs. split; [apply (C1 Hs) | eapply Hfield; eauto]. }
        exists (JObj ms), ms. auto.
      + destruct v; try contradiction. destruct Hv as [Hv _]. cbn in Da.
        assert (Hp : existsb f_hasproxy fs = false).
        { clear - Hv. induction Hv as [|f v fs l [A _] H IHl]; [reflexivity|]. cbn [existsb]. rewrite A. exact IHl. }
        assert (He : Forall2 (fun f v => shown n (f_ty f) v) fs l).
        { clear - Hv Da IH. revert Da. induction Hv as [|f v fs l [_ Hf] H IHl]; intro Da; [constructor|]. inversion Da as [|? ? A1 A2]; subst.
          constructor; [apply IH; [exact Hf | exact A1] | auto]. }
        assert (Hw : exists ds, tuple_shown (shows F c G n) (map f_ty fs) l ds).
        { apply tys_shown. clear - He. induction He; constructor; assumption. }
        destruct Hw as [ds Hds]. destruct fs as [|f [|g fs]].
        * inversion He; subst. exists (JObj []). auto.
        * destruct tr; [|exists (JArr ds); split; [exact Hp|]; exists ds; auto].
          inversion He as [|? w ? ? [d Hd] X]; subst. inversion X; subst. exists d. split; [exact Hp|]. exists w. auto.
        * exists (JArr ds). split; [exact Hp|]. exists ds. auto.
      + destruct v; try contradiction. destruct Hv as [_ Hv]. destruct (nth_error vs (N.to_nat tag)) as [vr|] eqn:Ev; [|contradiction].
        destruct Hv as [Hg Hv]. pose proof (decl_all_variant _ _ _ _ Da Ev) as Dv.
        assert (Dk : match v_body vr with BStruct fs => forall p f, fs = p ++ [f] -> f_isopt f = false | _ => True end).
        { cbn in Dj. rewrite Forall_forall in Dj. specialize (Dj vr (nth_error_In _ _ Ev)) as [_ Dj]. destruct (v_body vr); auto. apply Dj. }
        destruct (v_body vr) as [|ts|fs].
        * eexists. split; [exact Hg|]. split; [exact Hv | reflexivity].
        * destruct Hv as [Hne Hv]. destruct (tys_shown n ts l) as [ds Hds].
          { clear Hne Ev. revert Dv. induction Hv as [|x y ts' l Hx H IHl]; intro Dv; inversion Dv; subst; constructor; [apply IH; assumption | auto]. }
          eexists. split; [exact Hg|]. split; [exact Hne|]. exists ds. auto.
        * destruct Hv as (_ & Hn & Hv).
          destruct (fields_shown n (fun _ => false) (fun _ => false) f_name fs l) as [ms Hms].
          { clear - Hv Dv Hn Hfield. revert Dv Hn. induction Hv as [|f v fs l Hf H IHl]; intros Dv Hn; inversion Dv; subst; inversion Hn as [|? ? (N1 & N2 & N3) N4]; subst; constructor; auto.
          }
          eexists. split; [exact Hg|]. exists ms. split; [reflexivity|]. split; [exact Hms|].
          destruct fs as [|f0 fs0]; [inversion Hms; subst; left; reflexivity|]. right.
          destruct (@exists_last _ (f0 :: fs0) ltac:(discriminate)) as (fs' & f & Ef). rewrite Ef in *.
          pose proof (Dk fs' f eq_refl) as Df.
          destruct l as [|v0 l0]; [inversion Hv as [X|]; destruct fs'; discriminate|].
          destruct (@exists_last _ (v0 :: l0) ltac:(discriminate)) as (l' & v & El). rewrite El. exists fs', f, l', v.
          split; [reflexivity|]. split; [reflexivity|]. congruence.
      + assert (Hv' : text_value c G Json n t' (p_to p v)) by (destruct v; apply Hv).
        destruct (IH t' (p_to p v) Hv' Da) as [d Hd]. exists d. destruct v; exact Hd.
  Qed.
End All.
