(** Every value with a RON round trip has a document; carrying documents to another program. *)
From Verif Require Import Base Utf8 Types BinModel TyAll Text TextModel SpecText SpecGram SpecRfc Doc SpecDoc SpecShow Show ShowAll SpecRon RonDoc SpecRonShow RonShow.
Local Open Scope N_scope.

Lemma rnumber_shown z : exists d, number_rdoc z d.
Proof. exists (RNum (dec_z z)), (dec_z z). split; [apply dec_literal | reflexivity]. Qed.
Lemma rdur_shown s ns : exists d, dur_rdoc s ns d.
Proof.
  destruct (rnumber_shown (Z.of_N s)) as [a Ha], (rnumber_shown (Z.of_N ns)) as [b Hb]. eexists. exists a, b. split; [exact Ha|]. split; [exact Hb|]. reflexivity.
Qed.
Section All.
  Variables (F : flt) (c : cfg) (G : env).
  Definition rshown (n : nat) (t : ty) (v : val) : Prop := exists d, rshows F c G n t v d.
  Lemma rlist_shown n t l : Forall (rshown n t) l -> exists ds, Forall2 (rshows F c G n t) l ds.
  Proof. induction 1 as [|v l [d Hd] H [ds Hds]]; [exists [] | exists (d :: ds)]; constructor; assumption. Qed.
  Lemma rtys_shown n ts l : Forall2 (rshown n) ts l -> exists ds, tuple_shown (rshows F c G n) ts l ds.
  Proof. induction 1 as [|t v ts l [d Hd] H [ds Hds]]; [exists [] | exists (d :: ds)]; constructor; assumption. Qed.
  Definition rfield_has (n : nat) (f : field) (v : val) : Prop :=
    (f_isopt f = true /\ v = VNone) \/ exists d, rfield_shown (rshows F c G n) f v d.
  Lemma rfields_shown n skip key fs l :
    Forall2 (fun f v => skip f = false -> ron_name (key f) /\ rfield_has n f v) fs l ->
    exists ms, rmembers_shown (rshows F c G n) skip key fs l ms.
  Proof.
    induction 1 as [|f v fs l Hf H [ms Hms]]; [exists []; constructor|]. destruct (skip f) eqn:Es; [exists ms; apply rmsh_skip; assumption|].
    destruct (Hf eq_refl) as [Hk [(A & ->)|[d Hd]]]; [exists ms; apply rmsh_none; assumption|]. exists ((key f, d) :: ms). apply rmsh_member; assumption.
  Qed.
  Theorem all_rshown n : forall t v, text_value c G Ron n t v -> rshown n t v.
  Proof.
    induction n as [|n IH]; intros t v Hv; [contradiction|].
    assert (Hfield : forall f v, field_value (text_value c G Ron n) (looks_none G Ron n) false f v -> f_skip f = false -> rfield_has n f v).
    { intros f w [Hw Hx] Hs. rewrite Hs in Hx. unfold rfield_has, rfield_shown. destruct (f_isopt f) eqn:Ho.
      - destruct w; try contradiction; [left; auto|].
        right. unfold wf_field in Hw. destruct (f_ty f) eqn:Et; try (destruct Hw; congruence).
        + destruct (IH _ _ (proj1 Hx)) as [d Hd]. exists d. exact Hd.
        + exfalso. clear - Hx. destruct n as [|n]; [exact Hx|]. cbn [text_value] in Hx. destruct w; destruct Hx; discriminate.
      - right. destruct (IH _ _ Hx) as [d Hd]. exists d. exact Hd. }
    unfold rshown. cbn [rshows]. destruct t as [k| | | | | |t'|k t'|k tk tv|m t'|ts|t'| | |p t'|i]; unfold rshows1.
    - destruct v; cbn [text_value] in Hv; try (destruct k; contradiction). destruct Hv as (H1 & H2 & H3).
      destruct (rnumber_shown z) as [d Hd]. exists d. auto.
    - destruct v; try contradiction. eexists. split; [exact Hv | reflexivity].
    - destruct v; try contradiction. eexists. split; [exact Hv | reflexivity].
    - destruct v; try contradiction. eexists. reflexivity.
    - destruct v; try contradiction. eexists. reflexivity.
    - destruct v; try contradiction. eexists. reflexivity.
    - destruct v; try contradiction; [eexists; reflexivity|]. apply IH; apply Hv.
    - destruct v; try contradiction. destruct Hv as [Hv _]. destruct (rlist_shown n t' l) as [ds Hds].
      { rewrite Forall_forall in *. intros x Hx. apply IH; apply Hv; exact Hx. }
      exists (RList ds), ds. auto.
    - destruct v; try contradiction. destruct Hv as [Hv _].
      assert (X : exists ms, Forall2 (fun e m => rshows F c G n tk (fst e) (fst m) /\ rshows F c G n tv (snd e) (snd m)) l ms).
      { induction Hv as [|e l [H1 H2] H [ms Hms]]; [exists []; constructor|].
        destruct (IH _ _ H1) as [s Hs]. destruct (IH _ _ H2) as [d Hd]. exists ((s, d) :: ms). constructor; auto. }
      destruct X as [ms Hms]. exists (RMap ms), ms. auto.
    - destruct v; try contradiction. destruct Hv as (H1 & H2 & H3). destruct (rlist_shown n t' l) as [ds Hds].
      { rewrite Forall_forall in *. intros x Hx. apply IH; apply H2; exact Hx. }
      exists (RTup ds). split; [exact H1|]. split; [exact H3|]. exists ds. auto.
    - destruct v; try contradiction. destruct Hv as [H1 H2]. destruct (rtys_shown n ts l) as [ds Hds].
      { clear H1. induction H2 as [|x y ts l Hx H IHl]; constructor; [apply IH; assumption | auto]. }
      exists (RTup ds). split; [exact H1|]. exists ds. auto.
    - cbn [text_value] in Hv. destruct (IH t' v) as [d Hd]; [destruct v; exact Hv|]. exists d. destruct v; exact Hd.
    - destruct v; try contradiction. destruct Hv as [H1 H2]. destruct (rdur_shown secs nanos) as [d Hd]. exists d. auto.
    - destruct v; try contradiction. destruct Hv as (H1 & H2 & H3). destruct (rdur_shown (Z.to_N secs) nanos) as [d Hd]. exists d. right. auto.
    - cbn [text_value] in Hv. exfalso. destruct v; destruct Hv; discriminate.
    - cbn [text_value] in Hv. destruct (nth_error G i) as [dd|] eqn:EG; [|destruct v; contradiction].
      destruct dd as [dflt cn fs|tr fs|vs|p t'].
      + destruct v; try contradiction. destruct Hv as (_ & Hn & Hv).
        destruct (rfields_shown n f_skip key_of_field fs l) as [ms Hms].
        { clear - Hv Hn Hfield. revert Hn. induction Hv as [|f v fs l Hf H IHl]; intros Hn; [constructor|].
          inversion Hn as [|? ? C1 C2]; subst. constructor; [|auto].
          intro Hs. split; [apply good_ron_name, (C1 Hs) | apply Hfield; auto]. }
        exists (members_rdoc ms), ms. auto.
      + destruct v; try contradiction. destruct Hv as [Hv He]. destruct (He eq_refl) as [Hne Hsk].
        assert (Hp : existsb f_hasproxy fs = false).
        { clear - Hv. induction Hv as [|f v fs l [A _] H IHl]; [reflexivity|]. cbn [existsb]. rewrite A. exact IHl. }
        assert (X : exists ds, unnamed_shown (rshows F c G n) fs l ds).
        { clear - Hv IH Hsk. revert Hsk. induction Hv as [|f v fs l [_ Hf] H IHl]; intro Hsk; [exists []; constructor|].
          cbn [existsb] in Hsk. apply orb_false_iff in Hsk as [S1 S2]. destruct (IHl S2) as [ds Hds]. destruct (IH _ _ Hf) as [d Hd].
          exists (d :: ds). apply ush_elem; assumption. }
        destruct X as [ds Hds]. exists (RTup ds). split; [exact Hp|]. split; [exact Hne|]. exists ds. auto.
      + destruct v; try contradiction. destruct Hv as [_ Hv]. destruct (nth_error vs (N.to_nat tag)) as [vr|] eqn:Ev; [|contradiction].
        destruct Hv as [Hg Hv]. apply good_ron_name in Hg.
        destruct (v_body vr) as [|ts|fs].
        * eexists. split; [exact Hg|]. split; [exact Hv | reflexivity].
        * destruct Hv as [Hne Hv]. destruct (rtys_shown n ts l) as [ds Hds].
          { clear Hne Ev. induction Hv as [|x y ts' l Hx H IHl]; constructor; [apply IH; assumption | auto]. }
          eexists. split; [exact Hg|]. split; [exact Hne|]. exists ds. auto.
        * destruct Hv as (_ & Hn & Hv).
          destruct (rfields_shown n (fun _ => false) f_name fs l) as [ms Hms].
          { clear - Hv Hn Hfield. revert Hn. induction Hv as [|f v fs l Hf H IHl]; intros Hn; inversion Hn as [|? ? (N1 & N2 & N3) N4]; subst; constructor; auto.
            intros _. split; [apply good_ron_name, N3 | apply Hfield; auto]. }
          eexists. split; [exact Hg|]. exists ms. split; [reflexivity | exact Hms].
      + exfalso. destruct v; destruct Hv; discriminate.
  Qed.
End All.
