(** Proofs about [rcarries] (SpecRonShow.v). *)
From Verif Require Import Base Utf8 Types BinModel TyAll Text TextModel SpecText SpecGram TextRun TextFuel SpecDoc Doc SpecShow Show Carry SpecRon RonDoc SpecRonShow RonShow.
Local Open Scope N_scope.

Section Members.
  Variables (sh : ty -> val -> rdoc -> Prop) (skip : field -> bool) (key : field -> str).
  Notation msh := (rmembers_shown sh skip key).
  Lemma rmember_of_field fs l ms : msh fs l ms -> forall f v, In (f, v) (combine fs l) -> skip f = false ->
    (exists d, rfield_shown sh f v d /\ In (key f, d) ms) \/ (f_isopt f = true /\ v = VNone).
  Proof.
    induction 1 as [|f v fs l ms Hs H IH|f fs l ms Hs Ho H IH|f v d fs l ms Hs Hk Hf H IH]; intros f0 v0 Hi H0; cbn [combine] in Hi; [contradiction| | |];
      destruct Hi as [E|Hi].
    - injection E as -> ->. congruence.
    - apply IH; assumption.
    - injection E as -> <-. auto.
    - apply IH; assumption.
    - injection E as -> ->. left. exists d. split; [exact Hf | left; reflexivity].
    - destruct (IH _ _ Hi H0) as [(d0 & A & B)|A]; [left; exists d0; split; [exact A | right; exact B] | auto].
  Qed.
  Lemma rfield_of_member fs l ms : msh fs l ms -> forall k d, In (k, d) ms ->
    exists f v, In (f, v) (combine fs l) /\ skip f = false /\ key f = k /\ rfield_shown sh f v d.
  Proof.
    induction 1 as [|f v fs l ms Hs H IH|f fs l ms Hs Ho H IH|f v d fs l ms Hs Hk Hf H IH]; intros k0 d0 Hi; [contradiction| | |].
    - destruct (IH _ _ Hi) as (g & w & A & B). exists g, w. split; [right; exact A | exact B].
    - destruct (IH _ _ Hi) as (g & w & A & B). exists g, w. split; [right; exact A | exact B].
    - destruct Hi as [E|Hi]; [injection E as <- <-; exists f, v; cbn; auto|].
      destruct (IH _ _ Hi) as (g & w & A & B). exists g, w. split; [right; exact A | exact B].
  Qed.
  Lemma rmembers_nodup fs l ms : msh fs l ms -> NoDup (map key (filter (fun f => negb (skip f)) fs)) -> NoDup (map fst ms).
  Proof.
    assert (Gen : forall fs l ms, msh fs l ms -> NoDup (map key (filter (fun f => negb (skip f)) fs)) ->
              NoDup (map fst ms) /\ forall k, In k (map fst ms) -> In k (map key (filter (fun f => negb (skip f)) fs))).
    { clear fs l ms. induction 1 as [|f v fs l ms Hs H IH|f fs l ms Hs Ho H IH|f v d fs l ms Hs Hk Hf H IH]; cbn [filter map fst]; rewrite ?Hs; cbn [negb map]; intro N.
      - split; [constructor | intros k []].
      - apply IH. exact N.
      - inversion N as [|x y N1 N2 E]; subst. destruct (IH N2) as [A B]. split; [exact A | intros k X; right; auto].
      - inversion N as [|x y N1 N2 E]; subst. destruct (IH N2) as [A B]. split; [constructor; [intro X; apply N1, B, X | exact A]|].
        intros k [<-|X]; [left; reflexivity | right; auto]. }
    intros Hm N. apply (Gen _ _ _ Hm N).
  Qed.
End Members.
Lemma rfield_shown_impl (P Q : ty -> val -> rdoc -> Prop) f v d : (forall t v d, P t v d -> Q t v d) -> rfield_shown P f v d -> rfield_shown Q f v d.
Proof. intro H. unfold rfield_shown. destruct (f_isopt f); [|auto]. destruct v; auto. destruct (f_ty f); auto. Qed.

Section Carry.
  Variables (F : flt) (c : cfg) (G : env) (c' : cfg) (G' : env).
  Notation car := (rcarries F c G c' G').
  Notation shw := (rshows F c G).
  Notation mns := (rmeans F c' G').
  Lemma rfields_carry n skip key fs l ms dflt' fs' l' : rmembers_shown (shw n) skip key fs l ms ->
    NoDup (map key (filter (fun f => negb (skip f)) fs)) -> rfields_kept skip key fs l fs' ->
    Forall2 (rfield_moved F c G c' G' skip key fs l dflt') fs' l' ->
    exists m, rfields_means (mns m) dflt' fs' ms l'.
  Proof.
    intros Hm Hn Hkept H. pose proof (rmembers_nodup _ _ _ _ _ _ Hm Hn) as N.
    assert (X : exists m, Forall2 (fun f v' => field_from (mns m) dflt' ms f v' /\
               forall k d, In (k, d) ms -> f_skip f = false -> key_of_field f = k -> exists w, field_means (mns m) f d w) fs' l').
    { clear Hkept. induction H as [|f' v' fs' l' Hf H [m IH]]; [exists O; constructor|].
      assert (Y : exists m', field_from (mns m') dflt' ms f' v' /\
               forall k d, In (k, d) ms -> f_skip f' = false -> key_of_field f' = k -> exists w, field_means (mns m') f' d w).
      { unfold rfield_moved in Hf. unfold field_from. destruct (f_skip f') eqn:Es; [exists O; split; [exact Hf | discriminate]|].
        destruct Hf as [(f & v & Hi & Hs & Hk & n1 & m1 & d & Hd & Hw)|[Ha Hnone]].
        - destruct (rmember_of_field _ _ _ _ _ _ Hm _ _ Hi Hs) as [(d0 & Hd0 & Hin)|(Ho & ->)].
          + assert (d = d0) as <-.
            { apply (rfield_unique (shw (n + n1)) (rshows_unique F c G (n + n1)) f v).
              - eapply rfield_shown_impl; [|exact Hd]. intros ? ? ? Q. apply (rshows_le F c G n1); [lia | exact Q].
              - eapply rfield_shown_impl; [|exact Hd0]. intros ? ? ? Q. apply (rshows_le F c G n); [lia | exact Q]. }
            rewrite Hk in Hin. exists m1. split; [left; exists d; split; [apply nodup_last; assumption | exact Hw]|].
            intros k d' Hi' _ <-. exists v'. rewrite (nodup_same _ _ _ _ N Hi' Hin). exact Hw.
          + exfalso. unfold rfield_shown in Hd. rewrite Ho in Hd. destruct Hd.
        - assert (A : ~ In (key_of_field f') (map fst ms)).
          { intro A. apply in_map_iff in A as ([k d] & E & A). cbn [fst] in E. subst k.
            destruct (rfield_of_member _ _ _ _ _ _ Hm _ _ A) as (f & v & Hi & Hs & Hk & Hd).
            destruct (Hnone f v Hi Hs Hk) as (Ho & ->). unfold rfield_shown in Hd. rewrite Ho in Hd. destruct Hd. }
          exists O. split; [right; split; assumption|]. intros k d Hi _ <-. exfalso. apply A. apply (in_map fst) in Hi. exact Hi. }
      destruct Y as (m' & Y1 & Y2). exists (m + m')%nat.
      assert (I1 : forall t d v, mns m t d v -> mns (m + m') t d v) by (intros; apply (rmeans_le F c' G' m); [lia | assumption]).
      assert (I2 : forall t d v, mns m' t d v -> mns (m + m') t d v) by (intros; apply (rmeans_le F c' G' m'); [lia | assumption]).
      assert (J : forall p q, (forall t d v, mns p t d v -> mns q t d v) -> forall f v', field_from (mns p) dflt' ms f v' -> field_from (mns q) dflt' ms f v').
      { intros p q I f v. unfold field_from. destruct (f_skip f); [auto|]. intros [(d & A & B)|A]; [left; exists d; split; [exact A | eapply field_means_impl; eauto] | auto]. }
      constructor.
      - split; [apply (J m'); assumption|]. intros k d A B C. destruct (Y2 k d A B C) as [w Hw]. exists w. apply (field_means_impl _ _ _ _ _ I2 Hw).
      - eapply f2_impl; [|exact IH]. cbv beta. intros f v [A B]. split; [apply (J m); assumption|]. intros k d A1 B1 C1. destruct (B k d A1 B1 C1) as [w Hw]. exists w. apply (field_means_impl _ _ _ _ _ I1 Hw). }
    destruct X as [m X]. exists m. split; [eapply f2_impl; [|exact X]; cbn; tauto|]. split.
    - intros k d f Hin Hf Hs Hk. clear - X Hin Hf Hs Hk. induction X as [|f0 v0 fs l [A B] X IH]; [contradiction|]. destruct Hf as [-> |Hf]; [eapply B; eassumption | auto].
    - intros k d Hin. destruct (rfield_of_member _ _ _ _ _ _ Hm _ _ Hin) as (f & v & Hi & Hs & <- & Hd). apply (Hkept f v Hi Hs).
      intros [Ho ->]. unfold rfield_shown in Hd. rewrite Ho in Hd. exact Hd.
  Qed.
  Lemma rlist_carry t t' l l' : Forall2 (fun v v' => car t v t' v') l l' ->
    exists n m ds, Forall2 (shw n t) l ds /\ Forall2 (mns m t') ds l'.
  Proof.
    induction 1 as [|v v' l l' (n1 & m1 & d & A & B) H (n & m & ds & IA & IB)]; [exists O, O, []; split; constructor|].
    exists (n + n1)%nat, (m + m1)%nat, (d :: ds). split; constructor.
    - apply (rshows_le F c G n1); [lia | exact A].
    - eapply f2_impl; [|exact IA]. intros. apply (rshows_le F c G n); [lia | assumption].
    - apply (rmeans_le F c' G' m1); [lia | exact B].
    - eapply f2_impl; [|exact IB]. intros. apply (rmeans_le F c' G' m); [lia | assumption].
  Qed.
  Lemma rtuple_carry ts l ts' l' : rtuple_carries F c G c' G' ts l ts' l' ->
    exists n m ds, tuple_shown (shw n) ts l ds /\ tuple_means (mns m) ts' ds l'.
  Proof.
    induction 1 as [|t v t' v' ts l ts' l' (n1 & m1 & d & A & B) H (n & m & ds & IA & IB)]; [exists O, O, []; split; constructor|].
    exists (n + n1)%nat, (m + m1)%nat, (d :: ds). split; constructor.
    - apply (rshows_le F c G n1); [lia | exact A].
    - eapply tuple_shown_impl; [|exact IA]. intros. apply (rshows_le F c G n); [lia | assumption].
    - apply (rmeans_le F c' G' m1); [lia | exact B].
    - eapply tuple_means_impl; [|exact IB]. intros. apply (rmeans_le F c' G' m); [lia | assumption].
  Qed.
  Lemma rmap_carry tk tk' tv tv' l l' : Forall2 (fun e e' => car tk (fst e) tk' (fst e') /\ car tv (snd e) tv' (snd e')) l l' ->
    exists n m ms, Forall2 (fun e x => shw n tk (fst e) (fst x) /\ shw n tv (snd e) (snd x)) l ms /\
      Forall2 (fun x e => mns m tk' (fst x) (fst e) /\ mns m tv' (snd x) (snd e)) ms l'.
  Proof.
    induction 1 as [|[k v] [k' v'] l l' [(n0 & m0 & d0 & A & B) (n1 & m1 & d & C & D)] H (n & m & ms & IA & IB)]; [exists O, O, []; split; constructor|].
    cbn [fst snd] in *. exists (n + n0 + n1)%nat, (m + m0 + m1)%nat, ((d0, d) :: ms). split; constructor; cbn [fst snd].
    - split; [apply (rshows_le F c G n0); [lia | exact A] | apply (rshows_le F c G n1); [lia | exact C]].
    - eapply f2_impl; [|exact IA]. intros a b [X Y]. split; apply (rshows_le F c G n); try lia; assumption.
    - split; [apply (rmeans_le F c' G' m0); [lia | exact B] | apply (rmeans_le F c' G' m1); [lia | exact D]].
    - eapply f2_impl; [|exact IB]. intros a b [X Y]. split; apply (rmeans_le F c' G' m); try lia; assumption.
  Qed.
End Carry.
