(** Proofs for C69 and C70, part 4: what the deserializers do. *)
From Verif Require Import Base Types Text BinModel DeriveModel SpecDerive DeriveProofs PropsDerive GenModel SpecGen Gen TextModel TextFuel SpecGenText GenText GenTextSer.
Local Open Scope N_scope.

Section Peq.
  Context {S : Type}.
  Definition peq {A} (m1 m2 : @pm S A) : Prop := forall s, m1 s = m2 s.
  Lemma peq_refl {A} (m : @pm S A) : peq m m. Proof. intros s. reflexivity. Qed.
  Lemma peq_sym {A} (m1 m2 : @pm S A) : peq m1 m2 -> peq m2 m1. Proof. intros H s. rewrite H. reflexivity. Qed.
  Lemma peq_trans {A} (m1 m2 m3 : @pm S A) : peq m1 m2 -> peq m2 m3 -> peq m1 m3. Proof. intros H H' s. rewrite H. apply H'. Qed.
  Lemma peq_bind {A B} (m1 m2 : @pm S A) (f g : A -> @pm S B) : peq m1 m2 -> (forall a, peq (f a) (g a)) -> peq (pbind m1 f) (pbind m2 g).
  Proof. intros H Hf s. unfold pbind. rewrite H. destruct (m2 s) as [s' [a|e|p|]]; try reflexivity. apply Hf. Qed.
  Lemma peq_bind2 {A B} (m : @pm S A) (f g : A -> @pm S B) : (forall a, peq (f a) (g a)) -> peq (pbind m f) (pbind m g).
  Proof. intros H. apply peq_bind; [apply peq_refl|exact H]. Qed.
  Lemma peq_bind1 {A B} (m1 m2 : @pm S A) (f : A -> @pm S B) : peq m1 m2 -> peq (pbind m1 f) (pbind m2 f).
  Proof. intros H. apply peq_bind; [exact H|]. intros a. apply peq_refl. Qed.
  Lemma peq_assoc {A B C} (m : @pm S A) (f : A -> @pm S B) (g : B -> @pm S C) : peq (pbind (pbind m f) g) (pbind m (fun a => pbind (f a) g)).
  Proof. intros s. unfold pbind. destruct (m s) as [s' [a|e|p|]]; reflexivity. Qed.
  Lemma peq_ret {A B} (a : A) (f : A -> @pm S B) : peq (pbind (pret a) f) (f a).
  Proof. intros s. reflexivity. Qed.
  Lemma peq_eta {A} (m : @pm S A) : peq (pbind m (fun a => pret a)) m.
  Proof. intros s. unfold pbind. destruct (m s) as [s' [a|e|p|]]; reflexivity. Qed.

  Lemma peq_bind_map {A B C} (g : A -> B) (m1 : @pm S A) (m2 : @pm S B) (k1 : A -> @pm S C) (k2 : B -> @pm S C) :
    peq m2 (pmap g m1) -> (forall s s' a, m1 s = (s', Ok a) -> peq (k1 a) (k2 (g a))) -> peq (pbind m1 k1) (pbind m2 k2).
  Proof.
    intros H Hk s. unfold pbind. rewrite H. unfold pmap, pbind, pret. destruct (m1 s) as [s' [a|e|p|]] eqn:E; try reflexivity. apply (Hk _ _ _ E).
  Qed.

  (** The same loop on another representation of the state. *)
  Lemma peq_while {A B} (g : A -> B) (P : A -> Prop) cond (b1 : A -> @pm S A) (b2 : B -> @pm S B) :
    (forall a, P a -> peq (b2 (g a)) (pmap g (b1 a)) /\ forall s s' a', b1 a s = (s', Ok a') -> P a') ->
    forall n a, P a -> peq (while_ n cond b2 (g a)) (pmap g (while_ n cond b1 a)) /\
      forall s s' a', while_ n cond b1 a s = (s', Ok a') -> P a'.
  Proof.
    intros H. induction n as [|n IH]; intros a Ha; cbn [while_].
    - split; [intros s; reflexivity|]. intros s s' a' E. discriminate.
    - destruct (H a Ha) as [H1 H2]. split.
      + intros s. unfold pmap, pbind at 2. destruct (cond s) eqn:Ec; [|reflexivity].
        specialize (H1 s). unfold pbind, pmap, pbind in *. rewrite H1. destruct (b1 a s) as [s1 [a1|e|p|]] eqn:E1; try reflexivity.
        destruct (IH a1 (H2 _ _ _ E1)) as [IH1 _]. exact (IH1 s1).
      + intros s s' a' E. destruct (cond s); [|injection E as <- <-; exact Ha].
        unfold pbind in E. destruct (b1 a s) as [s1 [a1|e|p|]] eqn:E1; try discriminate.
        destruct (IH a1 (H2 _ _ _ E1)) as [_ IH2]. exact (IH2 _ _ _ E).
  Qed.
End Peq.

Section Named.
  Variable W : world.
  Variable conv : ty -> str -> proxy.
  Notation typ := (fun t => w_ty W t None).
  Context {S : Type}.
  Variable L : lexer S.
  Variable D : ty -> @pm S val.
  Variable n : nat.
  Variable fm : fmt.
  Hypothesis Hplain : forall t, plain_ty (w_ty W t None).

  Definition via (t : ty) : @pm S val := match fm, t with Json, TProxy p t' => pmap (p_from p) (D t') | _, _ => D t end.
  Lemma via_plain t : via (w_ty W t None) = D (w_ty W t None).
  Proof. specialize (Hplain t). unfold via. destruct fm; [|reflexivity]. destruct (w_ty W t None); try reflexivity. destruct Hplain. Qed.

  Definition inner (f : sfield) : ty :=
    if opt f then match w_ty W (ty_text (sf_type f)) None with TOpt t => t | t => t end else w_ty W (ty_text (sf_type f)) None.
  Definition base (f : sfield) : ty := match px f with Some p => w_ty W p None | None => w_ty W (ty_text (sf_type f)) None end.
  Definition close (f : sfield) (v : val) : val :=
    match px f with
    | Some p => if opt f then VSome (p_from (conv (inner f) p) v) else p_from (conv (inner f) p) v
    | None => v
    end.
  Lemma known_px f p : field_known W conv f -> w_ty W (ty_text (sf_type f)) (Some p) = TProxy (conv (inner f) p) (w_ty W p None).
  Proof.
    intros (_ & t' & Ht & Hc). rewrite Hc. unfold inner, opt. destruct (is_option (sf_type f)); rewrite Ht; reflexivity.
  Qed.
  Lemma de_field_via f : field_known W conv f -> (fm = Ron -> px f = None) ->
    peq (de_field via (source_field W true f)) (pbind (D (base f)) (fun v => pret (close f v))).
  Proof.
    intros Hf Hro. unfold de_field. change (f_isopt (source_field W true f)) with (opt f).
    change (f_hasproxy (source_field W true f)) with (is_some (px f)). change (f_ty (source_field W true f)) with (w_ty W (ty_text (sf_type f)) (px f)).
    unfold base, close. destruct (px f) as [p|].
    - rewrite known_px by exact Hf. unfold via. destruct fm; [|discriminate (Hro eq_refl)]. cbn [is_some]. destruct (opt f); cbn [andb].
      + apply (peq_trans _ _ _ (peq_assoc _ _ _)). apply peq_bind2. intros v s. reflexivity.
      + apply peq_refl.
    - cbn [is_some]. rewrite Bool.andb_false_r. rewrite via_plain. apply peq_sym, peq_eta.
  Qed.

  (** What the variables of the fields hold, seen through the conversions. *)
  Definition held1 (loc : list (str * val)) (f : sfield) : option val := if skipped f then None else option_map (close f) (assoc (local f) loc).
  Definition held (fs : list sfield) (loc : list (str * val)) : list (option val) := map (held1 loc) fs.
  Definition only_read (fs : list sfield) (loc : list (str * val)) : Prop := forall f, In f fs -> skipped f = true -> assoc (local f) loc = None.

  Lemma local_ne f g : sf_name f <> sf_name g -> local f <> local g.
  Proof. intros H E. apply H. unfold local in E. apply app_inv_head in E. exact E. Qed.
  Lemma nodup_ne fs (f g : sfield) : NoDup (map sf_name fs) -> In f fs -> In g fs -> f <> g -> sf_name f <> sf_name g.
  Proof.
    induction fs as [|h fs IH]; intros Hnd Hf Hg Hne E; [destruct Hf|]. cbn [map] in Hnd. inversion Hnd as [|? ? Hh Hnd']; subst.
    destruct Hf as [->|Hf], Hg as [->|Hg].
    - apply Hne. reflexivity.
    - apply Hh. rewrite E. apply in_map. exact Hg.
    - apply Hh. rewrite <- E. apply in_map. exact Hf.
    - exact (IH Hnd' Hf Hg Hne E).
  Qed.
  Lemma held_set fs f v loc : NoDup (map sf_name fs) -> skipped f = false -> forall j, nth_error fs j = Some f ->
    set_nth j (Some (close f v)) (held fs loc) = held fs ((local f, v) :: loc).
  Proof.
    intros Hnd Hs. induction fs as [|g fs IH]; intros [|j] Hj; try discriminate; cbn [nth_error] in Hj; cbn [map] in Hnd; inversion Hnd as [|? ? Hg Hnd']; subst; cbn [held map set_nth].
    - injection Hj as ->. f_equal.
      + unfold held1. rewrite Hs, assoc_here. reflexivity.
      + apply map_ext_in. intros h Hh. unfold held1. rewrite assoc_cons_ne; [reflexivity|]. apply local_ne. intros E. apply Hg. rewrite E. apply in_map. exact Hh.
    - f_equal.
      + unfold held1. rewrite assoc_cons_ne; [reflexivity|]. apply local_ne. intros E. apply Hg. rewrite <- E. apply in_map. eapply nth_error_In. exact Hj.
      + apply (IH Hnd' j Hj).
  Qed.
  Lemma find_arm key fs : forall i,
    match find_field key (map (source_field W true) fs) i with
    | None => assoc key (map (fun f => (key_name f, local f)) (filter (fun f => negb (skipped f)) fs)) = None
    | Some (k, sf) => exists j f, k = (i + j)%nat /\ nth_error fs j = Some f /\ sf = source_field W true f /\ skipped f = false /\
        assoc key (map (fun f => (key_name f, local f)) (filter (fun f => negb (skipped f)) fs)) = Some (local f)
    end.
  Proof.
    induction fs as [|f fs IH]; intros i; [reflexivity|]. cbn [map find_field filter].
    change (f_skip (source_field W true f)) with (skipped f). change (field_key (source_field W true f)) with (key_name f).
    destruct (skipped f) eqn:Es; cbn [negb andb].
    - specialize (IH (Datatypes.S i)). destruct (find_field key _ _) as [[k sf]|]; [|exact IH].
      destruct IH as (j & g & -> & H). exists (Datatypes.S j), g. split; [lia|]. exact H.
    - cbn [map assoc]. destruct (str_eqb (key_name f) key).
      + exists 0%nat, f. split; [lia|]. split; [reflexivity|]. split; [reflexivity|]. split; [exact Es|reflexivity].
      + specialize (IH (Datatypes.S i)). destruct (find_field key _ _) as [[k sf]|]; [|exact IH].
        destruct IH as (j & g & -> & H). exists (Datatypes.S j), g. split; [lia|]. exact H.
  Qed.

  Notation item fs := (map (fun f => (sf_name f, ty_text (sf_type f))) fs).
  Section One.
    Variable m : tnamed.
    Variable fs : list sfield.
    Variable dflts : bool.
    Variable init : sfield -> tinit.
    Hypothesis Hnd : NoDup (map sf_name fs).
    Hypothesis Hfk : Forall (field_known W conv) fs.
    Hypothesis Hnp : Forall (fun f => name_plain (sf_name f) (sf_attrs f)) fs.
    Hypothesis Hloc : forall f, In f fs -> skipped f = false -> local_type typ (item fs) m (local f) = Some (base f).
    Hypothesis Hrx : fm = Ron -> forall f, In f fs -> px f = None.
    Hypothesis Harms : tn_arms m = arms_of fs.
    Hypothesis Hinits : tn_inits m = map (fun f => (sf_name f, init f)) fs.
    Hypothesis Hinit : forall f loc, In f fs -> only_read fs loc ->
      peq (run_tinit typ (w_expr W) (w_default W) conv L m loc (ty_text (sf_type f)) (init f))
          (unwrap_field L dflts (source_field W true f) (held1 loc f)).

    Lemma arms_plain : forallb (fun a => plain_lit (fst a)) (map (fun f => (key_name f, local f)) (filter (fun f => negb (skipped f)) fs)) = true.
    Proof.
      apply forallb_forall. intros [k x] Hx. apply in_map_iff in Hx as (f & E & Hf). injection E as <- <-. apply filter_In in Hf as [Hf _].
      rewrite Forall_forall in Hnp. destruct (Hnp _ Hf) as [H1 H2]. cbn [fst]. unfold key_name. destruct (value_in _ _); assumption.
    Qed.
    Lemma run_turn_eq loc : only_read fs loc ->
      peq (named_body L fm via n (map (source_field W true) fs) (held fs loc)) (pmap (held fs) (run_turn fm typ L D n (item fs) m loc)) /\
      forall s s' loc', run_turn fm typ L D n (item fs) m loc s = (s', Ok loc') -> only_read fs loc'.
    Proof.
      intros Hr. unfold named_body, run_turn. rewrite Harms. split.
      - apply peq_sym, (peq_trans _ _ _ (peq_assoc _ _ _)).
        assert (Hin : peq (pmap (held fs) (fun s =>
            match arms_of fs with
            | None => (s, Ok loc)
            | Some arms =>
              if negb (forallb (fun a => plain_lit (fst a)) arms) then pnot s else
              match assoc (key_of L fm s) arms with
              | Some x => match local_type typ (item fs) m x with
                          | Some t => pbind (p_next_colon L) (fun _ => pbind (D t) (fun v => pret ((x, v) :: loc))) s
                          | None => pnot s end
              | None => match fm with
                        | Json => pbind (p_next_colon L) (fun _ => pbind (whole_field L n) (fun _ => pret loc)) s
                        | Ron => perr L (UnexpectedKey (l_id L s)) s end
              end
            end))
          (fun s => match find_field (key_of L fm s) (map (source_field W true) fs) 0 with
                    | Some (i, f) => pbind (p_next_colon L) (fun _ => pbind (de_field via f) (fun v => pret (set_nth i (Some v) (held fs loc)))) s
                    | None => match map (source_field W true) fs, fm with
                              | [], _ => (s, Ok (held fs loc))
                              | _, Json => pbind (p_next_colon L) (fun _ => pbind (whole_field L n) (fun _ => pret (held fs loc))) s
                              | _, Ron => perr L (UnexpectedKey (l_id L s)) s end end)).
        { intros s. unfold pmap, pbind at 1. pose proof (find_arm (key_of L fm s) fs 0) as Hfa.
          destruct fs as [|f0 fs0] eqn:Efs; [reflexivity|]. rewrite <- Efs in *.
          assert (Ea : arms_of fs = Some (map (fun f => (key_name f, local f)) (filter (fun f => negb (skipped f)) fs))) by (rewrite Efs; reflexivity).
          rewrite Ea, arms_plain. cbn [negb].
          destruct (find_field _ _ _) as [[k sf]|].
          - destruct Hfa as (j & f & -> & Hj & -> & Hs & ->). assert (Hf : In f fs) by (eapply nth_error_In; exact Hj).
            rewrite (Hloc f Hf Hs). rewrite Forall_forall in Hfk.
            transitivity (pmap (held fs) (pbind (p_next_colon L) (fun _ => pbind (D (base f)) (fun v => pret ((local f, v) :: loc)))) s); [reflexivity|].
            apply (peq_trans _ _ _ (peq_assoc _ _ _)). apply peq_bind2. intros _. apply (peq_trans _ _ _ (peq_assoc _ _ _)). apply peq_sym.
            eapply peq_trans; [apply peq_bind1, de_field_via; [apply Hfk, Hf|intros E; exact (Hrx E f Hf)]|]. apply (peq_trans _ _ _ (peq_assoc _ _ _)). apply peq_bind2. intros v s1. unfold pbind, pret. cbn [Nat.add].
            rewrite (held_set fs f v loc Hnd Hs j Hj). reflexivity.
          - rewrite Hfa. rewrite Efs. cbn [map]. rewrite <- Efs. destruct fm; [|reflexivity].
            transitivity (pmap (held fs) (pbind (p_next_colon L) (fun _ => pbind (whole_field L n) (fun _ => pret loc))) s); [reflexivity|].
            apply (peq_trans _ _ _ (peq_assoc _ _ _)). apply peq_bind2. intros _. apply (peq_trans _ _ _ (peq_assoc _ _ _)). apply peq_bind2. intros v. apply peq_refl. }
        eapply peq_trans; [|apply peq_bind1, Hin]. apply peq_sym. eapply peq_trans; [apply peq_assoc|]. apply peq_bind2. intros loc' s.
        unfold pbind, pret. destruct (eat_scomma L fm s) as [s1 [u|e|p|]]; reflexivity.
      - intros s s' loc' E. unfold pbind at 1 in E.
        assert (Hend : forall s1 x, pbind (eat_scomma L fm) (fun _ => pret x) s1 = (s', Ok loc') -> x = loc').
        { intros s1 x E1. unfold pbind, pret in E1. destruct (eat_scomma L fm s1) as [s2 [u|e|p|]]; try discriminate. injection E1 as _ <-. reflexivity. }
        destruct fs as [|f0 fs0] eqn:Efs; [intros g []|]. rewrite <- Efs in *.
        assert (Ea : arms_of fs = Some (map (fun f => (key_name f, local f)) (filter (fun f => negb (skipped f)) fs))) by (rewrite Efs; reflexivity).
        rewrite Ea, arms_plain in E. cbn [negb] in E. pose proof (find_arm (key_of L fm s) fs 0) as Hfa.
        destruct (find_field _ _ _) as [[k sf]|].
        + destruct Hfa as (j & f & _ & Hj & _ & Hs & Has). rewrite Has in E. assert (Hf : In f fs) by (eapply nth_error_In; exact Hj).
          rewrite (Hloc f Hf Hs) in E. unfold pbind at 1 in E. destruct (p_next_colon L s) as [s1 [u|e|p|]]; try discriminate.
          unfold pbind at 1 in E. destruct (D (base f) s1) as [s2 [v|e|p|]]; try discriminate. apply Hend in E. subst loc'.
          intros g Hg Hsg. rewrite assoc_cons_ne; [apply Hr; assumption|]. apply local_ne. apply (nodup_ne fs); try assumption. intros ->. congruence.
        + rewrite Hfa in E. destruct fm; [|discriminate]. unfold pbind at 1 in E. destruct (p_next_colon L s) as [s1 [u|e|p|]]; try discriminate.
          unfold pbind at 1 in E. destruct (whole_field L n s1) as [s2 [v|e|p|]]; try discriminate. apply Hend in E. subst loc'. exact Hr.
    Qed.

    Lemma run_tinits_eq loc : only_read fs loc -> forall fs', (forall f, In f fs' -> In f fs) ->
      peq (pmap (map snd) (run_tinits typ (w_expr W) (w_default W) conv L (item fs) m loc (map (fun f => (sf_name f, init f)) fs')))
          (unwrap_fields L dflts (map (source_field W true) fs') (held fs' loc)).
    Proof.
      intros Hr. induction fs' as [|f fs' IH]; intros Hin; [apply peq_refl|]. cbn [map run_tinits held unwrap_fields].
      assert (Has : assoc (sf_name f) (item fs) = Some (ty_text (sf_type f))).
      { assert (Hf : In f fs) by (apply Hin; left; reflexivity). clear -Hnd Hf. induction fs as [|g gs IHg]; [destruct Hf|]. cbn [map] in *. inversion Hnd as [|? ? Hg Hnd']; subst.
        destruct Hf as [->|Hf]; [apply assoc_here|]. rewrite assoc_cons_ne; [apply IHg; assumption|]. intros E. apply Hg. rewrite E. apply in_map. exact Hf. }
      rewrite Has. apply (peq_trans _ _ _ (peq_assoc _ _ _)). apply peq_bind; [apply Hinit; [apply Hin; left; reflexivity|exact Hr]|].
      intros v. apply (peq_trans _ _ _ (peq_assoc _ _ _)). eapply peq_trans; [|apply peq_bind1, IH; intros g Hg; apply Hin; right; exact Hg].
      apply peq_sym. eapply peq_trans; [apply peq_assoc|]. apply peq_bind2. intros r s. reflexivity.
    Qed.
    Lemma tinits_keys loc : forall l s s' r, run_tinits typ (w_expr W) (w_default W) conv L (item fs) m loc l s = (s', Ok r) -> map fst r = map fst l.
    Proof.
      induction l as [|[f u] l IH]; intros s s' r E; cbn [run_tinits] in E; [injection E as <- <-; reflexivity|].
      destruct (assoc f (item fs)); [|discriminate]. unfold pbind at 1 in E. destruct (run_tinit _ _ _ _ _ _ _ _ _ s) as [s1 [v|e|p|]]; try discriminate.
      unfold pbind at 1 in E. destruct (run_tinits _ _ _ _ _ _ _ _ _ s1) as [s2 [vs|e|p|]] eqn:E2; try discriminate. injection E as <- <-. cbn [map fst]. f_equal. apply (IH _ _ _ E2).
    Qed.
    Lemma run_named_eq : peq (run_named fm typ (w_expr W) (w_default W) conv L D n (item fs) m) (de_named L fm via n dflts (map (source_field W true) fs)).
    Proof.
      unfold run_named, de_named. rewrite Hinits, !map_length, Nat.eqb_refl. cbn [negb]. apply peq_bind2. intros _.
      assert (H0 : only_read fs []) by (intros f Hf Hs; reflexivity).
      assert (Eh : map (fun _ => None) (map (source_field W true) fs) = held fs []).
      { unfold held. rewrite map_map. apply map_ext. intros f. unfold held1. destruct (skipped f); reflexivity. }
      rewrite Eh.
      destruct (peq_while (held fs) (only_read fs) (fun s => tok_is (l_tok L s) (k_key fm)) _ _ run_turn_eq n [] H0) as [Hw1 Hw2].
      refine (peq_bind_map (held fs) _ _ _ _ Hw1 _). clear Hw1. intros s s1 loc E. specialize (Hw2 _ _ _ E). clear E.
      assert (Hg : peq (pbind (run_tinits typ (w_expr W) (w_default W) conv L (item fs) m loc (map (fun f => (sf_name f, init f)) fs)) (fun vs => match collect (item fs) vs with Some l => pret l | None => pnot end))
        (unwrap_fields L dflts (map (source_field W true) fs) (held fs loc))).
      { eapply peq_trans; [|apply (run_tinits_eq loc Hw2 fs (fun f Hf => Hf))]. intros s2. unfold pmap, pbind.
        destruct (run_tinits _ _ _ _ _ _ _ _ _ s2) as [s3 [vs|e|p|]] eqn:E; try reflexivity.
        apply tinits_keys in E. rewrite map_map in E. rewrite (collect_all fs Hnd vs E). reflexivity. }
      exact (peq_bind2 _ _ _ (fun _ => Hg)).
    Qed.
  End One.

  Lemma assoc_local {A} (h : sfield -> A) fs f : NoDup (map sf_name fs) -> In f fs -> assoc (local f) (map (fun f => (local f, h f)) fs) = Some (h f).
  Proof.
    induction fs as [|g gs IH]; intros Hnd Hf; [destruct Hf|]. cbn [map] in *. inversion Hnd as [|? ? Hg Hnd']; subst.
    destruct Hf as [->|Hf]; [apply assoc_here|]. rewrite assoc_cons_ne; [apply IH; assumption|]. apply local_ne. intros E. apply Hg. rewrite E. apply in_map. exact Hf.
  Qed.
  Lemma assoc_item_in fs f : NoDup (map sf_name fs) -> In f fs -> assoc (sf_name f) (item fs) = Some (ty_text (sf_type f)).
  Proof.
    induction fs as [|g gs IH]; intros Hnd Hf; [destruct Hf|]. cbn [map] in *. inversion Hnd as [|? ? Hg Hnd']; subst.
    destruct Hf as [->|Hf]; [apply assoc_here|]. rewrite assoc_cons_ne; [apply IH; assumption|]. intros E. apply Hg. rewrite E. apply in_map. exact Hf.
  Qed.
  Lemma nodup_filter fs (q : sfield -> bool) : NoDup (map sf_name fs) -> NoDup (map sf_name (filter q fs)).
  Proof.
    induction fs as [|g gs IH]; intros Hnd; [constructor|]. cbn [map filter] in *. inversion Hnd as [|? ? Hg Hnd']; subst. destruct (q g); [|apply IH, Hnd'].
    cbn [map]. constructor; [|apply IH, Hnd']. intros H. apply Hg. apply in_map_iff in H as (x & E & Hx). apply filter_In in Hx as [Hx _]. rewrite <- E. apply in_map. exact Hx.
  Qed.
  Lemma init_local_json dflts f : init_local (json_init dflts f) = if skipped f then None else Some (local f, clos f).
  Proof. unfold json_init. destruct (skipped f), (source_default _ _); try reflexivity. destruct (opt f || dflts); reflexivity. Qed.
  Lemma run_clos_json f v : field_known W conv f -> run_clos typ conv (S := S) (clos f) (ty_text (sf_type f)) v = pret (close f v).
  Proof.
    intros (_ & t' & Ht & _). unfold clos, close, inner, opt. destruct (px f) as [p|]; [|reflexivity]. destruct (is_option (sf_type f)); cbn [run_clos]; rewrite Ht; reflexivity.
  Qed.
  Lemma json_named_eq dflts fs : fm = Json -> NoDup (map sf_name fs) -> Forall (field_known W conv) fs -> Forall (fun f => name_plain (sf_name f) (sf_attrs f)) fs ->
    peq (run_named fm typ (w_expr W) (w_default W) conv L D n (item fs) (json_named dflts fs)) (de_named L fm via n dflts (map (source_field W true) fs)).
  Proof.
    intros Hfm Hnd Hfk Hnp. apply (run_named_eq (json_named dflts fs) fs dflts (json_init dflts) Hnd Hfk Hnp); try reflexivity; [ |try (intros E; congruence)|].
    - intros f Hf Hs. unfold local_type. cbn [json_named tn_locals tn_inits].
      rewrite (assoc_local (fun _ => None) _ f); [|apply nodup_filter, Hnd|apply filter_In; rewrite Hs; auto].
      assert (H : forall fs', (forall g, In g fs' -> In g fs) -> In f fs' ->
        inferred typ (item fs) (local f) (map (fun f => (sf_name f, json_init dflts f)) fs') = Some (base f)).
      { induction fs' as [|g gs IH]; intros Hin Hi; [destruct Hi|]. cbn [map inferred]. rewrite init_local_json.
        assert (Hg : In g fs) by (apply Hin; left; reflexivity).
        assert (Hrest : sf_name g <> sf_name f -> In f gs) by (intros Hne; destruct Hi as [->|Hi]; [congruence|exact Hi]).
        destruct (str_eqb (sf_name g) (sf_name f)) eqn:Eg.
        - apply str_eqb_eq in Eg. assert (Egf : g = f).
          { destruct Hi as [Hi|Hi]; [exact Hi|].
            clear -Hnd Hf Hg Eg. induction fs as [|h hs IHh]; [destruct Hf|]. cbn [map] in Hnd. inversion Hnd as [|? ? Hh Hnd']; subst.
            destruct Hf as [->|Hf], Hg as [->|Hg]; [reflexivity| | |apply IHh; assumption].
            - exfalso. apply Hh. rewrite <- Eg. apply in_map. exact Hg.
            - exfalso. apply Hh. rewrite Eg. apply in_map. exact Hf. }
          subst g. rewrite Hs. rewrite str_eqb_refl. unfold clos, base. rewrite (assoc_item_in fs f Hnd Hf). destruct (px f); [destruct (opt f)|]; reflexivity.
        - assert (Eg' : sf_name g <> sf_name f) by (intros E; rewrite E, str_eqb_refl in Eg; discriminate). clear Eg. rename Eg' into Eg. specialize (IH (fun h Hh => Hin h (or_intror Hh)) (Hrest Eg)).
          destruct (skipped g); [exact IH|]. apply local_ne in Eg. apply str_eqb_neq in Eg. rewrite Eg. exact IH. }
      apply (H fs (fun g Hg => Hg) Hf).
    - intros f loc Hf Hr. rewrite Forall_forall in Hfk, Hnp. specialize (Hfk _ Hf). destruct (Hnp _ Hf) as [Hn _].
      unfold unwrap_field. cbn [source_field f_skip f_default f_tydefault f_isopt f_name]. fold (skipped f) (opt f).
      assert (Edd : w_expr W (ty_text (sf_type f)) dd = w_default W (ty_text (sf_type f))) by (apply Hfk).
      unfold json_init, held1. destruct (skipped f) eqn:Es.
      + destruct (source_default _ _) as [e|]; cbn [run_tinit option_map orb]; [apply peq_refl|]. rewrite Edd. apply peq_refl.
      + assert (Ha : assoc (local f) (tn_locals (json_named dflts fs)) = Some None).
        { cbn [json_named tn_locals]. apply (assoc_local (fun _ => None)); [apply nodup_filter, Hnd|apply filter_In; rewrite Es; auto]. }
        destruct (source_default _ _) as [e|]; cbn [option_map orb].
        * cbn [run_tinit]. rewrite Ha. destruct (assoc (local f) loc); cbn [option_map]; [rewrite run_clos_json by exact Hfk|]; apply peq_refl.
        * destruct (opt f || dflts); cbn [run_tinit]; rewrite Ha; (destruct (assoc (local f) loc); cbn [option_map]; [rewrite run_clos_json by exact Hfk|]); rewrite ?Hn; apply peq_refl.
  Qed.
  Lemma ron_named_eq dflts fs : fm = Ron -> NoDup (map sf_name fs) -> Forall (field_known W conv) fs -> Forall (fun f => name_plain (sf_name f) (sf_attrs f)) fs -> Forall no_proxy fs ->
    peq (run_named fm typ (w_expr W) (w_default W) conv L D n (item fs) (ron_named dflts fs)) (de_named L fm via n dflts (map (source_field W true) fs)).
  Proof.
    intros Hfm Hnd Hfk Hnp Hpx. apply (run_named_eq (ron_named dflts fs) fs dflts (ron_init dflts) Hnd Hfk Hnp); try reflexivity; [ |intros _ f Hf; rewrite Forall_forall in Hpx; exact (Hpx f Hf)|].
    - intros f Hf Hs. unfold local_type. cbn [ron_named tn_locals tn_inits]. rewrite (assoc_local (fun f => Some (ty_text (sf_type f))) _ f Hnd Hf).
      rewrite Forall_forall in Hpx. unfold base. rewrite (Hpx _ Hf : px f = None). reflexivity.
    - intros f loc Hf Hr. rewrite Forall_forall in Hfk, Hnp, Hpx. specialize (Hfk _ Hf). destruct (Hnp _ Hf) as [Hn _].
      assert (Hp : px f = None) by (apply (Hpx _ Hf)).
      unfold unwrap_field. cbn [source_field f_skip f_default f_tydefault f_isopt f_name]. fold (skipped f) (opt f).
      assert (Edd : w_expr W (ty_text (sf_type f)) dd = w_default W (ty_text (sf_type f))) by (apply Hfk).
      assert (Ha : assoc (local f) (tn_locals (ron_named dflts fs)) = Some (Some (ty_text (sf_type f)))).
      { cbn [ron_named tn_locals]. apply (assoc_local (fun f => Some (ty_text (sf_type f)))); assumption. }
      assert (Hc : forall v, close f v = v) by (intros v; unfold close; rewrite Hp; reflexivity).
      unfold ron_init, held1. destruct (skipped f) eqn:Es.
      + rewrite Bool.orb_true_r. cbn [orb]. destruct (source_default _ _) as [e|]; cbn [run_tinit option_map orb]; rewrite Ha, (Hr f Hf Es); [apply peq_refl|]. rewrite Edd. apply peq_refl.
      + rewrite Bool.orb_false_r. cbn [orb]. rewrite (Bool.orb_comm (opt f)).
        destruct (source_default _ _) as [e|]; cbn [option_map orb].
        * cbn [run_tinit]. rewrite Ha. destruct (assoc (local f) loc); cbn [option_map]; rewrite ?Hc; apply peq_refl.
        * destruct (dflts || opt f); cbn [run_tinit]; rewrite Ha; (destruct (assoc (local f) loc); cbn [option_map]; rewrite ?Hc, ?Edd, ?Hn; apply peq_refl).
  Qed.

  (** ** Tuples *)
  Lemma run_items_eq ts : peq (run_items fm typ L D ts (map (fun _ => true) ts)) (de_list (map (de_item L fm via) (map typ ts))).
  Proof.
    induction ts as [|t ts IH]; [apply peq_refl|]. cbn [map run_items de_list]. unfold de_item at 1. rewrite via_plain.
    apply peq_sym. eapply peq_trans; [apply peq_assoc|]. apply peq_bind2. intros v. eapply peq_trans; [apply peq_assoc|]. apply peq_bind2. intros u.
    eapply peq_trans; [apply peq_ret|]. apply peq_bind1. apply peq_sym, IH.
  Qed.
  Lemma run_tuple_eq ts : peq (run_tuple fm typ L D true ts (map (fun _ => true) ts)) (de_bracketed L fm (map (de_item L fm via) (map typ ts))).
  Proof. unfold run_tuple, de_bracketed. apply peq_bind2. intros _. apply peq_bind1. apply run_items_eq. Qed.
End Named.

Section Enums.
  Variable W : world.
  Variable conv : ty -> str -> proxy.
  Variable self_conv : str -> proxy.
  Notation typ := (fun t => w_ty W t None).
  Context {S : Type}.
  Variable L : lexer S.
  Variable D : ty -> @pm S val.
  Variable n : nat.
  Variable fm : fmt.
  Hypothesis Hplain : forall t, plain_ty (w_ty W t None).
  Notation via := (via D fm).

  Definition vshape_of (v : svariant) : str * vshape :=
    (sv_name v, match sv_payload v with PUnit => VsUnit | PTuple ts _ => VsTuple (map ty_text ts) | PStruct fs _ => VsStruct (map (fun f => (sf_name f, ty_text (sf_type f))) fs) end).
  Variable vs : list svariant.
  Hypothesis Hnd : NoDup (map sv_name vs).
  Hypothesis Hfs : Forall (fun v => match sv_payload v with PStruct fs _ => NoDup (map sf_name fs) | _ => True end) vs.
  Hypothesis Hfk : Forall (fun v => match sv_payload v with PStruct fs _ => Forall (field_known W conv) fs | _ => True end) vs.
  Hypothesis Hnf : Forall (fun v => match sv_payload v with PStruct fs _ => Forall (fun f => name_plain (sf_name f) (sf_attrs f)) fs | _ => True end) vs.

  Lemma repeat_map {A B} (b : B) (l : list A) : repeat b (length l) = map (fun _ => b) l.
  Proof. induction l as [|x l IH]; [reflexivity|]. cbn [length repeat map]. rewrite IH. reflexivity. Qed.
  Lemma repeat_text (ts : list sty) : repeat true (length ts) = map (fun _ => true) (map ty_text ts).
  Proof. rewrite map_map. apply repeat_map. Qed.

  (** One variant. [arm]: what the macro wrote for it. *)
  Lemma run_pay_eq (arm : svariant -> tarm) k v : nth_error vs k = Some v ->
    match sv_payload v with
    | PUnit => snd (arm v) = TpUnit
    | PTuple ts _ => snd (arm v) = TpTuple (length ts)
    | PStruct fs _ => exists m, snd (arm v) = TpNamed m /\
        peq (run_named fm typ (w_expr W) (w_default W) conv L D n (map (fun f => (sf_name f, ty_text (sf_type f))) fs) m) (de_named L fm via n false (map (source_field W true) fs))
    end ->
    peq (run_pay fm typ (w_expr W) (w_default W) conv L D n (map vshape_of vs) (sv_name v) (snd (arm v))) (de_body L fm via n (N.of_nat k) (v_body (source_variant W v))).
  Proof.
    intros Hk Ha. assert (Hnd' : NoDup (map fst (map vshape_of vs))) by (rewrite map_map; exact Hnd).
    pose proof (find_shape_nth (map vshape_of vs) Hnd' 0 k (sv_name v) (snd (vshape_of v))) as Hf.
    rewrite nth_error_map, Hk in Hf. specialize (Hf eq_refl). rewrite N.add_0_l in Hf. unfold run_pay. rewrite Hf.
    cbn [vshape_of snd source_variant v_body]. destruct (sv_payload v) as [|ts b|fs b].
    - rewrite Ha. apply peq_refl.
    - rewrite Ha. cbn [de_body]. rewrite repeat_text, <- (map_map ty_text typ). apply peq_bind1. apply run_tuple_eq, Hplain.
    - destruct Ha as (m & -> & Hm). cbn [de_body]. apply peq_bind1. exact Hm.
  Qed.

  (** The arms of some of the variants against the search for a variant. *)
  Lemma find_pick (arm : svariant -> tarm) (q : svariant -> bool) (P : variant -> bool) key :
    (forall v, P (source_variant W v) = q v && str_eqb (fst (fst (arm v))) key) -> forall us i,
    match find_variant P (map (source_variant W) us) i with
    | None => pick_arm key (map arm (filter q us)) = None
    | Some (t, sv) => exists k v, t = i + N.of_nat k /\ nth_error us k = Some v /\ q v = true /\ sv = source_variant W v /\
        pick_arm key (map arm (filter q us)) = Some (snd (fst (arm v)), snd (arm v))
    end.
  Proof.
    intros HP us. induction us as [|u us IH]; intros i; [reflexivity|]. cbn [map find_variant filter]. rewrite HP.
    specialize (IH (i + 1)).
    destruct (q u) eqn:Eq; cbn [andb].
    - cbn [map pick_arm]. destruct (arm u) as [[k0 v0] p0] eqn:Ea. cbn [fst snd]. destruct (str_eqb k0 key).
      + exists 0%nat, u. rewrite Ea. split; [lia|]. auto.
      + destruct (find_variant P _ _) as [[t sv]|]; [|exact IH]. destruct IH as (k & v & -> & H). exists (Datatypes.S k), v. split; [lia|]. exact H.
    - destruct (find_variant P _ _) as [[t sv]|]; [|exact IH]. destruct IH as (k & v & -> & H). exists (Datatypes.S k), v. split; [lia|]. exact H.
  Qed.
  Lemma nonempty_filter {A B} (q : A -> bool) (arm : A -> B) l : nonempty (map arm (filter q l)) = existsb q l.
  Proof. induction l as [|x l IH]; [reflexivity|]. cbn [filter existsb]. destruct (q x); [reflexivity|exact IH]. Qed.
  Lemma existsb_map {A B} (q : B -> bool) (h : A -> B) l : existsb q (map h l) = existsb (fun x => q (h x)) l.
  Proof. induction l as [|x l IH]; [reflexivity|]. cbn [map existsb]. rewrite IH. reflexivity. Qed.
  Lemma existsb_ext {A} (p q : A -> bool) l : (forall x, p x = q x) -> existsb p l = existsb q l.
  Proof. intros H. induction l as [|x l IH]; [reflexivity|]. cbn [existsb]. rewrite H, IH. reflexivity. Qed.
  Lemma unit_source v : is_unit (source_variant W v) = is_unit_v v.
  Proof. unfold is_unit, is_unit_v. cbn [source_variant v_body]. destruct (sv_payload v); reflexivity. Qed.
  Lemma plain_arms (arm : svariant -> tarm) (q : svariant -> bool) : Forall (fun v => plain_lit (fst (fst (arm v))) = true) vs ->
    forallb (fun a : tarm => plain_lit (fst (fst a))) (map arm (filter q vs)) = true.
  Proof.
    intros H. apply forallb_forall. intros a Ha. apply in_map_iff in Ha as (v & <- & Hv). apply filter_In in Hv as [Hv _]. rewrite Forall_forall in H. apply H, Hv.
  Qed.

  Lemma run_json_enum : fm = Json -> Forall (fun v => plain_lit (key_variant v) = true) vs ->
    peq (run_tde fm typ (w_expr W) (w_default W) conv self_conv (IEnum (map vshape_of vs)) L D n
           (TdJson (map json_darm (filter (fun v => negb (is_unit_v v)) vs)) (map json_darm (filter is_unit_v vs))))
        (de_enum_json L fm via n (map (source_variant W) vs)).
  Proof.
    intros Hfm Hkp. rewrite Forall_forall in Hfs, Hfk, Hnf. intros s. cbn [run_tde]. unfold de_enum_json.
    rewrite !nonempty_filter, !existsb_map.
    rewrite (existsb_ext (fun x => negb (is_unit (source_variant W x))) (fun v => negb (is_unit_v v)) vs) by (intros x; rewrite unit_source; reflexivity).
    rewrite (existsb_ext (fun x => is_unit (source_variant W x)) is_unit_v vs) by (intros x; apply unit_source).
    assert (Hpay : forall k v, nth_error vs k = Some v -> peq (run_pay fm typ (w_expr W) (w_default W) conv L D n (map vshape_of vs) (sv_name v) (snd (json_darm v))) (de_body L fm via n (N.of_nat k) (v_body (source_variant W v)))).
    { intros k v Hk. apply (run_pay_eq json_darm); [exact Hk|]. assert (Hv : In v vs) by (eapply nth_error_In; exact Hk).
      specialize (Hfs _ Hv). specialize (Hfk _ Hv). specialize (Hnf _ Hv). unfold json_darm. cbn [snd]. destruct (sv_payload v); try reflexivity.
      eexists. split; [reflexivity|]. apply json_named_eq; assumption. }
    destruct (tok_is (l_tok L s) KCurlyOpen && _).
    - apply peq_bind2. intros _. apply peq_bind2. intros _. apply peq_bind2. intros _ s1. unfold run_arms. rewrite plain_arms by exact Hkp. cbn [negb].
      pose proof (find_pick json_darm (fun v => negb (is_unit_v v)) (fun v => negb (is_unit v) && str_eqb (variant_key Json v) (l_str L s1)) (l_str L s1)) as Hp.
      specialize (Hp (fun v => f_equal (fun b => negb b && _) (unit_source v)) vs 0).
      destruct (find_variant _ _ _) as [[t sv]|].
      + destruct Hp as (k & v & -> & Hk & _ & -> & ->). cbn [json_darm fst]. rewrite N.add_0_l.
        apply peq_bind1. apply (Hpay k v Hk).
      + rewrite Hp. reflexivity.
    - destruct (tok_is (l_tok L s) KStr && _); [|reflexivity].
      apply peq_bind2. intros _ s1. unfold run_arms. rewrite plain_arms by exact Hkp. cbn [negb].
      pose proof (find_pick json_darm is_unit_v (fun v => is_unit v && str_eqb (variant_key Json v) (l_str L s1)) (l_str L s1)) as Hp.
      specialize (Hp (fun v => f_equal (fun b => b && _) (unit_source v)) vs 0).
      destruct (find_variant _ _ _) as [[t sv]|].
      + destruct Hp as (k & v & -> & Hk & Hu & -> & ->). cbn [json_darm fst]. rewrite N.add_0_l, (Hpay k v Hk).
        cbn [source_variant v_body]. unfold is_unit_v in Hu. destruct (sv_payload v); try discriminate. reflexivity.
      + rewrite Hp. reflexivity.
  Qed.
  Lemma run_ron_enum : fm = Ron -> Forall (fun v => plain_lit (sv_name v) = true) vs ->
    Forall (fun v => match sv_payload v with PStruct fs _ => Forall no_proxy fs | _ => True end) vs ->
    peq (run_tde fm typ (w_expr W) (w_default W) conv self_conv (IEnum (map vshape_of vs)) L D n (TdRon (map ron_darm vs)))
        (de_enum_ron L fm via n (map (source_variant W) vs)).
  Proof.
    intros Hfm Hkp Hpx. rewrite Forall_forall in Hfs, Hfk, Hnf, Hpx. cbn [run_tde]. unfold de_enum_ron.
    apply peq_bind2. intros _ s1. unfold run_arms.
    assert (Ef : filter (fun _ => true) vs = vs) by (clear; induction vs as [|v l IH]; [reflexivity|]; cbn [filter]; rewrite IH; reflexivity).
    pose proof (plain_arms ron_darm (fun _ => true) Hkp) as Hpl. rewrite Ef in Hpl. replace (forallb _ _) with true by (symmetry; exact Hpl). cbn [negb].
    pose proof (find_pick ron_darm (fun _ => true) (fun v => str_eqb (variant_key Ron v) (l_id L s1)) (l_id L s1) (fun v => eq_refl) vs 0) as Hp. rewrite Ef in Hp.
    destruct (find_variant _ _ _) as [[t sv]|]; [|rewrite Hp; reflexivity].
    destruct Hp as (k & v & -> & Hk & _ & -> & ->). cbn [ron_darm fst]. rewrite N.add_0_l.
    apply (run_pay_eq ron_darm); [exact Hk|]. assert (Hv : In v vs) by (eapply nth_error_In; exact Hk).
    specialize (Hfs _ Hv). specialize (Hfk _ Hv). specialize (Hnf _ Hv). specialize (Hpx _ Hv). unfold ron_darm. cbn [snd]. destruct (sv_payload v); try reflexivity.
    eexists. split; [reflexivity|]. apply ron_named_eq; assumption.
  Qed.
End Enums.

Section DeAll.
  Variable W : world.
  Variable conv : ty -> str -> proxy.
  Variable self_conv : str -> proxy.
  Variable d : sdef.
  Hypothesis Hw : world_ok W conv self_conv d.
  Notation typ := (fun t => w_ty W t None).
  Context {S : Type}.
  Variable L : lexer S.

  (** The reader of a declaration, from the readers of the types in it. *)
  Definition decl_body (fm : fmt) (E : ty -> @pm S val) (n : nat) (dc : decl) : @pm S val :=
    match dc with
    | DStruct dflt _ fs => pmap VSeq (de_named L fm E n dflt fs)
    | DTuple tr fs => pmap VSeq (de_unnamed L fm E tr fs)
    | DProxy p t' => pmap (p_from p) (E t')
    | DEnum vs => match fm with Json => de_enum_json L fm E n vs | Ron => de_enum_ron L fm E n vs end
    end.

  Lemma snd_numbered ts : forall n, map snd (numbered n ts) = ts.
  Proof. induction ts as [|t ts IH]; intros n; [reflexivity|]. cbn [numbered map snd]. rewrite IH. reflexivity. Qed.
  Lemma tys_no_proxy fs : Forall no_proxy fs -> map (fun f => w_ty W (ty_text (sf_type f)) None) fs = map f_ty (map (source_field W false) fs).
  Proof.
    induction 1 as [|f fs Hf _ IH]; [reflexivity|]. cbn [map source_field f_ty]. unfold no_proxy in Hf. rewrite Hf, IH. reflexivity.
  Qed.
  Lemma struct_fields (P : sfield -> Prop) vs : Forall P (concat (map (fun v => match sv_payload v with PStruct fs _ => fs | _ => [] end) vs)) ->
    Forall (fun v => match sv_payload v with PStruct fs _ => Forall P fs | _ => True end) vs.
  Proof.
    intros H. rewrite Forall_forall in *. intros v Hv. destruct (sv_payload v) as [| |fs b] eqn:E; try exact I. apply Forall_forall. intros f Hf. apply H.
    apply in_concat. exists fs. split; [|exact Hf]. apply in_map_iff. exists v. rewrite E. split; [reflexivity|exact Hv].
  Qed.

  Lemma run_json_de D n : rust_ok d -> proxy_plain d -> names_plain d -> json_tuple_plain d ->
    peq (run_tde Json typ (w_expr W) (w_default W) conv self_conv (shape_of d) L D n (mk_json_de d)) (decl_body Json (via D Json) n (source_decl W d)).
  Proof.
    intros Hru Hpp [Hnp Hnv] Htp. destruct Hw as (Hplain & Hpr & Hfk).
    unfold source_decl, mk_json_de, shape_of, rust_ok, proxy_plain, json_tuple_plain, all_fields, container_proxy in *.
    assert (Hvia : forall p, value_in (chars "proxy") (items (sd_attrs d)) = Some p -> forall sh,
      peq (run_tde Json typ (w_expr W) (w_default W) conv self_conv sh L D n (TdVia p)) (pmap (p_from (fst (w_proxy W p))) (via D Json (snd (w_proxy W p))))).
    { intros p _ sh. rewrite Hpr. cbn [fst snd]. rewrite via_plain by exact Hplain. destruct sh; apply peq_refl. }
    destruct (sd_body d) as [fs bb|fs bb| |vs bb].
    - destruct (value_in (chars "proxy") (items (sd_attrs d))) as [p|]; [apply Hvia; reflexivity|].
      cbn [decl_body run_tde]. apply peq_bind1. apply json_named_eq; auto.
    - destruct (value_in (chars "proxy") (items (sd_attrs d))) as [p|]; [apply Hvia; reflexivity|].
      cbn [decl_body].
      assert (Hall : forall fs', Forall no_proxy fs' -> peq (run_tde Json typ (w_expr W) (w_default W) conv self_conv (IStruct (numbered 0 (map (fun f => ty_text (sf_type f)) fs'))) L D n (TdTuple true (map (fun _ => true) fs')))
        (pmap VSeq (de_bracketed L Json (map (fun f => de_item L Json (via D Json) (f_ty f)) (map (source_field W false) fs'))))).
      { intros fs' Hp. cbn [run_tde]. rewrite snd_numbered. apply peq_bind1.
        rewrite <- (map_map (fun f => ty_text (sf_type f)) (fun _ => true)). eapply peq_trans; [apply run_tuple_eq, Hplain|].
        rewrite map_map, (map_map (fun x => ty_text (sf_type x))), <- (map_map f_ty (de_item L Json (via D Json))), <- tys_no_proxy, map_map by exact Hp. apply peq_refl. }
      destruct fs as [|f [|f' fs]]; [|clear Hall|exact (Hall _ Htp)].
      + intros s. cbn. unfold pmap, pbind. destruct (expect L KCurlyOpen _ s) as [s1 [u|e|p|]]; try reflexivity. destruct (expect L KCurlyClose _ s1) as [s2 [u'|e|p|]]; reflexivity.
      + inversion Htp as [|? ? Hp _]; subst. cbn [map json_dunnamed run_tde numbered snd]. cbn [de_unnamed source_field f_ty]. unfold no_proxy in Hp. rewrite Hp.
        assert (H1 : peq (run_items Json typ L D [ty_text (sf_type f)] [false]) (pmap (fun v => [v]) (D (w_ty W (ty_text (sf_type f)) None)))).
        { cbn [run_items]. apply peq_bind2. intros v s. reflexivity. }
        destruct (word_in (chars "transparent") (items (sd_attrs d))); cbn [negb run_tuple].
        * apply peq_bind1. rewrite via_plain by exact Hplain. exact H1.
        * apply peq_bind1. unfold de_bracketed. apply peq_bind2. intros _. apply peq_bind1. rewrite via_plain by exact Hplain. exact H1.
    - destruct (value_in (chars "proxy") (items (sd_attrs d))) as [p|]; [apply Hvia; reflexivity|].
      intros s. cbn. unfold pmap, pbind. destruct (expect L KCurlyOpen _ s) as [s1 [u|e|p|]]; try reflexivity. destruct (expect L KCurlyClose _ s1) as [s2 [u'|e|p|]]; reflexivity.
    - destruct (value_in (chars "proxy") (items (sd_attrs d))) as [p|]; [destruct Hpp as [_ []]; discriminate|].
      destruct Hru as (Hnd & _ & Hfs). cbn [decl_body].
      refine (run_json_enum W conv self_conv L D n Json Hplain vs Hnd Hfs (struct_fields _ _ Hfk) (struct_fields _ _ Hnp) eq_refl _).
      eapply Forall_impl; [|exact Hnv]. intros v [H1 H2]. unfold key_variant. destruct (value_in (chars "rename") (items (sv_attrs v))); assumption.
  Qed.

  Lemma run_ron_de D n : rust_ok d -> names_plain d -> ron_plain d -> container_ok Ron d ->
    peq (run_tde Ron typ (w_expr W) (w_default W) conv self_conv (shape_of d) L D n (mk_ron_de d)) (decl_body Ron (via D Ron) n (source_decl W d)).
  Proof.
    intros Hru [Hnp Hnv] (Hcp & Hrp & Hrt) [Hco _]. destruct Hw as (Hplain & Hpr & Hfk). specialize (Hco eq_refl).
    unfold source_decl, mk_ron_de, shape_of, rust_ok, all_fields in *. rewrite Hcp, Hco.
    destruct (sd_body d) as [fs bb|fs bb| |vs bb].
    - cbn [decl_body run_tde is_some]. rewrite Bool.orb_false_r. apply peq_bind1. apply ron_named_eq; auto.
    - cbn [decl_body run_tde]. rewrite snd_numbered. apply peq_bind1.
      rewrite <- (map_map (fun f => ty_text (sf_type f)) (fun _ => true)). eapply peq_trans; [apply run_tuple_eq, Hplain|].
      cbn [de_unnamed]. rewrite map_map, (map_map (fun x => ty_text (sf_type x))), <- (map_map f_ty (de_item L Ron (via D Ron))), <- tys_no_proxy, map_map by exact Hrp. apply peq_refl.
    - contradiction.
    - destruct Hru as (Hnd & _ & Hfs). cbn [decl_body].
      refine (run_ron_enum W conv self_conv L D n Ron Hplain vs Hnd Hfs (struct_fields _ _ Hfk) (struct_fields _ _ Hnp) eq_refl _ (struct_fields _ _ Hrp)).
      eapply Forall_impl; [|exact Hnv]. intros v [H1 _]. exact H1.
  Qed.

  (** ** Fuel *)
  Lemma ple_decl fm d1 d2 n dc : (forall t, ple (d1 t) (d2 t)) -> ple (decl_body fm d1 n dc) (decl_body fm d2 (Datatypes.S n) dc).
  Proof.
    intros H. destruct dc; cbn [decl_body].
    - apply ple_map, ple_named, H.
    - apply ple_map, ple_unnamed, H.
    - destruct fm; [apply ple_enum_json, H|apply ple_enum_ron, H].
    - apply ple_map, H.
  Qed.
  Variable F : flt.
  Variable c : cfg.
  Variable G : env.
  Lemma via_up fm n t : ple (via (de_text L F c G fm n) fm t) (de_text L F c G fm (Datatypes.S n) t).
  Proof. destruct fm; [|apply de_mono1]. destruct t; try apply de_mono1. apply ple_refl. Qed.
  Lemma via_down fm n t : ple (de_text L F c G fm n t) (via (de_text L F c G fm (Datatypes.S n)) fm t).
  Proof.
    destruct fm; [|apply de_mono1]. destruct t; try apply de_mono1. destruct n; [apply ple_nofuel|]. cbn [via]. intros s.
    destruct (ple_map (p_from p) _ _ (de_mono1 L F c G Json n t) s) as [E|E]; [left; exact E|]. 
    change (de_text L F c G Json (Datatypes.S n) (TProxy p t)) with (pmap (p_from p) (de_text L F c G Json n t)). rewrite E.
    apply (ple_map (p_from p) _ _ (de_mono1 L F c G Json (Datatypes.S n) t) s).
  Qed.
End DeAll.
