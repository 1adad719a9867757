(** Proofs for C84: a newer version of a program reads what the old one read, in RON. *)
From Verif Require Import Base Utf8 Types BinModel Text TextModel SpecText SpecGram SpecTok SpecDoc SpecAcc SpecRonAcc SpecNewer Newer.
Local Open Scope N_scope.

Lemma round_incl l ls xs : In l ls -> round_toks ls xs -> incl l xs.
Proof. intros H (ys & Hl & ->). intros a Ha. apply between_incl. exact (listed_incl _ _ _ H Hl a Ha). Qed.
Lemma robject_parts ms xs k d : In (k, d) ms -> robject_toks ms xs -> incl d xs.
Proof.
  intros H (ls & ys & Hm & Hl & ->).
  assert (E : exists l, In l ls /\ l = XW k :: xcolon :: d).
  { clear Hl. induction Hm as [|m l ms ls Hx Hm IH]; [contradiction|]. destruct H as [->|H].
    - destruct Hx as [_ E]. exists l. split; [left; reflexivity | exact E].
    - destruct (IH H) as (l0 & Hin & E). exists l0. split; [right; exact Hin | exact E]. }
  destruct E as (l & Hin & ->). pose proof (listed_incl _ _ _ Hin Hl) as I. intros a Ha. apply between_incl, I. right. right. exact Ha.
Qed.

Section Main.
  Variables (F : flt) (c : cfg) (so : bool) (fresh : str -> Prop) (G G' : env).
  Hypothesis HN : env_newer so Ron G fresh G'.
  Notation B := (becomes F Ron fresh G G').
  Notation newer := (ty_newer so Ron G).
  Notation T' := (rtakes F c G').
  Notation plain := (plain_toks so Ron fresh).

  (** What is read as a value of the old type is read as a value of the new one. *)
  Definition carries (n : nat) : Prop := forall t t' nx xs v, newer t t' -> plain xs -> rtakes F c G n nx t xs v ->
    exists v', ev (fun m => T' m nx t' xs v') /\ B t t' v v'.

  Lemma f2_new n t t' ls ws : carries n -> newer t t' -> (forall l, In l ls -> plain l) -> Forall2 (rtakes F c G n None t) ls ws ->
    exists ws', ev (fun m => Forall2 (T' m None t') ls ws') /\ Forall2 (B t t') ws ws'.
  Proof.
    intros IH Hn Hp H. assert (E : exists ws', Forall2 (fun l w' => ev (fun m => T' m None t' l w')) ls ws' /\ Forall2 (B t t') ws ws').
    { induction H as [|l w ls ws H Hs IHs]; [exists []; split; constructor|].
      destruct (IH _ _ _ _ _ Hn (Hp l (or_introl eq_refl)) H) as (w' & E & Hb). destruct IHs as (ws' & E' & Hb'); [intros x Hx; apply Hp; right; exact Hx|].
      exists (w' :: ws'). split; constructor; assumption. }
    destruct E as (ws' & E & Hb). exists ws'. split; [apply ev_f2, E | exact Hb].
  Qed.
  Lemma tuple_new n ts ts' ls ws : carries n -> Forall2 newer ts ts' -> (forall l, In l ls -> plain l) -> tuple_means (rtakes F c G n None) ts ls ws ->
    exists ws', ev (fun m => tuple_means (T' m None) ts' ls ws') /\ each B ts ts' ws ws'.
  Proof.
    intros IH Hn Hp H. revert ts' Hn. induction H as [|t l w ts ls ws H Hs IHs]; intros ts' Hn.
    - inversion Hn; subst. exists []. split; [apply ev_all; constructor | constructor].
    - inversion Hn as [|? t' ? ts0' Ht Hts]; subst. destruct (IH _ _ _ _ _ Ht (Hp l (or_introl eq_refl)) H) as (w' & E & Hb).
      destruct (IHs (fun x Hx => Hp x (or_intror Hx)) ts0' Hts) as (ws' & E' & Hb'). exists (w' :: ws'). split; [|constructor; assumption].
      apply (ev_imp (fun m => T' m None t' l w' /\ tuple_means (T' m None) ts0' ls ws')); [intros m [H1 H2]; constructor; assumption | apply ev_and; assumption].
  Qed.
  (** Keys and elements of sets. *)
  Lemma key_new n t t' nx xs v : key_wider so t t' -> plain xs -> rtakes F c G n nx t xs v -> ev (fun m => T' m nx t' xs v).
  Proof.
    intros Hk Hp H. destruct n as [|n]; [contradiction|]. exists 1%nat. intros [|m] Hm; [lia|].
    destruct t; cbn [key_wider] in Hk; try contradiction; destruct t'; try contradiction; cbn [rtakes] in *; try exact H.
    destruct H as (s & z & -> & -> & H). exists s, z. split; [reflexivity|]. split; [reflexivity|]. apply (int_wider_lit c so Ron fresh k k0 s z [XN s]); auto. left. reflexivity.
  Qed.
  Lemma keys_new n t t' ls ws : key_wider so t t' -> (forall l, In l ls -> plain l) -> Forall2 (rtakes F c G n None t) ls ws -> ev (fun m => Forall2 (T' m None t') ls ws).
  Proof.
    intros Hk Hp H. apply ev_f2. induction H as [|l w ls ws H Hs IH]; constructor.
    - exact (key_new n t t' None l w Hk (Hp l (or_introl eq_refl)) H).
    - apply IH. intros x Hx. apply Hp. right. exact Hx.
  Qed.

  (** Fields. *)
  Lemma fields_new n dflt dflt' fs fs' ms vs : carries n -> fields_newer so Ron G fresh dflt dflt' fs fs' ->
    (forall k d, In (k, d) ms -> plain d) ->
    fields_means (rtakes F c G n None) dflt fs ms vs -> all_named fs ms ->
    exists vs', ev (fun m => fields_means (T' m None) dflt' fs' ms vs') /\ all_named fs' ms /\ Forall2 (field_becomes B (field_new Ron fresh fs) dflt dflt' fs vs) fs' vs'.
  Proof.
    intros IH [He Hf] Hp (H1 & H2 & H3) Ho.
    assert (Old : forall f, In f fs -> exists v, In (f, v) (combine fs vs) /\ field_from (rtakes F c G n None) dflt ms f v).
    { clear -H1. induction H1 as [|f v fs vs H Hs IHs]; [intros f []|]. intros g [->|Hg]; [exists v; split; [left; reflexivity | exact H]|].
      destruct (IHs g Hg) as (w & Hin & Hw). exists w. split; [right; exact Hin | exact Hw]. }
    assert (Nin : forall f', field_new Ron fresh fs f' -> ~ In (key_of_field f') (map fst ms)).
    { intros f' Hk Hin. apply in_map_iff in Hin as ([k0 d] & E & Hin). cbn in E. subst k0. destruct (Ho _ _ Hin) as (f & Hfi & Sk & E). exact (Hk f Hfi Sk E). }
    assert (An : all_named fs' ms).
    { intros k d Hin. destruct (Ho k d Hin) as (f & Hfi & Sk & E). destruct (He f Hfi Sk) as (f' & Hf' & Sk' & E'). exists f'. rewrite <- E', E. auto. }
    assert (V : exists vs', Forall2 (fun f' v' => ev (fun m => field_from (T' m None) dflt' ms f' v')) fs' vs' /\ Forall2 (field_becomes B (field_new Ron fresh fs) dflt dflt' fs vs) fs' vs').
    { clear He An. induction Hf as [|f' fs' Hf' Hfs IHfs]; [exists []; split; constructor|]. destruct IHfs as (vs' & E1 & E2).
      assert (X : exists v', ev (fun m => field_from (T' m None) dflt' ms f' v') /\ field_becomes B (field_new Ron fresh fs) dflt dflt' fs vs f' v').
      { destruct (f_skip f') eqn:Es.
        - exists (omitted_value f'). split; [|apply fb_skip; exact Es]. apply ev_all. intro m. unfold field_from. rewrite Es. reflexivity.
        - destruct (Hf' eq_refl) as [(f & Hin & Sk & Key & Px & Px' & Ht & Ab)|[Fr Ab]].
          + destruct (Old f Hin) as (v & Hc & Hv). unfold field_from in Hv. rewrite Sk in Hv. destruct Hv as [(d & Hl & Hd)|[Hm Ha]].
            * unfold field_means in Hd. rewrite Px in Hd. assert (Hd' : In (key_of_field f, d) ms) by (destruct Hl as (a & b & -> & _); apply in_or_app; right; left; reflexivity).
              destruct (IH _ _ _ _ _ Ht (Hp _ _ Hd') Hd) as (v' & E & Hb). exists v'. split; [|apply (fb_kept _ _ _ _ _ _ _ f v v' Es Hc Sk Key Hb)].
              revert E. apply ev_imp. intros m E. unfold field_from. rewrite Es. left. exists d. rewrite <- Key. split; [exact Hl|]. unfold field_means. rewrite Px'. exact E.
            * destruct (absent_value dflt' f') as [v'|] eqn:Ea'; [|exfalso; apply Ab; [congruence | reflexivity]].
              exists v'. split; [|apply (fb_absent _ _ _ _ _ _ _ f v v' Es Hc Sk Key Ha Ea')]. apply ev_all. intro m. unfold field_from. rewrite Es. right. rewrite <- Key. auto.
          + destruct (absent_value dflt' f') as [v'|] eqn:Ea'; [|congruence]. exists v'. split; [|apply fb_new; assumption].
            apply ev_all. intro m. unfold field_from. rewrite Es. right. auto. }
      destruct X as (v' & X1 & X2). exists (v' :: vs'). split; constructor; assumption. }
    destruct V as (vs' & V1 & V2). exists vs'. split; [|split; [exact An | exact V2]].
    apply (ev_imp (fun m => Forall2 (field_from (T' m None) dflt' ms) fs' vs' /\ forall kd, In kd ms -> forall f, In f fs' -> f_skip f = false -> key_of_field f = fst kd -> exists w, field_means (T' m None) f (snd kd) w)).
    - intros m [E1 E2]. split; [exact E1|]. split; [intros k d f Hin; exact (E2 (k, d) Hin f)|]. intros ->. destruct ms as [|[k d] ms]; [reflexivity|].
      destruct (An k d (or_introl eq_refl)) as (f & [] & _).
    - apply ev_and; [apply ev_f2, V1|]. apply ev_in. intros [k d] Hin. cbn [fst snd]. apply ev_in. intros f' Hf'.
      destruct (f_skip f') eqn:Es; [apply ev_all; discriminate|].
      destruct (list_eq_dec N.eq_dec (key_of_field f') k) as [Ek|Ek]; [|apply ev_all; intros m _ E; contradiction].
      rewrite Forall_forall in Hf. destruct (Hf f' Hf' Es) as [(f & Hinf & Sk & Key & Px & Px' & Ht & Ab)|[Fr Ab]].
      + destruct (H2 k d f Hin Hinf Sk (eq_trans Key Ek)) as [w Hw]. unfold field_means in Hw. rewrite Px in Hw.
        destruct (IH _ _ _ _ _ Ht (Hp _ _ Hin) Hw) as (w' & E & _). revert E. apply ev_imp. intros m E _ _. exists w'. unfold field_means. rewrite Px'. exact E.
      + exfalso. subst k. apply (Nin f' Fr). apply in_map_iff. exists (key_of_field f', d). auto.
  Qed.

  Lemma null_taken n nx t xs v : no_null Ron G t = true -> rtakes F c G n nx t xs v -> ~ exists r, xs = xnone :: r.
  Proof.
    intros Hn H [r E]. destruct n as [|n]; [contradiction|]. cbn [rtakes] in H.
    assert (Ob : forall ms, robject_toks ms xs -> False) by (intros ms (ls & zs & _ & _ & ->); discriminate).
    assert (Rd : forall ls, round_toks ls xs -> False) by (intros ls (zs & _ & ->); discriminate).
    assert (Ar : forall ls, array_toks ls xs -> False) by (intros ls (zs & _ & ->); discriminate).
    destruct t; cbn [no_null] in Hn; try discriminate.
    - destruct H as (s & z & -> & _). discriminate.
    - destruct H as (s & z & -> & _). discriminate.
    - destruct H as (s & z & -> & _). discriminate.
    - destruct H as [[-> _]|[[-> _]|(s & m & -> & _)]]; discriminate.
    - destruct H as (b & s & -> & _). discriminate.
    - destruct H as [-> _]. discriminate.
    - destruct H as (ls & ws & Ha & _). exact (Ar _ Ha).
    - destruct H as (es & ws & (ys & _ & ->) & _). discriminate.
    - destruct H as (ls & ws & Ha & _). exact (Rd _ Ha).
    - destruct H as (_ & ls & ws & Ha & _). exact (Rd _ Ha).
    - destruct H as (s & ns & (ms & a & b & (ls & zs & _ & _ & ->) & _) & _). discriminate.
    - destruct (nth_error G n0) as [d|]; [|contradiction]. destruct d as [dflt nul fs|[|] fs|vs|]; try discriminate.
      + destruct H as (ms & ws & Ho & _). exact (Ob _ Ho).
      + destruct H as (_ & _ & ls & ws & Ha & _). exact (Rd _ Ha).
      + destruct H as (tag & vr & Ev & H). rewrite forallb_forall in Hn. specialize (Hn vr (nth_error_In _ _ Ev)). destruct (v_body vr).
        * discriminate.
        * destruct H as (ls & ws & ys & _ & -> & _). injection E as E _. cbn [key_of_variant] in Hn. rewrite E in Hn. discriminate.
        * destruct H as (ms & ws & ys & _ & -> & _). injection E as E _. cbn [key_of_variant] in Hn. rewrite E in Hn. discriminate.
  Qed.

  Lemma plain_in xs l : incl l xs -> plain xs -> plain l.
  Proof. apply plain_incl. Qed.

  Theorem carries_all n : carries n.
  Proof.
    induction n as [|n IH]; intros t t' nx xs v Ht Hp H; [contradiction|]. revert H.
    induction Ht as [k k' W|k N1 So| | | | | | | |t t' Hn Ht IHt|t t' Ht IHt|t t' Ht IHt|t t' Ht IHt|t t' Ht IHt|k k' t t' K K' Ht IHt|m t t' Ht IHt|m k t t' KJ K Ht IHt|k t t' K|k tk tk' t t' K Ht IHt|ts ts' Ht|p t t' Ht IHt|i]; intro H.
    - cbn [rtakes] in H. destruct H as (s & z & -> & -> & H). exists (VZ z). split; [|constructor]. exists 1%nat. intros [|m] Hm; [lia|]. cbn [rtakes].
      exists s, z. split; [reflexivity|]. split; [reflexivity|]. apply (int_wider_lit c so Ron fresh k k' s z [XN s]); auto. left. reflexivity.
    - cbn [rtakes] in H. destruct H as (s & z & -> & -> & H). exists (VF (f64_of_z F z)). split; [|constructor]. exists 1%nat. intros [|m] Hm; [lia|]. cbn [rtakes].
      exists s, (f64_of_z F z). split; [reflexivity|]. split; [reflexivity|]. apply (num_lit F c so Ron fresh k s z [XN s]); auto. left. reflexivity.
    - cbn [rtakes] in H. destruct H as (s & b & -> & -> & H). eexists. split; [|constructor]. exists 1%nat. intros [|m] Hm; [lia|]. cbn [rtakes]. eauto.
    - cbn [rtakes] in H. destruct H as (s & b & -> & -> & H). eexists. split; [|constructor]. exists 1%nat. intros [|m] Hm; [lia|]. cbn [rtakes]. eauto.
    - cbn [rtakes] in H. exists v. split; [exists 1%nat; intros [|m] Hm; [lia | exact H] | destruct H as [[_ ->]|[[_ ->]|(s & k & _ & _ & ->)]]; constructor].
    - cbn [rtakes] in H. destruct H as (b & s & -> & ->). eexists. split; [|constructor]. exists 1%nat. intros [|m] Hm; [lia|]. cbn [rtakes]. eauto.
    - cbn [rtakes] in H. exists v. split; [exists 1%nat; intros [|m] Hm; [lia | exact H] | destruct H as [_ ->]; constructor].
    - cbn [rtakes] in H. destruct H as (s & ns & H & ->). eexists. split; [|constructor]. exists 1%nat. intros [|m] Hm; [lia|]. cbn [rtakes]. eauto.
    - cbn [rtakes] in H. exists v. split; [exists 1%nat; intros [|m] Hm; [lia | exact H]|]. destruct H as [[_ ->]|(s & ns & _ & _ & ->)]; constructor.
    - (* T as Option<T> *) destruct (IHt H) as (v' & E & Hb). exists (VSome v'). split; [|apply bc_some; assumption].
      revert E. apply ev_step. intros m E. cbn [rtakes]. right. split; [exact (null_taken _ _ _ _ _ Hn H) | eauto].
    - cbn [rtakes] in H. destruct H as [[-> ->]|(Nn & w & -> & H)].
      + exists VNone. split; [|constructor]. exists 1%nat. intros [|m] Hm; [lia|]. cbn [rtakes]. left. auto.
      + destruct (IH _ _ _ _ _ Ht Hp H) as (v' & E & Hb). exists (VSome v'). split; [|constructor; exact Hb]. revert E. apply ev_step. intros m E. cbn [rtakes]. right. eauto.
    - cbn [rtakes] in H. destruct (IH _ _ _ _ _ Ht Hp H) as (v' & E & Hb). exists v'. split; [|constructor; exact Hb]. revert E. apply ev_step. intros m E. exact E.
    - destruct (IHt H) as (v' & E & Hb). exists v'. split; [|apply bc_boxed; exact Hb]. revert E. apply ev_step. intros m E. exact E.
    - cbn [rtakes] in H. destruct (IH _ _ _ _ _ Ht Hp H) as (v' & E & Hb). exists v'. split; [exact E | apply bc_unboxed; exact Hb].
    - cbn [rtakes] in H. destruct H as (ls & ws & Ha & Hf & ->). destruct (f2_new n t t' ls ws IH Ht) as (ws' & E & Hb); [intros l Hl; exact (plain_in _ _ (array_incl _ _ _ Hl Ha) Hp) | exact Hf|].
      exists (VSeq ws'). rewrite (order_seq k ws K). split; [|apply bc_seq; assumption]. revert E. apply ev_step. intros m E. cbn [rtakes]. exists ls, ws'. rewrite (order_seq k' ws' K'). auto.
    - cbn [rtakes] in H. destruct H as (ls & ws & Ha & Hl & Hf & ->). destruct (f2_new n t t' ls ws IH Ht) as (ws' & E & Hb); [intros l Hl'; exact (plain_in _ _ (round_incl _ _ _ Hl' Ha) Hp) | exact Hf|].
      exists (VSeq ws'). split; [|apply bc_arr; assumption]. revert E. apply ev_step. intros m' E. cbn [rtakes]. exists ls, ws'. auto.
    - discriminate KJ.
    - cbn [rtakes] in H. destruct H as (ls & ws & Ha & Hf & ->). exists (VSeq (seq_of k ws [])). split; [|apply bc_set].
      assert (E : ev (fun m => Forall2 (T' m None t') ls ws)) by (apply (keys_new n t); [exact K | intros l Hl; exact (plain_in _ _ (array_incl _ _ _ Hl Ha) Hp) | exact Hf]).
      revert E. apply ev_step. intros m E. cbn [rtakes]. exists ls, ws. auto.
    - cbn [rtakes] in H. destruct H as (es & ws & (ys & Hl & ->) & Hf & ->).
      assert (Pe : forall e, In e es -> plain (fst e) /\ plain (snd e)).
      { intros e He. assert (I : incl (fst e ++ xcolon :: snd e) (in_curly ys)).
        { intros a Ha. apply between_incl. refine (listed_incl _ _ _ _ Hl a Ha). apply in_map_iff. exists e. auto. }
        split; (refine (plain_in _ _ _ Hp); intros a Ha; apply I, in_or_app); [left; exact Ha | right; right; exact Ha]. }
      assert (V : exists ws', ev (fun m => Forall2 (fun e w => T' m None tk' (fst e) (fst w) /\ T' m None t' (snd e) (snd w)) es ws') /\ Forall2 (same_key (B t t')) ws ws').
      { assert (V : exists ws', Forall2 (fun e w => ev (fun m => T' m None tk' (fst e) (fst w) /\ T' m None t' (snd e) (snd w))) es ws' /\ Forall2 (same_key (B t t')) ws ws').
        { clear Hl IHt. induction Hf as [|e [x y] es ws [H1 H2] Hf IHf]; [exists []; split; constructor|]. cbn [fst snd] in *.
          destruct (Pe e (or_introl eq_refl)) as [P1 P2]. destruct (IHf (fun e He => Pe e (or_intror He))) as (ws' & E1 & E2).
          pose proof (key_new n tk tk' None _ _ K P1 H1) as Ek. destruct (IH _ _ _ _ _ Ht P2 H2) as (y' & Ey & Hb).
          exists ((x, y') :: ws'). split; constructor; auto; [cbn [fst snd]; apply ev_and; assumption | split; [reflexivity | exact Hb]]. }
        destruct V as (ws' & V1 & V2). exists ws'. split; [apply ev_f2, V1 | exact V2]. }
      destruct V as (ws' & E & Hb). exists (VMap (map_of k ws' [])). split; [|apply bc_map; exact (map_of_same _ k _ _ Hb)].
      revert E. apply ev_step. intros m E. cbn [rtakes]. exists es, ws'. split; [exists ys; auto | auto].
    - cbn [rtakes] in H. destruct H as (Hlen & ls & ws & Ha & Hf & ->). destruct (tuple_new n ts ts' ls ws IH Ht) as (ws' & E & Hb); [intros l Hl'; exact (plain_in _ _ (round_incl _ _ _ Hl' Ha) Hp) | exact Hf|].
      exists (VSeq ws'). split; [|apply bc_tup; exact Hb]. revert E. apply ev_step. intros m E. cbn [rtakes].
      assert (El : length ts' = length ts) by (clear -Ht; induction Ht; cbn; congruence). rewrite El. split; [exact Hlen|]. exists ls, ws'. auto.
    - cbn [rtakes] in H. contradiction.
    - cbn [rtakes] in H. destruct (nth_error G i) as [d|] eqn:Ei; [|contradiction]. destruct (HN i d Ei) as (d' & Ei' & Hd).
      destruct d as [dflt nul fs|tr fs|vs|p t]; destruct d' as [dflt' nul' fs'|tr' fs'|vs'|p' t']; cbn [decl_newer] in Hd; try contradiction.
      + destruct H as (ms & vs & Ho & -> & Hf & Hi).
        destruct (fields_new n dflt dflt' fs fs' ms vs IH Hd) as (vs' & E & Hi' & Hb); try assumption.
        * intros k d Hin. exact (plain_in _ _ (robject_parts _ _ _ _ Hin Ho) Hp).
        * exists (VSeq vs'). split; [|eapply bc_struct; eassumption]. revert E. apply ev_step. intros m E. cbn [rtakes]. rewrite Ei'. exists ms, vs'. auto.
      + destruct Hd as (<- & Px & Hf). destruct H as (_ & Ne & ls & ws & Ha & Ht & ->).
        assert (Hts : Forall2 newer (map f_ty fs) (map f_ty fs')) by (clear -Hf; induction Hf; constructor; assumption).
        destruct (tuple_new n _ _ ls ws IH Hts) as (ws' & E & Hb); [intros l Hl'; exact (plain_in _ _ (round_incl _ _ _ Hl' Ha) Hp) | exact Ht|].
        exists (VSeq ws'). split; [|exact (bc_tuple F Ron fresh G G' i tr _ _ _ _ Ei Ei' Hb)]. revert E. apply ev_step. intros m E. cbn [rtakes]. rewrite Ei'.
        split; [exact Px|]. split; [destruct Hf; [congruence | discriminate]|]. exists ls, ws'. auto.
      + destruct H as (tag & vr & Hv & H). rewrite Forall_forall in Hd. destruct (Hd vr (nth_error_In _ _ Hv)) as (vr' & Hin & Key & Hbd).
        apply In_nth_error in Hin as [tag' Hv']. destruct (v_body vr) as [|ts|fs] eqn:Eb; destruct (v_body vr') as [|ts'|fs'] eqn:Eb'; cbn [body_newer] in Hbd; try contradiction.
        * destruct H as (w & Hw & -> & -> & Hk). exists (VEnum (N.of_nat tag') []). split; [|eapply bc_unit_variant; eassumption].
          exists 1%nat. intros [|m] Hm; [lia|]. cbn [rtakes]. rewrite Ei'. exists tag', vr'. split; [exact Hv'|]. rewrite Eb'. exists w. rewrite <- Key. auto.
        * destruct H as (ls & ws & ys & Hw & -> & Ha & Ht & ->).
          destruct (tuple_new n _ _ ls ws IH Hbd) as (ws' & E & Hb); [intros l Hl'; refine (plain_in _ _ _ Hp); exact (incl_tl _ (round_incl _ _ _ Hl' Ha)) | exact Ht|].
          exists (VEnum (N.of_nat tag') ws'). split; [|eapply bc_tuple_variant; eassumption]. revert E. apply ev_step. intros m E. cbn [rtakes]. rewrite Ei'.
          exists tag', vr'. split; [exact Hv'|]. rewrite Eb'. exists ls, ws', ys. rewrite <- Key. auto.
        * destruct H as (ms & ws & ys & Hw & -> & Ho & Hf & Hi & ->).
          destruct (fields_new n false false fs fs' ms ws IH Hbd) as (ws' & E & Hi' & Hb); try assumption.
          -- intros k d Hk. refine (plain_in _ _ _ Hp). exact (incl_tl _ (robject_parts _ _ _ _ Hk Ho)).
          -- exists (VEnum (N.of_nat tag') ws'). split; [|eapply bc_struct_variant; eassumption]. revert E. apply ev_step. intros m E. cbn [rtakes]. rewrite Ei'.
             exists tag', vr'. split; [exact Hv'|]. rewrite Eb'. exists ms, ws', ys. rewrite <- Key. auto 7.
  Qed.
End Main.
