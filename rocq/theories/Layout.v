(** Proofs for C85. *)
From Verif Require Import Base Utf8 Types BinModel BinRead SpecBin SpecBinAcc SpecLayout.
Local Open Scope N_scope.

Scheme flat_mind := Minimality for flat Sort Prop
  with flat_all_mind := Minimality for flat_all Sort Prop.
Combined Scheme flat_mutind from flat_mind, flat_all_mind.

Section Opening.
  Variable c : cfg.
  Variable G : env.

  Lemma parts_app ts1 ws1 b1 ts2 ws2 b2 : spells_parts c G ts1 ws1 b1 -> spells_parts c G ts2 ws2 b2 ->
    spells_parts c G (ts1 ++ ts2) (ws1 ++ ws2) (b1 ++ b2).
  Proof. intro H. induction H; intro H2; [exact H2|]. cbn [app]. rewrite <- app_assoc. constructor; auto. Qed.
  Lemma parts_split ts1 : forall ts2 ws b, spells_parts c G (ts1 ++ ts2) ws b ->
    exists w1 w2 b1 b2, ws = w1 ++ w2 /\ b = b1 ++ b2 /\ spells_parts c G ts1 w1 b1 /\ spells_parts c G ts2 w2 b2.
  Proof.
    induction ts1 as [|t ts1 IH]; intros ts2 ws b H; cbn [app] in H.
    - exists [], ws, [], b. repeat split; [constructor|exact H].
    - inversion H; subst; clear H. match goal with H : spells_parts _ _ (_ ++ _) _ _ |- _ => apply IH in H as (w1 & w2 & b3 & b4 & -> & -> & Ha & Hb) end.
      exists (v :: w1), w2, (b1 ++ b3), b4. rewrite app_assoc. repeat split; [constructor; assumption|exact Hb].
  Qed.
  Lemma items_parts t ws b : spells_items c G t ws b -> spells_parts c G (repeat t (length ws)) ws b.
  Proof. intro H. induction H; cbn; constructor; auto. Qed.
  Lemma parts_items t : forall n ws b, spells_parts c G (repeat t n) ws b -> length ws = n /\ spells_items c G t ws b.
  Proof.
    induction n as [|n IH]; intros ws b H; inversion H; subst; clear H; [split; [reflexivity|constructor]|].
    match goal with H : spells_parts _ _ (repeat _ _) _ _ |- _ => apply IH in H as [L Hi] end.
    split; [cbn; congruence|constructor; assumption].
  Qed.
  Definition kept (fs : list field) : list ty := map f_ty (filter (fun f => negb (f_skip f)) fs).
  Lemma fields_parts fs ws b : spells_fields c G fs ws b -> exists vs, spells_parts c G (kept fs) vs b /\
      forall ts us, opens_all G (kept fs) vs ts us -> opens_fields G fs ws ts us.
  Proof.
    unfold kept. intro H. induction H as [|f fs ws bs Hs H (vs & Hp & Ho)|f fs v ws b1 b2 Hs Hv H (vs & Hp & Ho)]; cbn [filter map] in *; rewrite ?Hs; cbn [negb map].
    - exists []. split; [constructor|]. intros ts us Hu. inversion Hu; constructor.
    - exists vs. split; [exact Hp|]. intros ts us Hu. constructor; auto.
    - exists (v :: vs). split; [constructor; assumption|]. intros ts us Hu. inversion Hu; subst; clear Hu. constructor; auto.
  Qed.
  Lemma parts_fields fs : forall vs b, spells_parts c G (kept fs) vs b -> exists ws, spells_fields c G fs ws b /\
      forall ts us, opens_all G (kept fs) vs ts us -> opens_fields G fs ws ts us.
  Proof.
    unfold kept. induction fs as [|f fs IH]; intros vs b H; cbn [filter map] in *.
    - inversion H; subst. exists []. split; [constructor|]. intros ts us Hu. inversion Hu; constructor.
    - destruct (f_skip f) eqn:Hs; cbn [negb map] in *.
      + destruct (IH _ _ H) as (ws & Hf & Ho). exists (f_tydefault f :: ws). split; [constructor; assumption|]. intros ts us Hu. constructor; auto.
      + inversion H; subst; clear H. destruct (IH _ _ ltac:(eassumption)) as (ws' & Hf & Ho).
        exists (v :: ws'). split; [constructor; assumption|]. intros ts us Hu. inversion Hu; subst; clear Hu. constructor; auto.
  Qed.

  Ltac same_decl := repeat match goal with
    | H1 : ?a = Some _, H2 : ?a = Some _ |- _ => rewrite H1 in H2; first [discriminate H2 | injection H2; clear H2; intros; subst]
    end.
  Lemma open_out :
    (forall t ts, flat G t ts -> forall v b, spells c G t v b -> exists ws, spells_parts c G ts ws b /\ opens G t v ts ws) /\
    (forall us ts, flat_all G us ts -> forall vs b, spells_parts c G us vs b -> exists ws, spells_parts c G ts ws b /\ opens_all G us vs ts ws).
  Proof.
    apply flat_mutind.
    - intros t v b H. exists [v]. split; [|constructor]. rewrite <- (app_nil_r b). constructor; [exact H|constructor].
    - intros v b H. inversion H; subst. exists []. split; constructor.
    - intros t ts _ IH v b H. inversion H; subst. destruct (IH _ _ ltac:(eassumption)) as (ws & Hp & Ho). exists ws. split; [exact Hp|constructor; exact Ho].
    - intros us ts _ IH v b H. inversion H; subst. destruct (IH _ _ ltac:(eassumption)) as (w & Hp & Ho). exists w. split; [exact Hp|constructor; exact Ho].
    - intros n t ts _ IH v b H. inversion H; subst.
      match goal with H : spells_items _ _ _ _ _ |- _ => apply items_parts in H; destruct (IH _ _ H) as (w & Hp & Ho) end.
      exists w. split; [exact Hp|constructor; exact Ho].
    - intros p t ts _ IH v b H. inversion H; subst. destruct (IH _ _ ltac:(eassumption)) as (w & Hp & Ho). exists w. split; [exact Hp|constructor; exact Ho].
    - intros i p t ts Hd _ IH v b H. inversion H; subst; same_decl. destruct (IH _ _ ltac:(eassumption)) as (w & Hp & Ho).
      exists w. split; [exact Hp|]. eapply o_dproxy; eassumption.
    - intros i tr fs ts Hd Hk _ IH v b H. inversion H; subst; same_decl. destruct (IH _ _ ltac:(eassumption)) as (w & Hp & Ho).
      exists w. split; [exact Hp|]. eapply o_tuple; eassumption.
    - intros i df nl fs ts Hd _ IH v b H. inversion H; subst; same_decl.
      match goal with H : spells_fields _ _ _ _ _ |- _ => apply fields_parts in H as (vs & Hv & Hu) end.
      destruct (IH _ _ Hv) as (w & Hp & Ho). exists w. split; [exact Hp|]. eapply o_struct; [eassumption|]. apply Hu. exact Ho.
    - intros vs b H. inversion H; subst. exists []. split; constructor.
    - intros u us t1 t2 _ IH1 _ IH2 vs b H. inversion H; subst.
      destruct (IH1 _ _ ltac:(eassumption)) as (w1 & P1 & O1). destruct (IH2 _ _ ltac:(eassumption)) as (w2 & P2 & O2).
      exists (w1 ++ w2). split; [apply parts_app; assumption|constructor; assumption].
  Qed.
  Lemma open_in :
    (forall t ts, flat G t ts -> forall ws b, spells_parts c G ts ws b -> exists v, spells c G t v b /\ opens G t v ts ws) /\
    (forall us ts, flat_all G us ts -> forall ws b, spells_parts c G ts ws b -> exists vs, spells_parts c G us vs b /\ opens_all G us vs ts ws).
  Proof.
    apply flat_mutind.
    - intros t ws b H. inversion H; subst. match goal with H : spells_parts _ _ [] _ _ |- _ => inversion H; subst end.
      exists v. rewrite app_nil_r. split; [assumption|constructor].
    - intros ws b H. inversion H; subst. exists VUnit. split; constructor.
    - intros t ts _ IH ws b H. destruct (IH _ _ H) as (v & Hp & Ho). exists v. split; constructor; assumption.
    - intros us ts _ IH ws b H. destruct (IH _ _ H) as (v & Hp & Ho). exists (VSeq v). split; constructor; assumption.
    - intros n t ts _ IH ws b H. destruct (IH _ _ H) as (v & Hp & Ho). apply parts_items in Hp as [L Hp].
      exists (VSeq v). split; constructor; assumption.
    - intros p t ts _ IH ws b H. destruct (IH _ _ H) as (v & Hp & Ho). exists (p_from p v). split; constructor; assumption.
    - intros i p t ts Hd _ IH ws b H. destruct (IH _ _ H) as (v & Hp & Ho). exists (p_from p v).
      split; [eapply s_dproxy|eapply o_dproxy]; eassumption.
    - intros i tr fs ts Hd Hk _ IH ws b H. destruct (IH _ _ H) as (v & Hp & Ho). exists (VSeq v).
      split; [eapply s_tuple|eapply o_tuple]; eassumption.
    - intros i df nl fs ts Hd _ IH ws b H. destruct (IH _ _ H) as (v & Hp & Ho). apply parts_fields in Hp as (us & Hf & Hu). exists (VSeq us).
      split; [eapply s_struct|eapply o_struct]; try eassumption. apply Hu. exact Ho.
    - intros ws b H. inversion H; subst. exists []. split; constructor.
    - intros u us t1 t2 _ IH1 _ IH2 ws b H. apply parts_split in H as (w1 & w2 & b1 & b2 & -> & -> & Ha & Hb).
      destruct (IH1 _ _ Ha) as (v & P1 & O1). destruct (IH2 _ _ Hb) as (vs & P2 & O2).
      exists (v :: vs). split; constructor; assumption.
  Qed.
End Opening.

(** ** Types that agree, on a machine with ample memory *)
Definition ample (c : cfg) : cfg :=
  {| usize_bits := usize_bits c; overflow_checks := overflow_checks c; alloc_max := fun _ => usize_mod c; time_max := time_max c |}.
Lemma num_len w bs m : num w bs m -> length bs = w.
Proof. intros [[H _] _]. exact H. Qed.
Lemma count_len c bs n : count_is c bs n -> length bs = 8%nat.
Proof. intros (m & H & _). eapply num_len. exact H. Qed.
Lemma count_lt c bs n : count_is c bs n -> n < usize_mod c.
Proof. intros (m & _ & ->). apply N.mod_lt. unfold usize_mod. apply N.pow_nonzero. discriminate. Qed.

Lemma coll_out c G a t v b : item_of a t -> spells c G a v b ->
  exists lb ws bs, b = lb ++ bs /\ count_is c lb (lenN ws) /\ spells_items c G t ws bs /\ collected a ws v.
Proof.
  intros Hi H. inversion Hi; subst; clear Hi; inversion H; subst; clear H.
  - exists lb, ws, bs. repeat split; try assumption. constructor.
  - exists lb, (map pair_val es), bs. split; [reflexivity|]. split; [unfold lenN in *; rewrite map_length; assumption|]. split; [|constructor].
    match goal with H : spells_entries _ _ _ _ _ _ |- _ => clear -H; induction H end; [constructor|].
    cbn [map]. rewrite app_assoc. constructor; [|assumption]. unfold pair_val. cbn [fst snd]. constructor.
    constructor; [assumption|]. rewrite <- (app_nil_r b2). constructor; [assumption|constructor].
Qed.
Lemma pairs_out c G tk tv : forall ws bs, spells_items c G (TTup [tk; tv]) ws bs ->
  exists es, ws = map pair_val es /\ spells_entries c G tk tv es bs.
Proof.
  induction ws as [|w ws IH]; intros bs H; inversion H; subst; clear H.
  - exists []. split; [reflexivity|constructor].
  - destruct (IH _ ltac:(eassumption)) as (es & -> & He).
    match goal with H : spells _ _ (TTup _) _ _ |- _ => inversion H; subst; clear H end.
    match goal with H : spells_parts _ _ [_; _] _ _ |- _ => inversion H; subst; clear H end.
    match goal with H : spells_parts _ _ [_] _ _ |- _ => inversion H; subst; clear H end.
    match goal with H : spells_parts _ _ [] _ _ |- _ => inversion H; subst; clear H end.
    rewrite app_nil_r, <- app_assoc. eexists ((_, _) :: es). split; [reflexivity|]. constructor; assumption.
Qed.
Lemma coll_in c G a t lb ws bs : item_of a t -> count_is c lb (lenN ws) -> spells_items (ample c) G t ws bs ->
  exists v, spells (ample c) G a v (lb ++ bs) /\ collected a ws v.
Proof.
  intros Hi Hn H. assert (L := count_lt _ _ _ Hn). inversion Hi; subst; clear Hi.
  - eexists. split; [|constructor]. apply s_seq; [exact Hn| |exact H]. destruct k; cbn [room_seq ample alloc_max]; try exact I; lia.
  - apply pairs_out in H as (es & -> & He). eexists. split; [|constructor]. unfold lenN in Hn, L; rewrite map_length in Hn, L.
    apply s_map; [exact Hn| |exact He]. unfold lenN. destruct k; cbn [room_map ample alloc_max]; try exact I; lia.
Qed.

Lemma dur_any c c' G G' v b : spells c G TDur v b -> spells c' G' TDur v b.
Proof. intro H. inversion H; subst. econstructor; eassumption. Qed.
Lemma basic_same c G1 G2 t v b : basic t -> spells c G1 t v b -> spells (ample c) G2 t v b.
Proof.
  intros Hb H. inversion Hb; subst; clear Hb; inversion H; subst; clear H; try (constructor; assumption).
  - eapply s_dur; eassumption.
  - constructor; [eapply dur_any; eassumption | assumption].
Qed.
Lemma usize_mod_64 c : usize_bits c = 64 -> usize_mod c = 2 ^ 64.
Proof. unfold usize_mod. intros ->. reflexivity. Qed.

Lemma byte_spelled c G b : b < 256 -> spells c G (TInt U8) (byte_val b) [b].
Proof.
  intro H. apply s_int; [discriminate| |].
  - unfold int_ok. cbn [ik_min ik_sup ik_signed ik_bytes]. change (2 ^ (8 * Z.of_nat 1))%Z with 256%Z. lia.
  - split; [reflexivity|]. cbn [ik_bytes]. intros i Hi. assert (i = 0%nat) by lia. subst i. cbn [nth]. change (256 ^ Z.of_nat 0)%Z with 1%Z.
    rewrite Z.div_1_r, Z.mod_small by lia. reflexivity.
Qed.
Lemma unum_spelled c G k bs m : k <> Usize -> ik_signed k = false -> num (ik_bytes k) bs m -> spells c G (TInt k) (VZ (Z.of_N m)) bs.
Proof.
  intros Hk Hs [H L]. apply s_int; [exact Hk| |exact H]. unfold int_ok, ik_min, ik_sup. rewrite Hs.
  assert (E : (2 ^ (8 * Z.of_nat (ik_bytes k)))%Z = Z.of_N (256 ^ N.of_nat (ik_bytes k))) by (destruct k; reflexivity).
  destruct k; try congruence; rewrite E; lia.
Qed.
Lemma stored_moves c G1 G2 t t' v b : stored G1 t t' -> spells c G1 t v b ->
  exists v', spells (ample c) G2 t' v' b /\ stored_val t v t' v'.
Proof.
  intros Hs H. inversion Hs; subst; clear Hs; inversion H; subst; clear H; try congruence.
  - eexists. split; [|constructor]. apply s_seq.
    + unfold lenN. rewrite map_length. assumption.
    + match goal with H : count_is _ _ _ |- _ => apply count_lt in H end. unfold lenN in *. rewrite map_length.
      destruct k; cbn [room_seq ample alloc_max]; try exact I; lia.
    + match goal with H : Forall scalar _ |- _ => apply utf8_enc_bytes in H; unfold bytes_ok in H; clear - H; induction H as [|x l Hx H IH] end; [constructor|].
      cbn [map]. apply (si_cons _ _ _ _ _ [x]); [apply byte_spelled; exact Hx|exact IH].
  - eexists. split; [|constructor]. apply unum_spelled; [discriminate|reflexivity|assumption].
  - eexists. split; [|constructor]. apply unum_spelled; [discriminate|reflexivity|assumption].
  - eexists. split; [|econstructor; eassumption]. constructor. constructor; [apply unum_spelled; [discriminate|reflexivity|assumption]|].
    rewrite <- (app_nil_r nb). constructor; [apply unum_spelled; [discriminate|reflexivity|assumption]|constructor].
  - eexists. split; [|constructor]. constructor. eapply dur_any. eassumption.
  - exists VNone. split; constructor. assumption.
  - match goal with H1 : nth_error G1 i = _, H2 : nth_error G1 i = _ |- _ => rewrite H1 in H2; injection H2 as <- end.
    match goal with H1 : nth_error vs _ = Some vr, H2 : Forall _ vs |- _ => rewrite Forall_forall in H2; specialize (H2 vr (nth_error_In _ _ H1)); cbn beta in H2; rewrite H2 in * end.
    match goal with H : spells_parts _ _ [] _ _ |- _ => inversion H; subst; clear H end.
    rewrite app_nil_r. eexists. split; [|constructor]. apply unum_spelled; [discriminate|reflexivity|assumption].
Qed.

Section Agree.
  Variable c : cfg.
  Variables G1 G2 : env.
  Variable R : ty -> ty -> Prop.
  Hypothesis HR : forall a b, R a b -> exists ts ts', flat G1 a ts /\ flat G2 b ts' /\ Forall2 (agree c G1 G2 R) ts ts'.

  Definition moves (t t' : ty) (b : list N) : Prop :=
    forall v, spells c G1 t v b -> exists v', spells (ample c) G2 t' v' b /\ same G1 G2 t v t' v'.

  Lemma own_moves n : (forall t t' b, (length b < n)%nat -> R t t' -> moves t t' b) ->
    forall a a' v b, (length b <= n)%nat -> agree c G1 G2 R a a' -> spells c G1 a v b ->
    exists v', spells (ample c) G2 a' v' b /\ same_own G1 G2 a v a' v'.
  Proof.
    intros IH a a' v b L Ha H. inversion Ha; subst; clear Ha.
    - exists v. split; [eapply basic_same; eassumption|constructor; assumption].
    - inversion H; subst; clear H; [|congruence]. exists (VZ (Z.of_N n0)). split; [|constructor].
      match goal with H : count_is _ _ _ |- _ => destruct H as (m & [Hl Hm] & E) end.
      rewrite usize_mod_64 in E by assumption. change (256 ^ N.of_nat 8) with (2 ^ 64) in Hm. rewrite N.mod_small in E by exact Hm. subst n0.
      apply s_int; [discriminate| |exact Hl]. unfold int_ok. cbn [ik_min ik_sup ik_signed ik_bytes]. change (2 ^ (8 * Z.of_nat 8))%Z with (Z.of_N (2 ^ 64)). lia.
    - inversion H; subst; clear H. exists (VZ z). split; [|constructor].
      match goal with H : int_ok _ _ _ |- _ => unfold int_ok in H; cbn [ik_min ik_sup ik_signed ik_bytes] in H; change (2 ^ (8 * Z.of_nat 8))%Z with (Z.of_N (2 ^ 64)) in H end.
      rewrite <- (Z2N.id z) by lia. apply s_usize. exists (Z.to_N z). split; [split|].
      + rewrite Z2N.id by lia. assumption.
      + change (256 ^ N.of_nat 8) with (2 ^ 64). lia.
      + change (usize_mod (ample c)) with (usize_mod c). rewrite usize_mod_64 by assumption. symmetry. apply N.mod_small. lia.
    - destruct (stored_moves c G1 G2 a a' v b) as (v' & Hs & Hm); [assumption..|]. exists v'. split; [exact Hs|constructor; exact Hm].
    - inversion H; subst; clear H.
      + exists VNone. split; constructor; assumption.
      + cbn [length] in L. match goal with Hr : R ?t ?t', Hb : spells c G1 ?t ?w ?bs |- _ => destruct (IH t t' bs ltac:(lia) Hr w Hb) as (v' & Hs & Hm) end.
        exists (VSome v'). split; constructor; assumption.
    - destruct (coll_out c G1 a t v b ltac:(assumption) H) as (lb & ws & bs & -> & Hn & Hi & Hc).
      assert (L8 := count_len _ _ _ Hn). rewrite app_length in L.
      assert (X : exists ws', spells_items (ample c) G2 t' ws' bs /\ same_items G1 G2 t ws t' ws' /\ length ws' = length ws).
      { assert (Lb : (length bs < n)%nat) by lia. clear Hn Hc H L. induction Hi as [t|t v0 ws b1 b2 Hv Hi IHi].
        - exists []. repeat split; constructor.
        - rewrite app_length in Lb. destruct IHi as (ws' & Ha & Hb & E); [assumption..|lia|].
          destruct (IH t t' b1 ltac:(lia) ltac:(assumption) v0 Hv) as (v' & Hs & Hm).
          exists (v' :: ws'). repeat split; [constructor; assumption..|cbn; congruence]. }
      destruct X as (ws' & Hi' & Hm & E).
      destruct (coll_in c G2 a' t' lb ws' bs ltac:(assumption)) as (v' & Hs & Hc'); [unfold lenN in *; rewrite E; exact Hn|exact Hi'|].
      exists v'. split; [exact Hs|]. eapply m_coll; eassumption.
    - inversion H; subst; clear H; try congruence.
      match goal with H1 : nth_error G1 i = _, H2 : nth_error G1 i = _ |- _ => rewrite H1 in H2; injection H2 as <- end.
      assert (L2 := num_len _ _ _ ltac:(eassumption)). rewrite app_length in L.
      match goal with H : nth_error vs _ = Some vr |- _ => rename H into Hvr end.
      assert (X : exists y, nth_error vs' (N.to_nat tag) = Some y /\ R (TTup (body_tys (v_body vr))) (TTup (body_tys (v_body y)))).
      { match goal with H : Forall2 _ vs vs' |- _ => clear -H Hvr; revert Hvr; generalize (N.to_nat tag); induction H; intros [|k] Hk; try discriminate Hk end.
        - injection Hk as ->. eexists. split; [reflexivity|assumption].
        - apply IHForall2. exact Hk. }
      destruct X as (y & Hy & HRy).
      assert (Hy' : nth_error (vs' ++ more) (N.to_nat tag) = Some y).
      { rewrite nth_error_app1; [exact Hy|]. apply nth_error_Some. congruence. }
      destruct (IH _ _ bs ltac:(lia) HRy (VSeq ws)) as (v' & Hs & Hm); [constructor; assumption|].
      inversion Hs; subst; clear Hs. eexists. split; [eapply s_enum; eassumption|]. eapply m_enum; eassumption.
  Qed.

  Lemma each_moves n : (forall t t' b, (length b < n)%nat -> R t t' -> moves t t' b) ->
    forall ts ts', Forall2 (agree c G1 G2 R) ts ts' -> forall ws b, (length b <= n)%nat -> spells_parts c G1 ts ws b ->
    exists ws', spells_parts (ample c) G2 ts' ws' b /\ same_each G1 G2 ts ws ts' ws'.
  Proof.
    intros IH ts ts' H. induction H as [|t t' ts ts' Ha H IHl]; intros ws b L Hp; inversion Hp; subst; clear Hp.
    - exists []. split; constructor.
    - rewrite app_length in L. destruct (own_moves n IH _ _ _ b1 ltac:(lia) Ha ltac:(eassumption)) as (v' & Hs & Hm).
      destruct (IHl _ b2 ltac:(lia) ltac:(eassumption)) as (ws' & Hs' & Hm'). exists (v' :: ws'). split; constructor; assumption.
  Qed.

  Lemma all_move : forall n t t' b, (length b < n)%nat -> R t t' -> moves t t' b.
  Proof.
    induction n as [|n IH]; intros t t' b L Hr v H; [lia|].
    destruct (HR _ _ Hr) as (ts & ts' & Ft & Ft' & Ha).
    destruct (proj1 (open_out c G1) _ _ Ft _ _ H) as (ws & Hp & Ho).
    destruct (each_moves n IH _ _ Ha _ b ltac:(lia) Hp) as (ws' & Hp' & Hm).
    destruct (proj1 (open_in (ample c) G2) _ _ Ft' _ _ Hp') as (v' & Hs & Ho').
    exists v'. split; [exact Hs|]. eapply m_open; eassumption.
  Qed.
End Agree.

(** ** On a real machine: the same, or no room *)
Section Room.
  Variable c : cfg.
  Variable G : env.
  Definition no_room (t : ty) (b : list N) : Prop := forall o rest, exists o', stops c G t o (b ++ rest) o' (Panics PCapacity).
  Lemma no_room_more t b1 b2 : no_room t b1 -> no_room t (b1 ++ b2).
  Proof. intros H o rest. rewrite <- app_assoc. apply H. Qed.
  Definition upto {A} (ok : Prop) (bad : A -> Prop) : Prop := ok \/ exists x, bad x.

  Lemma room_dec_seq k t n : room_seq c k t n \/ ~ room_seq c k t n.
  Proof. destruct k; cbn [room_seq]; try tauto; lia. Qed.
  Lemma room_dec_map k t n : room_map c k t n \/ ~ room_map c k t n.
  Proof. destruct k; cbn [room_map]; try tauto; lia. Qed.

  Lemma real :
    (forall t v b, spells (ample c) G t v b -> spells c G t v b \/ no_room t b) /\
    (forall t ws b, spells_items (ample c) G t ws b -> spells_items c G t ws b \/
       exists ws1 b1 b2, b = b1 ++ b2 /\ (length ws1 < length ws)%nat /\ spells_items c G t ws1 b1 /\ no_room t b2) /\
    (forall tk tv es b, spells_entries (ample c) G tk tv es b -> spells_entries c G tk tv es b \/
       exists es1 b1 b2, b = b1 ++ b2 /\ (length es1 < length es)%nat /\ spells_entries c G tk tv es1 b1 /\
         (no_room tk b2 \/ exists y b3 b4, b2 = b3 ++ b4 /\ spells c G tk y b3 /\ no_room tv b4)) /\
    (forall ts ws b, spells_parts (ample c) G ts ws b -> spells_parts c G ts ws b \/
       exists ts1 t ts2 ws1 b1 b2, ts = ts1 ++ t :: ts2 /\ b = b1 ++ b2 /\ spells_parts c G ts1 ws1 b1 /\ no_room t b2) /\
    (forall fs ws b, spells_fields (ample c) G fs ws b -> spells_fields c G fs ws b \/
       exists fs1 f fs2 ws1 b1 b2, fs = fs1 ++ f :: fs2 /\ b = b1 ++ b2 /\ f_skip f = false /\
         spells_fields c G fs1 ws1 b1 /\ no_room (f_ty f) b2).
  Proof.
    apply spells_mutind.
    - intros. left. constructor. assumption.
    - intros. left. constructor; assumption.
    - intros. left. constructor. assumption.
    - intros. left. constructor. assumption.
    - left. constructor.
    - intros. left. constructor. assumption.
    - intros. left. constructor; assumption.
    - left. constructor.
    - intros. left. constructor. assumption.
    - intros t v bs _ [H|H]; [left; constructor; exact H|right]. intros o rest. destruct (H (o + 1) rest) as [o' Ho]. exists o'. cbn [app]. constructor. exact Ho.
    - intros k t ws lb bs Hn _ _ IH. change (count_is c lb (lenN ws)) in Hn. destruct (room_dec_seq k t (lenN ws)) as [Hr|Hr].
      + destruct IH as [H|(ws1 & b1 & b2 & -> & L & Hi & H)]; [left; constructor; assumption|right]. intros o rest.
        destruct (H (o + 8 + lenN b1) rest) as [o' Ho]. exists o'. rewrite <- !app_assoc. eapply x_seq; try eassumption. unfold lenN; lia.
      + right. intros o rest. exists (o + 8). rewrite <- app_assoc. eapply x_seq_room; eassumption.
    - intros k tk tv es lb bs Hn _ _ IH. change (count_is c lb (lenN es)) in Hn. destruct (room_dec_map k tk (lenN es)) as [Hr|Hr].
      + destruct IH as [H|(es1 & b1 & b2 & -> & L & Hi & [H|(y & b3 & b4 & -> & Hy & H)])]; [left; constructor; assumption|right|right]; intros o rest.
        * destruct (H (o + 8 + lenN b1) rest) as [o' Ho]. exists o'. rewrite <- !app_assoc. eapply x_map_key; try eassumption. unfold lenN; lia.
        * destruct (H (o + 8 + lenN b1 + lenN b3) rest) as [o' Ho]. exists o'. rewrite <- !app_assoc. eapply x_map_val; try eassumption. unfold lenN; lia.
      + right. intros o rest. exists (o + 8). rewrite <- app_assoc. eapply x_map_room; eassumption.
    - intros n t ws bs E _ IH. destruct IH as [H|(ws1 & b1 & b2 & -> & L & Hi & H)]; [left; constructor; assumption|right]. intros o rest.
      destruct (H (o + lenN b1) rest) as [o' Ho]. exists o'. rewrite <- app_assoc. eapply x_arr; try eassumption. lia.
    - intros ts ws bs _ [H|(ts1 & t & ts2 & ws1 & b1 & b2 & -> & -> & Hi & H)]; [left; constructor; exact H|right]. intros o rest.
      destruct (H (o + lenN b1) rest) as [o' Ho]. exists o'. rewrite <- app_assoc. eapply x_tup; eassumption.
    - intros t v bs _ [H|H]; [left; constructor; exact H|right]. intros o rest. destruct (H o rest) as [o' Ho]. exists o'. constructor. exact Ho.
    - intros. left. econstructor; eassumption.
    - intros s ns bs _ [H|H] Hs; [left; constructor; assumption|right]. intros o rest. destruct (H (o + 1) rest) as [o' Ho]. exists o'. cbn [app]. constructor. exact Ho.
    - intros. left. constructor. assumption.
    - intros p t v bs _ [H|H]; [left; constructor; exact H|right]. intros o rest. destruct (H o rest) as [o' Ho]. exists o'. constructor. exact Ho.
    - intros i df nl fs ws bs Hd _ [H|(fs1 & f & fs2 & ws1 & b1 & b2 & -> & -> & Hs & Hi & H)]; [left; econstructor; eassumption|right]. intros o rest.
      destruct (H (o + lenN b1) rest) as [o' Ho]. exists o'. rewrite <- app_assoc. eapply x_struct; eassumption.
    - intros i tr fs ws bs Hd Hk _ [H|(ts1 & t & ts2 & ws1 & b1 & b2 & E & -> & Hi & H)]; [left; econstructor; eassumption|right]. intros o rest.
      destruct (H (o + lenN b1) rest) as [o' Ho]. exists o'. rewrite <- app_assoc. eapply x_tuple; eassumption.
    - intros i p t v bs Hd _ [H|H]; [left; econstructor; eassumption|right]. intros o rest. destruct (H o rest) as [o' Ho]. exists o'. eapply x_dproxy; eassumption.
    - intros i vs tag vr tb ws bs Hd Ht Hv _ [H|(ts1 & t & ts2 & ws1 & b1 & b2 & E & -> & Hi & H)]; [left; econstructor; eassumption|right]. intros o rest.
      destruct (H (o + 2 + lenN b1) rest) as [o' Ho]. exists o'. rewrite <- !app_assoc. eapply x_enum; eassumption.
    - left. constructor.
    - intros t v ws b1 b2 _ IH1 _ IH2. destruct IH1 as [H1|H1].
      + destruct IH2 as [H2|(ws1 & b3 & b4 & -> & L & Hi & H)]; [left; constructor; assumption|right].
        exists (v :: ws1), (b1 ++ b3), b4. rewrite app_assoc. repeat split; [cbn; lia|constructor; assumption|exact H].
      + right. exists [], [], (b1 ++ b2). repeat split; [cbn; lia|constructor|apply no_room_more; exact H1].
    - left. constructor.
    - intros tk tv x y es b1 b2 b3 _ IHk _ IHv _ IH. destruct IHk as [Hk|Hk].
      + destruct IHv as [Hv|Hv].
        * destruct IH as [H|(es1 & b4 & b5 & -> & L & Hi & H)]; [left; constructor; assumption|right].
          exists ((x, y) :: es1), (b1 ++ b2 ++ b4), b5. rewrite <- !app_assoc. repeat split; [cbn; lia|constructor; assumption|exact H].
        * right. exists [], [], (b1 ++ b2 ++ b3). repeat split; [cbn; lia|constructor|right]. exists x, b1, (b2 ++ b3). repeat split; [exact Hk|apply no_room_more; exact Hv].
      + right. exists [], [], (b1 ++ b2 ++ b3). repeat split; [cbn; lia|constructor|left]. apply no_room_more. exact Hk.
    - left. constructor.
    - intros t ts v ws b1 b2 _ IH1 _ IH2. destruct IH1 as [H1|H1].
      + destruct IH2 as [H2|(ts1 & t' & ts2 & ws1 & b3 & b4 & -> & -> & Hi & H)]; [left; constructor; assumption|right].
        exists (t :: ts1), t', ts2, (v :: ws1), (b1 ++ b3), b4. rewrite app_assoc. repeat split; [constructor; assumption|exact H].
      + right. exists [], t, ts, [], [], (b1 ++ b2). repeat split; [constructor|apply no_room_more; exact H1].
    - left. constructor.
    - intros f fs ws bs Hs _ [H|(fs1 & f' & fs2 & ws1 & b1 & b2 & -> & -> & Hs' & Hi & H)]; [left; constructor; assumption|right].
      exists (f :: fs1), f', fs2, (f_tydefault f :: ws1), b1, b2. repeat split; [exact Hs'|constructor; assumption|exact H].
    - intros f fs v ws b1 b2 Hs _ IH1 _ IH2. destruct IH1 as [H1|H1].
      + destruct IH2 as [H2|(fs1 & f' & fs2 & ws1 & b3 & b4 & -> & -> & Hs' & Hi & H)]; [left; constructor; assumption|right].
        exists (f :: fs1), f', fs2, (v :: ws1), (b1 ++ b3), b4. rewrite app_assoc. repeat split; [exact Hs'|constructor; assumption|exact H].
      + right. exists [], f, fs, [], [], (b1 ++ b2). repeat split; [exact Hs|constructor|apply no_room_more; exact H1].
  Qed.
End Room.
