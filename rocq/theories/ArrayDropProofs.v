(** Proofs about the array deserializers' slots (ArrayDrop.v). *)
From Verif Require Import Base SpecDrop ArrayDrop.
From Coq Require Import Permutation.
Local Open Scope nat_scope.

Lemma NoDup_app_r {A} (a b : list A) : NoDup (a ++ b) -> NoDup b.
Proof. induction a as [|x a IH]; simpl; intros H; [exact H|]. inversion H; auto. Qed.
Lemma NoDup_app_l {A} (a b : list A) : NoDup (a ++ b) -> NoDup a.
Proof.
  induction a as [|x a IH]; simpl; intros H; [constructor|]. inversion H as [|? ? Hx H']; subst.
  constructor; [|auto]. intros Hi. apply Hx, in_app_iff. left. exact Hi.
Qed.

Lemma fresh_not_in l : forall e, In e l -> e <> Made (fresh l) /\ e <> Dropped (fresh l).
Proof.
  intros e Hin.
  set (f := fun e => match e with Made i => i | Dropped i => i end).
  assert (H : f e <= list_max (map f l)).
  { pose proof (proj1 (list_max_le (map f l) (list_max (map f l))) (Nat.le_refl _)) as HF.
    rewrite Forall_forall in HF. apply HF. apply in_map. exact Hin. }
  unfold fresh. fold f. split; intros ->; simpl in H; lia.
Qed.

Lemma orderly_nil : orderly [].
Proof. split; [constructor|]. intros i l1 l2 H. destruct l1; discriminate. Qed.

Lemma app_snoc_inv {A} (l : list A) x l1 y l2 :
  l ++ [x] = l1 ++ y :: l2 ->
  (l2 = [] /\ l1 = l /\ y = x) \/ exists l2', l2 = l2' ++ [x] /\ l = l1 ++ y :: l2'.
Proof.
  destruct (@exists_last _ (y :: l2)) as (l2' & z & Hz); [discriminate|].
  intros H. rewrite Hz, app_assoc in H. apply app_inj_tail in H as [H ->].
  destruct l2' as [|w l2'].
  - simpl in Hz. injection Hz as -> ->. left. rewrite app_nil_r in H. auto.
  - simpl in Hz. injection Hz as <- ->. right. exists l2'. auto.
Qed.

Lemma orderly_made l : orderly l -> orderly (l ++ [Made (fresh l)]).
Proof.
  intros [Hn Ho]. split.
  - apply (NoDup_Add (a := Made (fresh l)) (l := l)).
    + pose proof (Add_app (Made (fresh l)) l []) as HA. rewrite app_nil_r in HA. exact HA.
    + split; [exact Hn|]. intros Hin. destruct (fresh_not_in l _ Hin). congruence.
  - intros i l1 l2 H. apply app_snoc_inv in H as [(_ & _ & ?) | (l2' & -> & ->)]; [discriminate|].
    apply (Ho i l1 l2'). reflexivity.
Qed.

Lemma alive_made l : orderly l ->
  forall i, alive (l ++ [Made (fresh l)]) i <-> alive l i \/ i = fresh l.
Proof.
  intros Ho i. unfold alive. rewrite !in_app_iff. simpl. split.
  - intros [[H|[H|[]]] Hd].
    + left. split; [exact H|]. intros Hx. apply Hd. left. exact Hx.
    + right. congruence.
  - intros [[H Hd] | ->].
    + split; [left; exact H|]. intros [Hx|[Hx|[]]]; [tauto|discriminate].
    + split; [right; left; reflexivity|].
      intros [Hx|[Hx|[]]]; [|discriminate]. destruct (fresh_not_in l _ Hx). congruence.
Qed.

Lemma drop1_alive i l : alive l i -> drop1 i l = Some (l ++ [Dropped i]).
Proof.
  intros [H1 H2]. unfold drop1.
  destruct (in_dec ev_dec (Made i) l); [|contradiction].
  destruct (in_dec ev_dec (Dropped i) l); [contradiction|reflexivity].
Qed.

Lemma orderly_drop i l : orderly l -> alive l i -> orderly (l ++ [Dropped i]).
Proof.
  intros [Hn Ho] [Hm Hd]. split.
  - apply (NoDup_Add (a := Dropped i) (l := l)).
    + pose proof (Add_app (Dropped i) l []) as HA. rewrite app_nil_r in HA. exact HA.
    + split; [exact Hn|exact Hd].
  - intros j l1 l2 H. apply app_snoc_inv in H as [(_ & -> & H) | (l2' & -> & ->)].
    + injection H as ->. exact Hm.
    + apply (Ho j l1 l2'). reflexivity.
Qed.

Lemma alive_drop i l j : alive (l ++ [Dropped i]) j <-> alive l j /\ j <> i.
Proof.
  unfold alive. rewrite !in_app_iff. simpl. split.
  - intros [[H|[H|[]]] Hd]; [|discriminate].
    repeat split; [exact H| |].
    + intros Hx. apply Hd. left. exact Hx.
    + intros ->. apply Hd. right. left. reflexivity.
  - intros [[H Hd] Hne]. split; [left; exact H|].
    intros [Hx|[Hx|[]]]; [tauto|congruence].
Qed.

Lemma drop_ids_spec ids : forall l,
  orderly l -> NoDup ids -> (forall i, In i ids -> alive l i) ->
  drop_ids ids l = Some (l ++ map Dropped ids) /\
  orderly (l ++ map Dropped ids) /\
  forall j, alive (l ++ map Dropped ids) j <-> alive l j /\ ~ In j ids.
Proof.
  induction ids as [|i ids IH]; intros l Ho Hn Ha; simpl.
  - rewrite app_nil_r. split; [reflexivity|]. split; [exact Ho|]. tauto.
  - inversion Hn as [|? ? Hni Hn']; subst.
    rewrite drop1_alive by (apply Ha; left; reflexivity).
    destruct (IH (l ++ [Dropped i])) as (E & O & J).
    + apply orderly_drop; [exact Ho|]. apply Ha. left. reflexivity.
    + exact Hn'.
    + intros j Hj. apply alive_drop. split; [apply Ha; right; exact Hj|]. intros ->. contradiction.
    + rewrite <- app_assoc in E, O, J. simpl in E, O, J.
      split; [exact E|]. split; [exact O|].
      intros j. rewrite J. rewrite alive_drop. intuition congruence.
Qed.

(** Between two moments: the new values alive are exactly [ids]. *)
Definition Rel (l0 l : list ev) (ids : list nat) : Prop :=
  (exists evs, l = l0 ++ evs) /\ orderly l /\
  NoDup ids /\ (forall i, In i ids -> ~ In (Made i) l0) /\
  forall i, alive l i <-> alive l0 i \/ In i ids.

(** ... nothing that was alive has gone. *)
Definition Keep (l0 l : list ev) : Prop :=
  (exists evs, l = l0 ++ evs) /\ orderly l /\ forall i, alive l0 i -> alive l i.

Lemma Rel_refl l : orderly l -> Rel l l [].
Proof.
  intros H. split; [exists []; rewrite app_nil_r; reflexivity|].
  split; [exact H|]. split; [constructor|]. split; [intros i []|].
  simpl. tauto.
Qed.

Lemma NoDup_app2 {A} (a b : list A) :
  NoDup a -> NoDup b -> (forall x, In x a -> ~ In x b) -> NoDup (a ++ b).
Proof.
  intros Ha Hb Hd. induction Ha as [|x a Hx Ha IH]; simpl; [exact Hb|].
  constructor.
  - rewrite in_app_iff. intros [H|H]; [contradiction|].
    apply (Hd x); [left; reflexivity|exact H].
  - apply IH. intros y Hy. apply Hd. right. exact Hy.
Qed.

Lemma Rel_trans l0 l1 l2 a b : Rel l0 l1 a -> Rel l1 l2 b -> Rel l0 l2 (a ++ b).
Proof.
  intros ([e1 ->] & O1 & N1 & F1 & A1) ([e2 ->] & O2 & N2 & F2 & A2).
  split; [exists (e1 ++ e2); rewrite app_assoc; reflexivity|].
  split; [exact O2|]. split.
  - apply NoDup_app2; [exact N1|exact N2|]. intros i Hi Hb. apply (F2 i Hb).
    apply (proj2 (A1 i)). right. exact Hi.
  - split.
    + intros i Hi. apply in_app_iff in Hi as [Hi|Hi]; [apply F1; exact Hi|].
      intros Hm. apply (F2 i Hi). apply in_app_iff. left. exact Hm.
    + intros i. rewrite A2, A1, in_app_iff. tauto.
Qed.

Lemma Rel_drop l0 l a b : Rel l0 l (a ++ b) ->
  exists l', drop_ids a l = Some l' /\ Rel l0 l' b.
Proof.
  intros ([e ->] & O & N & F & A).
  pose proof (NoDup_app_l _ _ N) as Na.
  pose proof (NoDup_app_r _ _ N) as Nb.
  destruct (drop_ids_spec a (l0 ++ e) O Na) as (E & O' & J).
  { intros i Hi. apply A. right. apply in_app_iff. left. exact Hi. }
  exists ((l0 ++ e) ++ map Dropped a). split; [exact E|].
  split; [exists (e ++ map Dropped a); rewrite app_assoc; reflexivity|].
  split; [exact O'|]. split; [exact Nb|].
  split.
  - intros i Hi. apply F. apply in_app_iff. right. exact Hi.
  - intros i. rewrite J, A, in_app_iff. split.
    + intros [[H|[H|H]] Hn]; tauto.
    + intros [H|H].
      * split; [tauto|]. intros Hi. apply (F i); [apply in_app_iff; tauto|]. apply H.
      * split; [tauto|]. intros Hi.
        revert N. clear -H Hi. induction a as [|x a IH]; [destruct Hi|].
        simpl. intros N. inversion N as [|? ? Hx N']; subst.
        destruct Hi as [->|Hi]; [apply Hx, in_app_iff; tauto|auto].
Qed.

Lemma Rel_Keep l0 l a : Rel l0 l a -> Keep l0 l.
Proof.
  intros (H & O & _ & _ & A). split; [exact H|]. split; [exact O|].
  intros i Hi. apply A. left. exact Hi.
Qed.

Lemma Keep_trans l0 l1 l2 a : Rel l0 l1 a -> Keep l1 l2 -> Keep l0 l2.
Proof.
  intros H1 ([e2 ->] & O2 & A2). apply Rel_Keep in H1. destruct H1 as ([e1 ->] & _ & A1).
  split; [exists (e1 ++ e2); rewrite app_assoc; reflexivity|].
  split; [exact O2|]. auto.
Qed.

(** [owning], reworded. *)
Definition owns {S E A} (ids : A -> list nat) (l0 : list ev) (r : (S * list ev) * ores E A) : Prop :=
  match r with
  | (_, l', OOk o) => Rel l0 l' (ids o)
  | (_, l', OErr _) => Rel l0 l' []
  | (_, l', OPanic _) | (_, l', ONoFuel) => Keep l0 l'
  | (_, _, OUB) => False
  end.

Lemma owning_iff {S E A} (r : om S E (obj A)) :
  owning r <-> forall s l, orderly l -> owns snd l (r s l).
Proof.
  unfold owning, owns. split; intros H s l Hl; specialize (H s l Hl);
    destruct (r s l) as [[s' l'] [[a ids]|e|p| |]]; unfold Rel, Keep in *; simpl in *.
  - tauto.
  - destruct H as (H1 & H2 & H3). split; [exact H1|]. split; [exact H2|].
    split; [constructor|]. split; [intros i []|]. intros i. rewrite H3. tauto.
  - tauto.
  - tauto.
  - tauto.
  - tauto.
  - destruct H as (H1 & H2 & _ & _ & H3). split; [exact H1|]. split; [exact H2|].
    intros i. rewrite H3. tauto.
  - tauto.
  - tauto.
  - tauto.
Qed.

Lemma track_owning {St E A} (m : St -> St * res E A) : owning (track m).
Proof.
  apply owning_iff. intros s l Hl. unfold track, owns.
  destruct (m s) as [s' [a|e|p|]].
  - simpl. split; [exists [Made (fresh l)]; reflexivity|].
    split; [apply orderly_made; exact Hl|].
    split; [constructor; [intros []|constructor]|].
    split.
    + intros i [<-|[]] Hin. destruct (fresh_not_in l _ Hin). congruence.
    + intros i. rewrite alive_made by exact Hl. simpl. intuition congruence.
  - apply Rel_refl. exact Hl.
  - apply (Rel_Keep _ _ []), Rel_refl. exact Hl.
  - apply (Rel_Keep _ _ []), Rel_refl. exact Hl.
Qed.

Section P.
  Context {St E A : Type}.
  Implicit Types (item : om St E (obj A)) (sep opn cls : @plain St E).

  Lemma item_sep_owning item sep :
    owning item -> owning (item_sep item sep).
  Proof.
    rewrite !owning_iff. intros H s l Hl. specialize (H s l Hl).
    unfold item_sep. destruct (item s l) as [[s1 l1] [o|e|p| |]]; simpl in H |- *; try exact H.
    assert (Hd : exists l', drop_ids (snd o) l1 = Some l' /\ Rel l l' []).
    { apply Rel_drop. rewrite app_nil_r. exact H. }
    destruct Hd as (l' & Hd & HR).
    destruct (sep s1) as [s2 [u|e|p|]]; simpl; try rewrite Hd; simpl; try exact H; try exact HR.
    - apply (Rel_Keep _ _ _ HR).
    - apply (Rel_Keep _ _ _ H).
  Qed.

  Definition ids_of (os : list (obj A)) : list nat := concat (map snd os).

  Lemma drop_slots_spec os : forall (rest : list (option (obj A))) i lg,
    drop_slots (combine (seq i (length os)) (map Some os ++ rest)) lg = drop_ids (ids_of os) lg.
  Proof.
    induction os as [|o os IH]; intros rest i lg; simpl; [reflexivity|].
    unfold ids_of in *. simpl.
    assert (G : forall a b l, drop_ids (a ++ b) l =
                match drop_ids a l with Some l' => drop_ids b l' | None => None end).
    { clear. induction a as [|x a IH]; intros b l; simpl; [reflexivity|].
      destruct (drop1 x l); [apply IH|reflexivity]. }
    rewrite G. destruct (drop_ids (snd o) lg); [apply IH|reflexivity].
  Qed.

  Lemma set_slot_spec os (x : option (obj A)) rest :
    set_slot (length os) x (map Some os ++ None :: rest) = Some (map Some os ++ x :: rest).
  Proof.
    induction os as [|o os IH]; simpl; [reflexivity|]. rewrite IH. reflexivity.
  Qed.

  Lemma assume_all_spec os : assume_all (map (@Some (obj A)) os) = Some os.
  Proof. induction os as [|o os IH]; simpl; [reflexivity|]. rewrite IH. reflexivity. Qed.

  Lemma ids_of_snoc os o : ids_of (os ++ [o]) = ids_of os ++ snd o.
  Proof. unfold ids_of. rewrite map_app, concat_app. simpl. rewrite app_nil_r. reflexivity. Qed.

  (** The loop: on success every slot is initialised. *)
  Lemma fill_owning item sep : owning item -> forall n os s l0 l,
    Rel l0 l (ids_of os) ->
    match fill item sep n (length os) (map Some os ++ repeat None n) s l with
    | (_, l', OOk to) =>
      exists os', to = map Some os' /\ length os' = length os + n /\ Rel l0 l' (ids_of os')
    | (_, l', OErr _) => Rel l0 l' []
    | (_, l', OPanic _) | (_, l', ONoFuel) => Keep l0 l'
    | (_, _, OUB) => False
    end.
  Proof.
    intros Hi. apply (item_sep_owning item sep) in Hi. rewrite owning_iff in Hi.
    induction n as [|n IH]; intros os s l0 l HR; simpl.
    - exists os. rewrite app_nil_r, Nat.add_0_r. auto.
    - assert (Hl : orderly l) by apply HR.
      specialize (Hi s l Hl).
      destruct (item_sep item sep s l) as [[s' l'] [o|e|p| |]]; simpl in Hi.
      + rewrite set_slot_spec.
        pose proof (Rel_trans _ _ _ _ _ HR Hi) as HR'.
        specialize (IH (os ++ [o]) s' l0 l').
        rewrite ids_of_snoc, app_length, map_app in IH. simpl in IH.
        rewrite <- app_assoc in IH. simpl in IH. rewrite Nat.add_1_r in IH.
        specialize (IH HR').
        destruct (fill _ _ _ _ _ _ _) as [[s2 l2] [to|e|p| |]]; try exact IH.
        destruct IH as (os' & -> & Hlen & HR2). exists os'. split; [reflexivity|].
        split; [lia|exact HR2].
      + rewrite drop_slots_spec.
        pose proof (Rel_trans _ _ _ _ _ HR Hi) as HR'.
        apply Rel_drop in HR' as (l2 & -> & HR'). exact HR'.
      + apply (Keep_trans _ _ _ _ HR Hi).
      + apply (Keep_trans _ _ _ _ HR Hi).
      + exact Hi.
  Qed.

  Theorem de_array_owning opn item sep cls n :
    owning item -> owning (de_array opn item sep cls n).
  Proof.
    intros Hi. apply owning_iff. intros s l Hl. unfold de_array.
    pose proof (Rel_refl l Hl) as HR0.
    destruct (opn s) as [s0 [u|e|p|]]; simpl; try exact HR0; try exact (Rel_Keep _ _ _ HR0).
    pose proof (fill_owning item sep Hi n [] s0 l l HR0) as HF. simpl in HF.
    destruct (fill _ _ _ _ _ _ _) as [[s1 l1] [to|e|p| |]]; simpl; try exact HF.
    destruct HF as (os & -> & _ & HR). rewrite assume_all_spec.
    change (concat (map snd os)) with (ids_of os).
    assert (Hd : exists l', drop_ids (ids_of os) l1 = Some l' /\ Rel l l' []).
    { apply Rel_drop. rewrite app_nil_r. exact HR. }
    destruct Hd as (l' & Hd & HR').
    destruct (cls s1) as [s2 [u'|e|p|]]; try rewrite Hd; simpl; try exact HR; try exact HR'.
    - apply (Rel_Keep _ _ _ HR').
    - apply (Rel_Keep _ _ _ HR).
  Qed.

End P.

Section Trace.
  Context {St E A : Type}.
  Implicit Types (m : St -> St * res E A) (sep opn cls : @plain St E).

  Lemma fresh_nodup l : orderly l -> forall ids, NoDup ids -> (forall i, In i ids -> In (Made i) l) ->
    NoDup (ids ++ [fresh l]).
  Proof.
    intros _ ids Hn Hm. apply NoDup_app2; [exact Hn|constructor; [intros []|constructor]|].
    intros i Hi [<-|[]]. destruct (fresh_not_in l _ (Hm _ Hi)). congruence.
  Qed.

  Lemma drop_made ids : forall l0 (l : list ev), Rel l0 l ids -> drop_ids ids l = Some (l ++ map Dropped ids).
  Proof.
    intros l0 l (_ & O & N & F & Al). apply drop_ids_spec; [exact O|exact N|].
    intros i Hi. apply Al. right. exact Hi.
  Qed.

  Lemma made_rel l o : orderly l -> o = fresh l -> Rel l (l ++ [Made o]) [o].
  Proof.
    intros Hl ->. split; [exists [Made (fresh l)]; reflexivity|].
    split; [apply orderly_made; exact Hl|].
    split; [constructor; [intros []|constructor]|].
    split.
    - intros i [<-|[]] Hin. destruct (fresh_not_in l _ Hin). congruence.
    - intros i. rewrite alive_made by exact Hl. simpl. intuition congruence.
  Qed.

  (** Where a failing loop stopped, and what it had made by then. *)
  Definition stopped m sep (n : nat) (s0 : St) (e : E) (made : nat) : Prop :=
    exists k sk, reads m sep k s0 sk /\ k < n /\
      ((exists s1, m sk = (s1, Err e)) /\ made = k \/
       (exists s1 s2 a, m sk = (s1, Ok a) /\ sep s1 = (s2, Err e)) /\ made = S k).

  Lemma fill_trace m sep s0 l0 : forall n os s,
    Rel l0 (l0 ++ map Made (ids_of os)) (ids_of os) ->
    length (ids_of os) = length os ->
    reads m sep (length os) s0 s ->
    match fill (track m) sep n (length os) (map Some os ++ repeat None n) s (l0 ++ map Made (ids_of os)) with
    | (s', l', OOk to) =>
      exists os', to = map Some os' /\ length os' = length os + n /\
        length (ids_of os') = length os' /\
        reads m sep (length os') s0 s' /\
        l' = l0 ++ map Made (ids_of os') /\ Rel l0 l' (ids_of os')
    | (_, l', OErr e) =>
      exists ids ids', l' = l0 ++ map Made ids ++ map Dropped ids' /\ NoDup ids /\
        Permutation ids ids' /\ stopped m sep (length os + n) s0 e (length ids)
    | _ => True
    end.
  Proof.
    induction n as [|n IH]; intros os s HR Hlen Hrd; simpl.
    - exists os. rewrite app_nil_r, Nat.add_0_r. split; [reflexivity|].
      split; [reflexivity|]. split; [exact Hlen|]. split; [exact Hrd|]. split; [reflexivity|exact HR].
    - unfold item_sep, track.
      set (l := l0 ++ map Made (ids_of os)) in *.
      assert (Hl : orderly l) by apply HR.
      destruct (m s) as [s1 [a|e|p|]] eqn:Em; try exact I.
      + pose proof (made_rel l (fresh l) Hl eq_refl) as H1.
        pose proof (Rel_trans _ _ _ _ _ HR H1) as H2.
        assert (Hl1 : l ++ [Made (fresh l)] = l0 ++ map Made (ids_of os ++ [fresh l])).
        { unfold l. rewrite map_app, app_assoc. reflexivity. }
        destruct (sep s1) as [s2 [u|e|p|]] eqn:Es.
        * rewrite set_slot_spec.
          specialize (IH (@app (obj A) os (@cons (obj A) (a, [fresh l]) (@nil (obj A)))) s2).
          rewrite ids_of_snoc in IH. cbn [snd] in IH. rewrite <- Hl1 in IH.
          specialize (IH H2).
          rewrite !app_length, map_app in IH. rewrite <- app_assoc in IH.
          cbn [length map app] in IH. rewrite !Nat.add_1_r in IH.
          specialize (IH (f_equal S Hlen)).
          specialize (IH (reads_more _ _ _ _ _ _ _ _ _ Hrd Em Es)).
          destruct (fill _ _ _ _ _ _ _) as [[s3 l3] [to|e|p| |]]; try exact I.
          -- destruct IH as (os' & -> & Hn & Hrest). exists os'. split; [reflexivity|].
             split; [lia|exact Hrest].
          -- destruct IH as (ids & ids' & H & HN & HP & HS). exists ids, ids'.
             split; [exact H|]. split; [exact HN|]. split; [exact HP|].
             replace (length os + S n) with (S (length os) + n) by lia. exact HS.
        * cbn [snd].
          assert (H2' : Rel l0 (l ++ [Made (fresh l)]) ([fresh l] ++ ids_of os)).
          { destruct H2 as (X1 & X2 & X3 & X4 & X5). split; [exact X1|]. split; [exact X2|].
            split; [apply (Permutation_NoDup (Permutation_app_comm _ _) X3)|].
            split; [intros i Hi; apply X4; rewrite in_app_iff in *; tauto|].
            intros i. rewrite X5, !in_app_iff. tauto. }
          apply drop_made in H2'.
          assert (G : forall x b lg, drop_ids (x ++ b) lg =
                match drop_ids x lg with Some l' => drop_ids b l' | None => None end).
          { clear. induction x as [|y x IHx]; intros b l; simpl; [reflexivity|].
            destruct (drop1 y l); [apply IHx|reflexivity]. }
          rewrite G in H2'.
          destruct (drop_ids [fresh l] (l ++ [Made (fresh l)])) as [l2|] eqn:Ed; [|discriminate].
          rewrite drop_slots_spec, H2'.
          exists (ids_of os ++ [fresh l]), ([fresh l] ++ ids_of os).
          split; [rewrite Hl1, <- app_assoc; reflexivity|].
          split; [apply H2|].
          split; [apply Permutation_app_comm|].
          exists (length os), s. split; [exact Hrd|]. split; [lia|]. right.
          split; [exists s1, s2, a; auto|]. rewrite app_length. simpl. lia.
        * destruct (drop_ids _ _); [exact I|].
          exact I.
        * exact I.
      + rewrite drop_slots_spec, (drop_made _ _ _ HR).
        exists (ids_of os), (ids_of os). unfold l. rewrite <- app_assoc.
        split; [reflexivity|]. split; [apply HR|]. split; [apply Permutation_refl|].
        exists (length os), s. split; [exact Hrd|]. split; [lia|]. left.
        split; [exists s1; exact Em|exact Hlen].
  Qed.

  (** The exact trace of an array of droppable items. *)
  Theorem de_array_trace opn m sep cls n s l : orderly l ->
    match de_array opn (track m) sep cls n s l with
    | (s', l', OOk (vs, ids)) =>
      length vs = n /\ length ids = n /\ NoDup ids /\ l' = l ++ map Made ids
    | (_, l', OErr e) =>
      exists ids ids', l' = l ++ map Made ids ++ map Dropped ids' /\ NoDup ids /\ Permutation ids ids' /\
        ((exists s1, opn s = (s1, Err e)) /\ ids = [] \/
         exists s0 u, opn s = (s0, Ok u) /\
          (stopped m sep n s0 e (length ids) \/
           length ids = n /\ exists s1 s2, reads m sep n s0 s1 /\ cls s1 = (s2, Err e)))
    | _ => True
    end.
  Proof.
    intros Hl. unfold de_array.
    destruct (opn s) as [s0 [u|e|p|]] eqn:Eo; try exact I.
    - pose proof (fill_trace m sep s0 l n [] s0) as HF. simpl in HF.
      rewrite app_nil_r in HF. specialize (HF (Rel_refl l Hl) eq_refl (reads_none _ _ _)).
      destruct (fill _ _ _ _ _ _ _) as [[s1 l1] [to|e|p| |]]; try exact I.
      + destruct HF as (os & -> & Hn & Hlen & Hrd & El & HR). rewrite assume_all_spec.
        destruct (cls s1) as [s2 [u'|e|p|]] eqn:Ec; try exact I.
        * cbn [arr_obj]. rewrite map_length. change (concat (map snd os)) with (ids_of os).
          split; [exact Hn|]. split; [lia|]. split; [apply HR|exact El].
        * cbn [arr_obj snd]. change (concat (map snd os)) with (ids_of os).
          rewrite (drop_made _ _ _ HR).
          exists (ids_of os), (ids_of os). rewrite El, <- app_assoc.
          split; [reflexivity|]. split; [apply HR|]. split; [apply Permutation_refl|].
          right. exists s0, u. split; [reflexivity|]. right. split; [lia|].
          exists s1, s2. split; [|exact Ec]. rewrite Hn in Hrd. exact Hrd.
        * destruct (drop_ids _ _); exact I.
      + destruct HF as (ids & ids' & H1 & H2 & H3 & H4). exists ids, ids'.
        split; [exact H1|]. split; [exact H2|]. split; [exact H3|]. right. exists s0, u.
        split; [reflexivity|]. left. exact H4.
    - exists [], []. simpl. rewrite app_nil_r. split; [reflexivity|]. split; [constructor|].
      split; [constructor|]. left. split; [exists s0; reflexivity|reflexivity].
  Qed.

  (** Reading without slots: items one after the other, and the closing bracket. *)
  Fixpoint plain_items m sep (n : nat) (s : St) : St * res E (list A) :=
    match n with
    | 0 => (s, Ok [])
    | S n' =>
      match m s with
      | (s1, Ok a) =>
        match sep s1 with
        | (s2, Ok _) =>
          match plain_items m sep n' s2 with
          | (s3, Ok r) => (s3, Ok (a :: r))
          | (s3, Err e) => (s3, Err e)
          | (s3, Panic p) => (s3, Panic p)
          | (s3, NoFuel) => (s3, NoFuel)
          end
        | (s2, Err e) => (s2, Err e)
        | (s2, Panic p) => (s2, Panic p)
        | (s2, NoFuel) => (s2, NoFuel)
        end
      | (s1, Err e) => (s1, Err e)
      | (s1, Panic p) => (s1, Panic p)
      | (s1, NoFuel) => (s1, NoFuel)
      end
    end.

  (** A deserializer with slots runs as the one without. *)
  Definition sim {B} (f : A -> B) (item : om St E (obj A)) (m : St -> St * res E B) : Prop :=
    forall s l, orderly l ->
    fst (fst (item s l)) = fst (m s) /\ same_outcome f (snd (item s l)) (snd (m s)).

  Lemma track_sim m : sim (fun a => a) (track m) m.
  Proof.
    intros s l _. unfold track. destruct (m s) as [s' [a|e|p|]]; cbn; auto.
  Qed.

  Lemma fill_plain (item : om St E (obj A)) m sep : owning item -> sim (fun a => a) item m ->
    forall n os s l0 l,
    Rel l0 l (ids_of os) ->
    match fill item sep n (length os) (map Some os ++ repeat None n) s l, plain_items m sep n s with
    | (s', l', OOk to), (s2, Ok vs) =>
      s' = s2 /\ exists os', to = map Some os' /\ map fst os' = map fst os ++ vs /\ Rel l0 l' (ids_of os')
    | (s', _, OErr e), (s2, Err e2) => s' = s2 /\ e = e2
    | (s', _, OPanic p), (s2, Panic p2) => s' = s2 /\ p = p2
    | (s', _, ONoFuel), (s2, NoFuel) => s' = s2
    | _, _ => False
    end.
  Proof.
    intros Ho Hs. rewrite owning_iff in Ho.
    induction n as [|n IH]; intros os s l0 l HR; simpl.
    - split; [reflexivity|]. exists os. rewrite !app_nil_r. auto.
    - unfold item_sep.
      assert (Hl : orderly l) by apply HR.
      specialize (Ho s l Hl). specialize (Hs s l Hl).
      destruct (item s l) as [[s1 l1] [o|e|p| |]]; destruct (m s) as [s1' [a|e'|p'|]];
        cbn in Hs; destruct Hs as [Hs1 Hs2]; subst s1';
        try (exfalso; first [exact Hs2 | destruct o as [x y]; exact Hs2]).
      + destruct o as [a' ids]. subst a'. cbn in Ho.
        pose proof (Rel_trans _ _ _ _ _ HR Ho) as H2.
        assert (Hd : exists l', drop_ids ids l1 = Some l' /\ Rel l l' []).
        { apply Rel_drop. rewrite app_nil_r. exact Ho. }
        destruct Hd as (l2 & Hd & HR2). cbn [snd].
        destruct (sep s1) as [s2 [u|e|p|]] eqn:Es.
        * rewrite set_slot_spec.
          specialize (IH (@app (obj A) os (@cons (obj A) (a, ids) (@nil (obj A)))) s2 l0 l1).
          rewrite ids_of_snoc in IH. cbn [snd] in IH. specialize (IH H2).
          rewrite !app_length, !map_app in IH. rewrite <- app_assoc in IH.
          cbn [length map app fst] in IH. rewrite !Nat.add_1_r in IH.
          destruct (fill _ _ _ _ _ _ _) as [[s3 l3] [to|e|p| |]];
            destruct (plain_items m sep n s2) as [s4 [vs|e'|p'|]]; try exact IH.
          destruct IH as (-> & os' & -> & Hv & Hrest). split; [reflexivity|].
          exists os'. split; [reflexivity|]. rewrite <- app_assoc in Hv. split; [exact Hv|exact Hrest].
        * rewrite Hd, drop_slots_spec.
          pose proof (Rel_trans _ _ _ _ _ HR HR2) as H3.
          apply Rel_drop in H3 as (l3 & -> & _). auto.
        * rewrite Hd. auto.
        * reflexivity.
      + rewrite drop_slots_spec. cbn in Ho. subst e'.
        pose proof (Rel_trans _ _ _ _ _ HR Ho) as H3.
        apply Rel_drop in H3 as (l3 & -> & _). auto.
      + subst p'. auto.
      + reflexivity.
  Qed.

  Definition plain_array (opn : @plain St E) m sep (cls : @plain St E) (n : nat) (s : St) : St * res E (list A) :=
      match opn s with
      | (s0, Ok _) =>
        match plain_items m sep n s0 with
        | (s1, Ok vs) =>
          match cls s1 with
          | (s2, Ok _) => (s2, Ok vs)
          | (s2, Err e) => (s2, Err e)
          | (s2, Panic p) => (s2, Panic p)
          | (s2, NoFuel) => (s2, NoFuel)
          end
        | (s1, Err e) => (s1, Err e)
        | (s1, Panic p) => (s1, Panic p)
        | (s1, NoFuel) => (s1, NoFuel)
        end
      | (s0, Err e) => (s0, Err e)
      | (s0, Panic p) => (s0, Panic p)
      | (s0, NoFuel) => (s0, NoFuel)
      end.

  Theorem de_array_plain opn (item : om St E (obj A)) m sep cls n s l :
    owning item -> sim (fun a => a) item m -> orderly l ->
    let r := de_array opn item sep cls n s l in
    fst (fst r) = fst (plain_array opn m sep cls n s) /\
    same_outcome (fun vs => vs) (snd r) (snd (plain_array opn m sep cls n s)).
  Proof.
    intros Ho Hs Hl. cbv zeta. unfold de_array, plain_array.
    destruct (opn s) as [s0 [u|e|p|]]; try (cbn; auto; fail).
    pose proof (fill_plain item m sep Ho Hs n [] s0 l l (Rel_refl l Hl)) as HF. simpl in HF.
    destruct (fill _ _ _ _ _ _ _) as [[s1 l1] [to|e|p| |]];
      destruct (plain_items m sep n s0) as [s4 [vs|e'|p'|]]; try contradiction.
    - destruct HF as (-> & os & -> & Hv & HR). rewrite assume_all_spec.
      assert (Hd : drop_ids (snd (arr_obj os)) l1 = Some (l1 ++ map Dropped (ids_of os))).
      { apply (drop_made _ _ _ HR). }
      destruct (cls s4) as [s2 [u'|e|p|]]; try rewrite Hd; cbn; auto.
    - destruct HF as [-> ->]. cbn; auto.
    - destruct HF as [-> ->]. cbn; auto.
    - subst. cbn; auto.
  Qed.
End Trace.
