(** Which panics and which errors binary decoding can end with. *)
From Verif Require Import Base Utf8 Types BinModel BinRead BinLocal TyAll BinFuel.
Local Open Scope N_scope.
Ltac Zify.zify_post_hook ::= Z.div_mod_to_equations.

(** The panics a type node can cause by itself. *)
Definition node_panics (c : cfg) (t : ty) (p : panic) : Prop :=
  match t with
  | TStr => (p = POverflow /\ overflow_checks c = true) \/ (p = PSlice /\ overflow_checks c = false)
  | TSeq SVec _ | TSeq SHSet _ | TMap MHash _ _ => p = PCapacity
  | TDur => p = PDuration
  | TTime => p = PDuration \/ p = PTime
  | _ => False
  end.

(** An accurate length error: the offset points at the read that failed and has
    not moved, the length is that of the input, and the wanted width does not
    fit. *)
Definition len_accurate (d : list N) (o' : N) (e : berr) : Prop :=
  match e_msg e with
  | ELength w total => e_o e = o' /\ total = lenN d /\ o' <= lenN d /\ lenN d < o' + w /\ In w [1; 2; 4; 8; 16]
  | _ => True
  end.
(** What a String may report instead: it names the offset of its text, but the
    width 1 whatever is missing, or the text length when it is not UTF-8. *)
Definition len_string (d : list N) (o' : N) (e : berr) : Prop :=
  match e_msg e with
  | ELength w total => e_o e = o' /\ total = lenN d /\ o' <= lenN d
  | _ => True
  end.

Definition node_errors (t : ty) (d : list N) (o' : N) (e : berr) : Prop :=
  match t with
  | TStr => len_string d o' e
  | _ => False
  end.

Section Outcomes.
  Variable c : cfg.
  Variable G : env.
  Hypothesis Hc : cfg_ok c.
  Variable P : panic -> Prop.
  Variable Q : list N -> N -> berr -> Prop.
  Hypothesis HQ : forall d o e, len_accurate d o e -> Q d o e.

  Definition Ends {A} (m : list N -> bm A) : Prop :=
    forall d o, slice_fits c (lenN d) -> o <= lenN d ->
      match m d o with
      | (_, Panic p) => P p
      | (o', Err e) => Q d o' e
      | _ => True
      end.

  Lemma Ends_ret {A} (a : A) : Ends (fun _ => bret a).
  Proof. intros d o _ _. exact I. Qed.
  Lemma Ends_bind {A B} (m : list N -> bm A) (f : list N -> A -> bm B) :
    Local c m -> Ends m -> (forall a, Ends (fun d => f d a)) -> Ends (fun d => bbind (m d) (f d)).
  Proof.
    intros L H1 H2 d o Hf Ho. specialize (H1 d o Hf Ho). unfold bbind.
    destruct (m d o) as [o' [a|e|p|]] eqn:E; auto.
    destruct (L _ _ _ _ Hf Ho E) as (_ & Ho' & _). exact (H2 a d o' Hf Ho').
  Qed.
  Lemma Ends_map {A B} (g : A -> B) (m : list N -> bm A) : Ends m -> Ends (fun d => bmap g (m d)).
  Proof.
    intros H d o Hf Ho. specialize (H d o Hf Ho). unfold bmap, bbind.
    destruct (m d o) as [o' [a|e|p|]]; auto.
  Qed.
  Lemma Ends_ext {A} (m1 m2 : list N -> bm A) : (forall d o, m2 d o = m1 d o) -> Ends m1 -> Ends m2.
  Proof. intros E H d o Hf Ho. rewrite E. exact (H d o Hf Ho). Qed.

  Lemma Ends_fixed w : In w [1; 2; 4; 8; 16] -> Ends (fun d => rd_fixed c d w).
  Proof.
    intros Hw d o Hf Ho. destruct (slice_fits_usize _ _ Hc Hf) as [H1 H2].
    assert (w <= 16) by (simpl in Hw; lia).
    unfold rd_fixed. rewrite usize_add_ok by lia.
    destruct (N.ltb_spec (lenN d) (o + w)).
    - apply HQ. unfold len_accurate, len_err; cbn. auto.
    - destruct (N.ltb_spec (o + w) o); [lia|exact I].
  Qed.
  Lemma Ends_usize : Ends (fun d => rd_usize c d).
  Proof.
    intros d o Hf Ho. destruct (slice_fits_usize _ _ Hc Hf) as [H1 H2].
    unfold rd_usize. rewrite usize_add_ok by lia.
    destruct (N.leb_spec o (o + 8)); [|lia]. destruct (N.leb_spec (o + 8) (lenN d)); [exact I|].
    apply HQ. unfold len_accurate, len_err; cbn. repeat split; auto; lia.
  Qed.
  Lemma Ends_str :
    (forall p, node_panics c TStr p -> P p) -> (forall d o e, node_errors TStr d o e -> Q d o e) ->
    Ends (fun d => rd_str c d).
  Proof.
    intros HP HE. apply (Ends_ext (fun d => bbind (rd_usize c d) (fun len o =>
      if len <? usize_mod c then
      match usize_add c o len with
      | Ok e =>
        if lenN d <? e then (o, Err (len_err d o 1))
        else if e <? o then (o, Panic PSlice)
        else match utf8_dec (slice o len d) with
             | Some s => (e, Ok s)
             | None => (o, Err (len_err d o len))
             end
      | Err e => (o, Err e) | Panic p => (o, Panic p) | NoFuel => (o, NoFuel)
      end else (o, NoFuel)))).
    { intros d o. unfold rd_str, bbind. destruct (rd_usize c d o) as [o' [a|e|p|]] eqn:E; auto.
      apply rd_usize_bound in E. apply N.ltb_lt in E. rewrite E. reflexivity. }
    apply (Ends_bind (fun d => rd_usize c d) (fun d len o => _)); [apply Local_usize; assumption|apply Ends_usize|].
    intros len d o Hf Ho. destruct (slice_fits_usize _ _ Hc Hf) as [H1 H2].
    destruct (N.ltb_spec len (usize_mod c)) as [Hlen|]; [|exact I].
    destruct (usize_add c o len) as [e|e|p|] eqn:E.
    - destruct (N.ltb_spec (lenN d) e).
      { apply HE. unfold node_errors, len_string, len_err; cbn. auto. }
      destruct (N.ltb_spec e o).
      { apply HP. right. split; [reflexivity|].
        unfold usize_add in E. destruct (N.ltb_spec (o + len) (usize_mod c)); [inversion E; lia|].
        destruct (overflow_checks c); [discriminate|reflexivity]. }
      destruct (utf8_dec (slice o len d)); [exact I|].
      apply HE. unfold node_errors, len_string, len_err; cbn. auto.
    - unfold usize_add in E. destruct (o + len <? usize_mod c); [discriminate|]. destruct (overflow_checks c); discriminate.
    - apply HP. left. unfold usize_add in E. destruct (o + len <? usize_mod c); [discriminate|].
      destruct (overflow_checks c); inversion E. auto.
    - exact I.
  Qed.
  Lemma Ends_dur : P PDuration -> Ends (fun d => rd_dur c d).
  Proof.
    intro HP. unfold rd_dur.
    eapply (Ends_bind (fun d => rd_fixed c d 8) (fun d bs => bbind _ (fun bn => let ns := of_le bn in _)));
      [apply Local_fixed; [assumption|lia]|apply Ends_fixed; simpl; tauto|]. intro bs. cbv beta.
    eapply (Ends_bind (fun d => rd_fixed c d 4) (fun d bn => let ns := of_le bn in _));
      [apply Local_fixed; [assumption|lia]|apply Ends_fixed; simpl; tauto|]. intro bn. cbv beta zeta.
    intros d o Hf Ho. destruct (1000000000 <? of_le bn).
    - apply HQ. exact I.
    - unfold duration_new. destruct (of_le bn <? 1000000000); [exact I|].
      destruct (_ <? _); [exact I|exact HP].
  Qed.
  Lemma Ends_time : P PDuration -> P PTime -> P PIllTyped \/ True -> Ends (fun d => rd_time c d).
  Proof.
    intros HP1 HP2 _. unfold rd_time.
    eapply (Ends_bind (fun d => rd_fixed c d 1) (fun d b => _));
      [apply Local_fixed; [assumption|lia]|apply Ends_fixed; simpl; tauto|]. intro b. cbv beta.
    destruct (of_le b =? 1); [|apply Ends_ret].
    apply (Ends_ext (fun d => bbind (rd_dur c d) (fun v =>
          match v with
          | VDur s ns => if s <=? time_max c then bret (VTime (Z.of_N s) ns) else bfail (Panic PTime)
          | _ => bret VUnit
          end))).
    { intros d o. unfold bbind. destruct (rd_dur c d o) as [o' [a|e|p|]] eqn:E; auto.
      unfold rd_dur, bbind in E.
      destruct (rd_fixed c d 8 o) as [o1 [b1| | |]]; try discriminate.
      destruct (rd_fixed c d 4 o1) as [o2 [b2| | |]]; try discriminate.
      unfold duration_new in E.
      repeat match type of E with context [if ?b then _ else _] => destruct b end;
        unfold bret, bfail in E; inversion E; reflexivity. }
    apply (Ends_bind (fun d => rd_dur c d) (fun d v => _)); [apply Local_dur; assumption|apply Ends_dur; assumption|].
    intros a d o Hf Ho. destruct a; try exact I. destruct (secs <=? time_max c); [exact I|exact HP2].
  Qed.

  Lemma Ends_iter {A} (step : list N -> A -> bm A) k :
    (forall a, Local c (fun d => step d a)) -> (forall a, Ends (fun d => step d a)) ->
    forall a, Ends (fun d o => iter_nat_m (fun o a => step d a o) k o a).
  Proof.
    intros L Hs. induction k as [|k IH]; intro a; [apply (Ends_ret a)|].
    apply (Ends_ext (fun d => bbind (step d a) (fun a' o => iter_nat_m (fun o a => step d a o) k o a'))).
    { intros d o. cbn [iter_nat_m]. unfold seq2, bbind. destruct (step d a o) as [o' [b|e|p|]]; reflexivity. }
    apply (Ends_bind (fun d => step d a) (fun d a' o => iter_nat_m (fun o a => step d a o) k o a')); auto.
  Qed.
  Lemma Ends_capacity t len : P PCapacity -> Ends (fun _ => with_capacity c t len).
  Proof. intros HP d o _ _. unfold with_capacity. destruct (_ <=? _); [exact I|exact HP]. Qed.

  Definition node_good (t : ty) : Prop :=
    (forall p, node_panics c t p -> P p) /\ (forall d o e, node_errors t d o e -> Q d o e) /\ name_ok G t.

  Section Helpers.
    Variable de : list N -> ty -> bm val.
    Hypothesis HL : forall t, Local c (fun d => de d t).

    Lemma Ends_items k t len : Ends (fun d => de d t) -> Ends (fun d => de_items (de d) k t len).
    Proof.
      intro H. apply (Ends_ext (fun d o => iter_nat_m (fun o acc => (fun d acc => bbind (de d t) (fun v => bret (seq_add k v acc))) d acc o) (N.to_nat len) o [])).
      { intros d o. unfold de_items. apply iter_N_nat. }
      apply Ends_iter; intro a.
      - apply (Local_bind c (fun d => de d t) (fun d v => bret (seq_add k v a))); [apply HL|]. intro. apply Local_ret.
      - apply (Ends_bind (fun d => de d t) (fun d v => bret (seq_add k v a))); [apply HL|exact H|]. intro. apply Ends_ret.
    Qed.
    Lemma Ends_entries k tk tv len :
      Ends (fun d => de d tk) -> Ends (fun d => de d tv) -> Ends (fun d => de_entries (de d) k tk tv len).
    Proof.
      intros H1 H2. apply (Ends_ext (fun d o => iter_nat_m (fun o acc => (fun d acc => bbind (de d tk) (fun x => bbind (de d tv) (fun y => bret (map_add k x y acc)))) d acc o) (N.to_nat len) o [])).
      { intros d o. unfold de_entries. apply iter_N_nat. }
      apply Ends_iter; intro a.
      - apply (Local_bind c (fun d => de d tk) (fun d x => bbind (de d tv) (fun y => bret (map_add k x y a)))); [apply HL|]. intro x.
        apply (Local_bind c (fun d => de d tv) (fun d y => bret (map_add k x y a))); [apply HL|]. intro. apply Local_ret.
      - apply (Ends_bind (fun d => de d tk) (fun d x => bbind (de d tv) (fun y => bret (map_add k x y a)))); [apply HL|exact H1|]. intro x.
        apply (Ends_bind (fun d => de d tv) (fun d y => bret (map_add k x y a))); [apply HL|exact H2|]. intro. apply Ends_ret.
    Qed.
    Lemma Ends_rep n t : Ends (fun d => de d t) -> Ends (fun d => de_rep (de d) n t).
    Proof.
      intro H. induction n as [|n IH]; [apply (Ends_ret [])|]. cbn [de_rep].
      apply (Ends_bind (fun d => de d t) (fun d v => bbind (de_rep (de d) n t) (fun r => bret (v :: r)))); [apply HL|exact H|]. intro v.
      apply (Ends_map (fun r => v :: r) (fun d => de_rep (de d) n t)). exact IH.
    Qed.
    Lemma Ends_tys ts : Forall (fun t => Ends (fun d => de d t)) ts -> Ends (fun d => de_tys (de d) ts).
    Proof.
      induction 1 as [|t ts H Hs IH]; [apply (Ends_ret [])|]. cbn [de_tys].
      apply (Ends_bind (fun d => de d t) (fun d v => bbind (de_tys (de d) ts) (fun r => bret (v :: r)))); [apply HL|exact H|]. intro v.
      apply (Ends_map (fun r => v :: r) (fun d => de_tys (de d) ts)). exact IH.
    Qed.
    Lemma Ends_fields b fs : Forall (fun f => Ends (fun d => de d (f_ty f))) fs -> Ends (fun d => de_fields (de d) b fs).
    Proof.
      induction 1 as [|f fs H Hs IH]; [apply (Ends_ret [])|]. cbn [de_fields].
      assert (Hr : forall v, Ends (fun d => bbind (de_fields (de d) b fs) (fun r => bret (v :: r)))).
      { intro v. apply (Ends_map (fun r => v :: r) (fun d => de_fields (de d) b fs)). exact IH. }
      destruct (b && f_skip f).
      - apply (Ends_bind (fun _ => bret (f_tydefault f)) (fun d v => bbind (de_fields (de d) b fs) (fun r => bret (v :: r)))); [apply Local_ret|apply Ends_ret|exact Hr].
      - apply (Ends_bind (fun d => de d (f_ty f)) (fun d v => bbind (de_fields (de d) b fs) (fun r => bret (v :: r)))); [apply HL|exact H|exact Hr].
    Qed.
  End Helpers.

  Hypothesis HG : env_all node_good G.
  Hypothesis HD : Forall decl_ok G.

  Theorem Ends_de n t : ty_all node_good t -> Ends (fun d => de_bin c G d n t).
  Proof.
    revert t; induction n as [|n IH]; intros t Ht.
    { intros d o _ _. exact I. }
    assert (HLn : forall t, Local c (fun d => de_bin c G d n t)) by (intro; apply Local_de; assumption).
    destruct t; cbn [ty_all] in Ht; destruct Ht as [[HP [HE HN]] Ht].
    - destruct k; cbn [de_bin];
        try (apply (Ends_map (fun b => VZ (of_bits _ (of_le b)))); apply Ends_fixed; simpl; tauto).
      apply (Ends_map (fun m => VZ (Z.of_N m)) (fun d => rd_usize c d)). apply Ends_usize.
    - apply (Ends_map (fun b => VF (of_le b)) (fun d => rd_fixed c d 4)). apply Ends_fixed; simpl; tauto.
    - apply (Ends_map (fun b => VF (of_le b)) (fun d => rd_fixed c d 8)). apply Ends_fixed; simpl; tauto.
    - apply (Ends_map (fun b => VBool (negb (of_le b =? 0))) (fun d => rd_fixed c d 1)). apply Ends_fixed; simpl; tauto.
    - apply (Ends_map VStr (fun d => rd_str c d)). apply Ends_str; assumption.
    - apply (Ends_ret VUnit).
    - apply (Ends_bind (fun d => rd_fixed c d 1) (fun d b => if of_le b =? 1 then bmap VSome (de_bin c G d n t) else bret VNone));
        [apply Local_fixed; [assumption|lia]|apply Ends_fixed; simpl; tauto|]. intro b.
      destruct (of_le b =? 1); [|apply Ends_ret]. apply (Ends_map VSome (fun d => de_bin c G d n t)). auto.
    - apply (Ends_bind (fun d => rd_usize c d) (fun d len =>
          bbind (match k with SVec | SHSet => with_capacity c t len | _ => bret tt end)
                (fun _ => bmap VSeq (de_items (de_bin c G d n) k t len))));
        [apply Local_usize; assumption|apply Ends_usize|]. intro len.
      apply (Ends_bind (fun d => match k with SVec | SHSet => with_capacity c t len | _ => bret tt end)
               (fun d _ => bmap VSeq (de_items (de_bin c G d n) k t len))).
      + destruct k; try apply Local_ret; apply Local_capacity.
      + destruct k; try apply Ends_ret; apply Ends_capacity; apply HP; reflexivity.
      + intros _. apply (Ends_map VSeq (fun d => de_items (de_bin c G d n) k t len)).
        apply (Ends_items (fun d => de_bin c G d n)); auto.
    - apply (Ends_bind (fun d => rd_usize c d) (fun d len =>
          bbind (match k with MHash => with_capacity c t1 len | MBTree => bret tt end)
                (fun _ => bmap VMap (de_entries (de_bin c G d n) k t1 t2 len))));
        [apply Local_usize; assumption|apply Ends_usize|]. intro len.
      apply (Ends_bind (fun d => match k with MHash => with_capacity c t1 len | MBTree => bret tt end)
               (fun d _ => bmap VMap (de_entries (de_bin c G d n) k t1 t2 len))).
      + destruct k; try apply Local_ret; apply Local_capacity.
      + destruct k; try apply Ends_ret; apply Ends_capacity; apply HP; reflexivity.
      + intros _. apply (Ends_map VMap (fun d => de_entries (de_bin c G d n) k t1 t2 len)).
        destruct Ht. apply (Ends_entries (fun d => de_bin c G d n)); auto.
    - apply (Ends_map VSeq (fun d => de_rep (de_bin c G d n) n0 t)). apply (Ends_rep (fun d => de_bin c G d n)); auto.
    - apply (Ends_map VSeq (fun d => de_tys (de_bin c G d n) ts)). apply (Ends_tys (fun d => de_bin c G d n)); auto.
      apply ty_all_list in Ht. eapply Forall_impl; [|exact Ht]. intros; apply IH; assumption.
    - cbn [de_bin]. auto.
    - cbn [de_bin]. apply Ends_dur. apply HP; reflexivity.
    - cbn [de_bin]. apply Ends_time; auto; apply HP; simpl; auto.
    - apply (Ends_map (p_from p) (fun d => de_bin c G d n t)). auto.
    - eapply Ends_ext; [intros d o; rewrite de_bin_named; reflexivity|].
      assert (HFs : forall fs, Forall (field_all node_good) fs -> Forall (fun f => Ends (fun d => de_bin c G d n (f_ty f))) fs).
      { intros fs H. eapply Forall_impl; [|exact H]. intros f Hf. apply IH. exact Hf. }
      assert (HTs : forall ts, Forall (ty_all node_good) ts -> Forall (fun t => Ends (fun d => de_bin c G d n t)) ts).
      { intros ts H. eapply Forall_impl; [|exact H]. intros; apply IH; assumption. }
      simpl in HN. destruct (nth_error G n0) as [dc|] eqn:E; [|apply nth_error_None in E; lia].
      assert (Hd := env_all_nth _ _ _ _ HG E).
      assert (Hk : decl_ok dc) by (apply nth_error_In in E; rewrite Forall_forall in HD; auto).
      destruct dc as [dflt nl fs|tr fs|vs|p t']; simpl in Hd, Hk.
      + apply (Ends_map VSeq (fun d => de_fields (de_bin c G d n) true fs)). apply (Ends_fields (fun d => de_bin c G d n)); auto.
      + rewrite Hk. apply (Ends_map VSeq (fun d => de_fields (de_bin c G d n) true fs)). apply (Ends_fields (fun d => de_bin c G d n)); auto.
      + eapply (Ends_bind (fun d => rd_fixed c d 2) (fun d b => let tag := of_le b in _));
          [apply Local_fixed; [assumption|lia]|apply Ends_fixed; simpl; tauto|].
        intro b. cbv zeta beta.
        destruct (nth_error vs (N.to_nat (of_le b))) as [vr|] eqn:Ev.
        * assert (Hv := decl_all_variant _ vs _ vr Hd Ev).
          destruct (v_body vr) as [|ts|fs].
          -- apply Ends_ret.
          -- apply (Ends_map (VEnum (of_le b)) (fun d => de_tys (de_bin c G d n) ts)). apply (Ends_tys (fun d => de_bin c G d n)); auto.
          -- apply (Ends_map (VEnum (of_le b)) (fun d => de_fields (de_bin c G d n) false fs)). apply (Ends_fields (fun d => de_bin c G d n)); auto.
        * intros d o _ _. apply HQ. exact I.
      + apply (Ends_map (p_from p) (fun d => de_bin c G d n t')). auto.
  Qed.
End Outcomes.
