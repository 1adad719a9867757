(** Proofs for C86. *)
From Verif Require Import Base Utf8 Types BinModel BinRead BinLocal TyAll BinFuel SpecBinAcc WorkBin SpecWorkBin.
Local Open Scope N_scope.

(** ** Calls that are not paid for by bytes *)
Section Weight.
  Variable wn : nat -> N.
  Fixpoint weight (t : ty) : N :=
    match t with
    | TBox t' | TProxy _ t' => 1 + weight t'
    | TTup ts => 1 + fold_right (fun x a => weight x + a) 0 ts
    | TArr n t' => 1 + N.of_nat n * weight t'
    | TNamed i => 1 + wn i
    | _ => 1
    end.
  Definition weights (ts : list ty) : N := fold_right (fun x a => weight x + a) 0 ts.
  Variable K : N.
  (** What stands behind a tag or in a collection weighs at most [K]. *)
  Inductive light : ty -> Prop :=
  | l_opt t : weight t <= K -> light t -> light (TOpt t)
  | l_seq k t : weight t <= K -> light t -> light (TSeq k t)
  | l_map k tk tv : weight tk + weight tv <= K -> light tk -> light tv -> light (TMap k tk tv)
  | l_arr n t : light t -> light (TArr n t)
  | l_tup ts : Forall light ts -> light (TTup ts)
  | l_box t : light t -> light (TBox t)
  | l_proxy p t : light t -> light (TProxy p t)
  | l_other t : match t with TOpt _ | TSeq _ _ | TMap _ _ _ | TArr _ _ | TTup _ | TBox _ | TProxy _ _ => False | _ => True end -> light t.
  Definition decl_light (i : nat) (d : decl) : Prop :=
    (forall t, In t (decl_tys d) -> light t) /\
    match d with
    | DStruct _ _ fs | DTuple _ fs => weights (map f_ty fs) <= wn i
    | DProxy _ t => weight t <= wn i
    | DEnum vs => forall v, In v vs -> weights (body_tys (v_body v)) <= K
    end.
End Weight.

Section Cost.
  Variable c : cfg.
  Variable G : env.
  Variable d : list N.
  Hypothesis Hc : cfg_ok c.
  Hypothesis Hd : slice_fits c (lenN d).
  Variable wn : nat -> N.
  Variable K : N.
  Hypothesis HG : forall i x, nth_error G i = Some x -> decl_light wn K i x.
  Hypothesis HP : all_pay G.

  Definition Cost {A} (W : N) (m : wm A) : Prop := forall s, fst s <= lenN d ->
    fst s <= fst (fst (m s)) /\ fst (fst (m s)) <= lenN d /\ snd (fst (m s)) <= snd s + W + K * (2 * (fst (fst (m s)) - fst s) - 1).
  (** On success at least [x] bytes are used. *)
  Definition Adv {A} (x : N) (m : wm A) : Prop := forall s a, fst s <= lenN d -> snd (m s) = Ok a -> fst s + x <= fst (fst (m s)).

  Lemma cost_le {A} W W' (m : wm A) : W <= W' -> Cost W m -> Cost W' m.
  Proof. intros H Hm s Hs. destruct (Hm s Hs) as (H1 & H2 & H3). repeat split; [exact H1|exact H2|lia]. Qed.
  Lemma cost_ret {A} (a : A) : Cost 0 (wret a).
  Proof. intros s Hs. unfold wret. cbn [fst snd]. repeat split; lia. Qed.
  Lemma cost_fail {A} (r : res berr A) : Cost 0 (wfail r).
  Proof. intros s Hs. unfold wfail. cbn [fst snd]. repeat split; lia. Qed.
  Lemma two_parts x y : K * (2 * x - 1) + K * (2 * y - 1) <= K * (2 * (x + y) - 1).
  Proof. rewrite <- N.mul_add_distr_l. apply N.mul_le_mono_l. lia. Qed.
  Lemma cost_bind {A B} W1 W2 (m : wm A) (f : A -> wm B) : Cost W1 m -> (forall a, Cost W2 (f a)) -> Cost (W1 + W2) (wbind m f).
  Proof.
    intros H Hf s Hs. destruct (H s Hs) as (H1 & H2 & H3). unfold wbind. destruct (m s) as [s' [a|e|p|]]; cbn [fst snd] in *;
      try (repeat split; [exact H1|exact H2|lia]).
    destruct (Hf a s' H2) as (H4 & H5 & H6). repeat split; [lia|exact H5|].
    assert (T := two_parts (fst s' - fst s) (fst (fst (f a s')) - fst s')).
    replace (fst s' - fst s + (fst (fst (f a s')) - fst s')) with (fst (fst (f a s')) - fst s) in T by lia. lia.
  Qed.

  (** Pieces that call no [de_bin]: they stay in the input. *)
  Definition Move {A} (x : N) (m : bm A) : Prop := forall o, o <= lenN d ->
    o <= fst (m o) /\ fst (m o) <= lenN d /\ forall a, snd (m o) = Ok a -> o + x <= fst (m o).
  Lemma move_ret {A} (a : A) : Move 0 (bret a).
  Proof. intros o Ho. unfold bret. cbn [fst snd]. repeat split; [lia|exact Ho|]. intros; lia. Qed.
  Lemma move_fail {A} x (r : res berr A) : (forall a, r <> Ok a) -> Move x (bfail r).
  Proof. intros H o Ho. unfold bfail. cbn [fst snd]. repeat split; [lia|exact Ho|]. intros a E. destruct (H a E). Qed.
  Lemma move_bind {A B} x y (m : bm A) (f : A -> bm B) : Move x m -> (forall a, Move y (f a)) -> Move (x + y) (bbind m f).
  Proof.
    intros H Hf o Ho. destruct (H o Ho) as (H1 & H2 & H3). unfold bbind. destruct (m o) as [o' [a|e|p|]]; cbn [fst snd] in *;
      try (repeat split; [exact H1|exact H2|discriminate]).
    specialize (H3 a eq_refl). destruct (Hf a o' H2) as (H4 & H5 & H6). repeat split; [lia|exact H5|]. intros b E. specialize (H6 b E). lia.
  Qed.
  Lemma move_fixed w : w <= 16 -> Move w (rd_fixed c d w).
  Proof.
    intros Hw o Ho. assert (Hu := slice_fits_usize c _ Hc Hd). unfold rd_fixed. rewrite usize_add_ok by lia.
    destruct (N.ltb_spec (lenN d) (o + w)); [cbn [fst snd]; repeat split; [lia|exact Ho|discriminate]|].
    destruct (N.ltb_spec (o + w) o); cbn [fst snd]; repeat split; try lia; try discriminate; intros; lia.
  Qed.
  Lemma move_usize : Move 8 (rd_usize c d).
  Proof.
    intros o Ho. assert (Hu := slice_fits_usize c _ Hc Hd). unfold rd_usize. rewrite usize_add_ok by lia.
    destruct ((o <=? o + 8) && (o + 8 <=? lenN d)) eqn:E; cbn [fst snd]; repeat split; try lia; try discriminate.
  Qed.
  Lemma move_str : Move 8 (rd_str c d).
  Proof.
    unfold rd_str. change 8 with (8 + 0). apply move_bind; [apply move_usize|]. intros len o Ho.
    unfold usize_add. destruct (o + len <? usize_mod c).
    - destruct (N.ltb_spec (lenN d) (o + len)); [cbn [fst snd]; repeat split; [lia|exact Ho|discriminate]|].
      destruct (N.ltb_spec (o + len) o); [lia|]. destruct (utf8_dec _); cbn [fst snd]; repeat split; try lia; try discriminate; intros; lia.
    - destruct (overflow_checks c); [cbn [fst snd]; repeat split; [lia|exact Ho|discriminate]|]. generalize ((o + len) mod usize_mod c). intro e.
      destruct (N.ltb_spec (lenN d) e); [cbn [fst snd]; repeat split; [lia|exact Ho|discriminate]|].
      destruct (N.ltb_spec e o); [cbn [fst snd]; repeat split; [lia|exact Ho|discriminate]|].
      destruct (utf8_dec _); cbn [fst snd]; repeat split; try lia; try discriminate; intros; lia.
  Qed.
  Lemma move_dur : Move 8 (rd_dur c d).
  Proof.
    unfold rd_dur. change 8 with (8 + (0 + 0)). apply move_bind; [apply move_fixed; lia|]. intro bs. apply move_bind.
    { intros o Ho. destruct (move_fixed 4 ltac:(lia) o Ho) as (H1 & H2 & H3). repeat split; [exact H1|exact H2|]. intros a E. specialize (H3 a E). lia. }
    intro bn. cbv zeta. destruct (1000000000 <? of_le bn); [intros o Ho; cbn [fst snd]; repeat split; [lia|exact Ho|discriminate]|].
    unfold duration_new. destruct (_ <? _); [apply move_ret|]. destruct (_ <? _); [apply move_ret|apply move_fail; discriminate].
  Qed.
  Lemma move_le {A} x y (m : bm A) : x <= y -> Move y m -> Move x m.
  Proof. intros H Hm o Ho. destruct (Hm o Ho) as (H1 & H2 & H3). repeat split; [exact H1|exact H2|]. intros a E. specialize (H3 a E). lia. Qed.
  Lemma move_time : Move 1 (rd_time c d).
  Proof.
    unfold rd_time. change 1 with (1 + 0) at 1. apply move_bind; [apply move_fixed; lia|]. intro b. destruct (_ =? _); [|apply move_ret].
    change 0 with (0 + 0). apply move_bind; [apply (move_le 0 8); [lia|apply move_dur]|]. intros v. destruct v; try (apply move_fail; discriminate).
    destruct (_ <=? _); [apply move_ret|apply move_fail; discriminate].
  Qed.
  Lemma move_capacity t n : Move 0 (with_capacity c t n).
  Proof. unfold with_capacity. destruct (_ <=? _); [apply move_ret|apply move_fail; discriminate]. Qed.

  Lemma cost_plain {A} x (m : bm A) : Move x m -> Cost 0 (plain m).
  Proof.
    intros H s Hs. destruct (H (fst s) Hs) as (H1 & H2 & _). unfold plain. destruct (m (fst s)) as [o' r]. cbn [fst snd] in *. repeat split; [exact H1|exact H2|]. rewrite N.add_0_r. apply N.le_add_r.
  Qed.
  Lemma adv_plain {A} x (m : bm A) : Move x m -> Adv x (plain m).
  Proof.
    intros H s a Hs. destruct (H (fst s) Hs) as (_ & _ & H3). unfold plain. destruct (m (fst s)) as [o' r]. cbn [fst snd] in *. apply H3.
  Qed.
  Lemma adv_bind {A B} x y (m : wm A) (f : A -> wm B) W : Cost W m -> Adv x m -> (forall a, Adv y (f a)) -> Adv (x + y) (wbind m f).
  Proof.
    intros Hm Ha Hf s b Hs. destruct (Hm s Hs) as (H1 & H2 & _). specialize (Ha s). unfold wbind. destruct (m s) as [s' [a|e|p|]]; cbn [fst snd] in *; try discriminate.
    intro E. specialize (Ha a Hs eq_refl). specialize (Hf a s' b H2 E). lia.
  Qed.
  Lemma adv_any {A} W (m : wm A) : Cost W m -> Adv 0 m.
  Proof. intros H s a Hs _. destruct (H s Hs) as (H1 & _). lia. Qed.
  (** What follows [x] bytes is paid for by them. *)
  Lemma cost_paid {A B} x W (m : bm A) (f : A -> wm B) : Move x m -> (forall a, Cost W (f a)) -> 1 <= x -> W <= K * (2 * x - 1) ->
    Cost 0 (wbind (plain m) f).
  Proof.
    intros H Hf Hx HW s Hs. destruct (H (fst s) Hs) as (H1 & H2 & H3). unfold wbind, plain. destruct (m (fst s)) as [o' [a|e|p|]]; cbn [fst snd] in *;
      try (repeat split; [exact H1|exact H2|rewrite N.add_0_r; apply N.le_add_r]).
    specialize (H3 a eq_refl). destruct (Hf a (o', snd s) H2) as (H4 & H5 & H6). cbn [fst snd] in *. repeat split; [lia|exact H5|].
    assert (T := two_parts (o' - fst s) (fst (fst (f a (o', snd s))) - o')).
    replace (o' - fst s + (fst (fst (f a (o', snd s))) - o')) with (fst (fst (f a (o', snd s))) - fst s) in T by lia.
    assert (W <= K * (2 * (o' - fst s) - 1)). { etransitivity; [exact HW|]. apply N.mul_le_mono_l. lia. }
    lia.
  Qed.
  (** A loop whose steps use a byte each. *)
  Lemma cost_iter {A} (step : A -> wm A) : (forall a, Cost K (step a)) -> (forall a, Adv 1 (step a)) -> forall n a,
    Cost (2 * K) (fun s => iter_N (fun s a => step a s) n s a).
  Proof.
    intros Hs Ha n a s Hl. rewrite iter_N_nat.
    assert (X : fst s <= fst (fst (iter_nat_m (fun s a => step a s) (N.to_nat n) s a)) /\
      fst (fst (iter_nat_m (fun s a => step a s) (N.to_nat n) s a)) <= lenN d /\
      snd (fst (iter_nat_m (fun s a => step a s) (N.to_nat n) s a)) <= snd s + K + K * (2 * (fst (fst (iter_nat_m (fun s a => step a s) (N.to_nat n) s a)) - fst s))).
    { revert s a Hl. induction (N.to_nat n) as [|k IH]; intros s a Hl; [cbn; repeat split; lia|].
      cbn [iter_nat_m]. unfold seq2. destruct (Hs a s Hl) as (H1 & H2 & H3). specialize (Ha a s). destruct (step a s) as [s' [a'|e|p|]]; cbn [fst snd] in *.
      2-4: repeat split; [exact H1|exact H2|]; etransitivity; [exact H3|]; apply N.add_le_mono_l, N.mul_le_mono_l; lia.
      specialize (Ha a' Hl eq_refl). destruct (IH s' a' H2) as (H4 & H5 & H6). set (z := iter_nat_m _ k s' a') in *. repeat split; [lia|exact H5|].
      assert (E : K + K * (2 * (fst s' - fst s) - 1) = K * (2 * (fst s' - fst s))).
      { replace (2 * (fst s' - fst s)) with (1 + (2 * (fst s' - fst s) - 1)) at 2 by lia. rewrite N.mul_add_distr_l. lia. }
      assert (E2 : K * (2 * (fst s' - fst s)) + K * (2 * (fst (fst z) - fst s')) = K * (2 * (fst (fst z) - fst s))).
      { rewrite <- N.mul_add_distr_l. f_equal. lia. }
      lia. }
    destruct X as (H1 & H2 & H3). repeat split; [exact H1|exact H2|]. etransitivity; [exact H3|].
    set (y := fst (fst _) - fst s). replace (2 * K) with (K + K * 1) by lia. rewrite <- N.add_assoc, <- (N.add_assoc (snd s)). apply N.add_le_mono_l.
    rewrite <- (N.add_assoc K). apply N.add_le_mono_l. rewrite <- N.mul_add_distr_l. apply N.mul_le_mono_l. lia.
  Qed.
  Lemma cost_tick {A} W (m : wm A) : Cost W m -> Cost (1 + W) (tick m).
  Proof. intros H s Hs. unfold tick. destruct (H (fst s, snd s + 1) Hs) as (H1 & H2 & H3). cbn [fst snd] in *. repeat split; [exact H1|exact H2|lia]. Qed.
  Lemma adv_tick {A} x (m : wm A) : Adv x m -> Adv x (tick m).
  Proof. intros H s a Hs. unfold tick. intro E. apply (H (fst s, snd s + 1) a Hs E). Qed.
  Lemma cost_map {A B} W (f : A -> B) (m : wm A) : Cost W m -> Cost W (wmap f m).
  Proof. intro H. unfold wmap. rewrite <- (N.add_0_r W). apply cost_bind; [exact H|]. intro. apply cost_ret. Qed.
  Lemma adv_map {A B} x W (f : A -> B) (m : wm A) : Cost W m -> Adv x m -> Adv x (wmap f m).
  Proof. intros Hm H. unfold wmap. rewrite <- (N.add_0_r x). eapply adv_bind; [exact Hm|exact H|]. intro. eapply adv_any, cost_ret. Qed.
  Lemma adv_le {A} x y (m : wm A) : x <= y -> Adv y m -> Adv x m.
  Proof. intros H Hm s a Hs E. specialize (Hm s a Hs E). lia. Qed.

  (** ** Types that take a byte *)
  Lemma fwd_bind {A B} x y (m : bm A) (f : A -> bm B) : Fwd d x m -> (forall a, Fwd d y (f a)) -> Fwd d (x + y) (bbind m f).
  Proof.
    intros H Hf o o' b Ho E. unfold bbind in E. destruct (m o) as [o1 [a|e|p|]] eqn:Em; try discriminate E.
    destruct (H _ _ _ Ho Em) as [H1 H2]. destruct (Hf a _ _ _ H2 E). split; lia.
  Qed.
  Lemma fwd_ret {A} (a : A) : Fwd d 0 (bret a).
  Proof. intros o o' b Ho E. injection E as <- <-. split; lia. Qed.
  Lemma fwd_map {A B} x (f : A -> B) m : Fwd d x m -> Fwd d x (bmap f m).
  Proof. intro H. unfold bmap. rewrite <- (N.add_0_r x). apply fwd_bind; [exact H|]. intro. apply fwd_ret. Qed.
  Lemma fwd_le {A} x y (m : bm A) : x <= y -> Fwd d y m -> Fwd d x m.
  Proof. intros H Hm o o' a Ho E. destruct (Hm _ _ _ Ho E). split; lia. Qed.
  Lemma fwd_move {A} x (m : bm A) : Move x m -> Fwd d x m.
  Proof. intros H o o' a Ho E. destruct (H o Ho) as (_ & H2 & H3). rewrite E in *. cbn [fst snd] in *. split; [apply (H3 a eq_refl)|exact H2]. Qed.
  Lemma fwd_any n t : Fwd d 0 (de_bin c G d n t).
  Proof. apply Fwd_de; assumption. Qed.
  Lemma fwd_iter {A} (step : A -> bm A) : (forall a, Fwd d 0 (step a)) -> forall n a, Fwd d 0 (fun o => iter_N (fun o a => step a o) n o a).
  Proof.
    intros H n a o o' b Ho E. rewrite iter_N_nat in E. revert a o Ho E. induction (N.to_nat n) as [|m IH]; intros a o Ho E; [injection E as <- <-; split; lia|].
    cbn [iter_nat_m] in E. unfold seq2 in E. destruct (step a o) as [o1 [a1|e|p|]] eqn:E1; try discriminate E.
    destruct (H a _ _ _ Ho E1) as [H1 H2]. destruct (IH _ _ H2 E). split; lia.
  Qed.
  Lemma fwd_tys n ts t : In t ts -> Fwd d 1 (de_bin c G d n t) -> Fwd d 1 (de_tys (de_bin c G d n) ts).
  Proof.
    assert (Z : forall us, Fwd d 0 (de_tys (de_bin c G d n) us)).
    { induction us as [|u us IH]; [apply fwd_ret|]. cbn. apply (fwd_bind 0 0); [apply fwd_any|]. intro. apply (fwd_bind 0 0); [exact IH|intro; apply fwd_ret]. }
    intros Hi H. induction ts as [|u ts IH]; [destruct Hi|]. cbn. destruct Hi as [->|Hi].
    - apply (fwd_bind 1 0); [exact H|]. intro. apply (fwd_bind 0 0); [apply Z|intro; apply fwd_ret].
    - apply (fwd_bind 0 1); [apply fwd_any|]. intro. apply (fwd_bind 1 0); [apply IH; exact Hi|intro; apply fwd_ret].
  Qed.
  Lemma fwd_fields n fs f : In f fs -> f_skip f = false -> Fwd d 1 (de_bin c G d n (f_ty f)) -> Fwd d 1 (de_fields (de_bin c G d n) true fs).
  Proof.
    assert (O : forall u, Fwd d 0 (if true && f_skip u then bret (f_tydefault u) else de_bin c G d n (f_ty u))).
    { intro u. destruct (f_skip u); [apply fwd_ret|apply fwd_any]. }
    assert (Z : forall us, Fwd d 0 (de_fields (de_bin c G d n) true us)).
    { induction us as [|u us IH]; [apply fwd_ret|]. cbn [de_fields]. apply (fwd_bind 0 0); [apply O|]. intro. apply (fwd_bind 0 0); [exact IH|intro; apply fwd_ret]. }
    intros Hi Hs H. induction fs as [|u fs IH]; [destruct Hi|]. cbn [de_fields]. destruct Hi as [->|Hi].
    - apply (fwd_bind 1 0); [rewrite Hs; exact H|]. intro. apply (fwd_bind 0 0); [apply Z|intro; apply fwd_ret].
    - apply (fwd_bind 0 1); [apply O|]. intro. apply (fwd_bind 1 0); [apply IH; exact Hi|intro; apply fwd_ret].
  Qed.
  Lemma takes : forall n t, takes_byte G t -> Fwd d 1 (de_bin c G d n t).
  Proof.
    induction n as [|n IH]; intros t H; [intros o o' a _ E; discriminate E|].
    inversion H; subst; clear H; cbn [de_bin].
    - destruct k; apply fwd_map; try (apply (fwd_le 1 8); [lia|apply fwd_move, move_usize]);
        (eapply fwd_le; [|apply fwd_move, move_fixed]; cbn; lia).
    - apply fwd_map, (fwd_le 1 4); [lia|apply fwd_move, move_fixed; lia].
    - apply fwd_map, (fwd_le 1 8); [lia|apply fwd_move, move_fixed; lia].
    - apply fwd_map, fwd_move, move_fixed. lia.
    - apply fwd_map, (fwd_le 1 8); [lia|apply fwd_move, move_str].
    - apply (fwd_le 1 8); [lia|apply fwd_move, move_dur].
    - apply fwd_move, move_time.
    - apply (fwd_bind 1 0); [apply fwd_move, move_fixed; lia|]. intro b. destruct (_ =? _); [apply fwd_map, fwd_any|apply fwd_ret].
    - apply (fwd_le 1 (8 + (0 + 0))); [lia|]. apply fwd_bind; [apply fwd_move, move_usize|]. intro len.
      apply fwd_bind; [destruct k; first [apply fwd_ret|apply fwd_move, move_capacity]|]. intros _. apply fwd_map.
      apply (fwd_iter (fun acc => bbind (de_bin c G d n t0) (fun v => bret (seq_add k v acc)))). intro. apply (fwd_bind 0 0); [apply fwd_any|intro; apply fwd_ret].
    - apply (fwd_le 1 (8 + (0 + 0))); [lia|]. apply fwd_bind; [apply fwd_move, move_usize|]. intro len.
      apply fwd_bind; [destruct k; first [apply fwd_ret|apply fwd_move, move_capacity]|]. intros _. apply fwd_map.
      apply (fwd_iter (fun acc => bbind (de_bin c G d n tk) (fun x => bbind (de_bin c G d n tv) (fun y => bret (map_add k x y acc))))).
      intro. apply (fwd_bind 0 0); [apply fwd_any|]. intro. apply (fwd_bind 0 0); [apply fwd_any|intro; apply fwd_ret].
    - apply fwd_map. destruct n0 as [|m]; [congruence|]. cbn [de_rep]. apply (fwd_bind 1 0); [apply IH; assumption|]. intro.
      apply (fwd_bind 0 0); [|intro; apply fwd_ret]. clear - Hc Hd. induction m as [|m IHm]; [apply fwd_ret|]. cbn [de_rep].
      apply (fwd_bind 0 0); [apply fwd_any|]. intro. apply (fwd_bind 0 0); [exact IHm|intro; apply fwd_ret].
    - apply fwd_map. eapply fwd_tys; [eassumption|apply IH; assumption].
    - apply IH. assumption.
    - apply fwd_map, IH. assumption.
    - rewrite H0. apply fwd_map. eapply fwd_fields; [eassumption..|apply IH; assumption].
    - rewrite H0. destruct (existsb f_skip fs); [intros o o' a _ E; discriminate E|]. apply fwd_map. eapply fwd_fields; [eassumption..|apply IH; assumption].
    - rewrite H0. apply (fwd_le 1 (2 + 0)); [lia|]. apply fwd_bind; [apply fwd_move, move_fixed; lia|]. intro b. cbv zeta.
      assert (Z1 : forall us, Fwd d 0 (de_tys (de_bin c G d n) us)).
      { induction us as [|u us IHu]; [apply fwd_ret|]. cbn. apply (fwd_bind 0 0); [apply fwd_any|]. intro. apply (fwd_bind 0 0); [exact IHu|intro; apply fwd_ret]. }
      assert (Z2 : forall us, Fwd d 0 (de_fields (de_bin c G d n) false us)).
      { induction us as [|u us IHu]; [apply fwd_ret|]. cbn. apply (fwd_bind 0 0); [apply fwd_any|]. intro. apply (fwd_bind 0 0); [exact IHu|intro; apply fwd_ret]. }
      destruct (nth_error vs _) as [vr|]; [|intros o o' a _ E; discriminate E].
      destruct (v_body vr); [apply fwd_ret|apply fwd_map, Z1|apply fwd_map, Z2].
    - rewrite H0. apply fwd_map, IH. assumption.
  Qed.
  Lemma adv_takes n t : takes_byte G t -> Adv 1 (w_bin c G d n t).
  Proof.
    intros H s a Hs E. assert (X := counted c G d n t s). destruct (takes n t H (fst s) (fst (fst (w_bin c G d n t s))) a Hs) as [H1 _]; [|exact H1].
    rewrite <- X, E. reflexivity.
  Qed.

  (** ** The bound *)
  Lemma decl_parts i x t : nth_error G i = Some x -> In t (decl_tys x) -> pays G t /\ light wn K t.
  Proof. intros Hi Ht. split; [eapply HP; [eapply nth_error_In; exact Hi|exact Ht]|]. apply (HG _ _ Hi). exact Ht. Qed.
  Lemma cost_bin : forall n t, pays G t -> light wn K t -> Cost (weight wn t) (w_bin c G d n t).
  Proof.
    induction n as [|n IH]; intros t Hp Hl; [apply (cost_le 0); [lia|apply cost_fail]|]. cbn [w_bin].
    assert (Htys : forall ts, (forall t, In t ts -> pays G t /\ light wn K t) -> Cost (weights wn ts) (w_tys (w_bin c G d n) ts)).
    { induction ts as [|u ts IHt]; intro H; [apply cost_ret|]. cbn [w_tys weights fold_right]. apply cost_bind.
      - destruct (H u (or_introl eq_refl)). apply IH; assumption.
      - intro. rewrite <- (N.add_0_r (fold_right _ _ _)). apply cost_bind; [apply IHt; intros; apply H; right; assumption|intro; apply cost_ret]. }
    assert (Hfs : forall h fs, (forall t, In t (map f_ty fs) -> pays G t /\ light wn K t) -> Cost (weights wn (map f_ty fs)) (w_fields (w_bin c G d n) h fs)).
    { intro h. induction fs as [|f fs IHf]; intro H; [apply cost_ret|]. cbn [w_fields map weights fold_right]. apply cost_bind.
      - destruct (h && f_skip f); [apply (cost_le 0); [lia|apply cost_ret]|]. destruct (H (f_ty f) (or_introl eq_refl)). apply IH; assumption.
      - intro. rewrite <- (N.add_0_r (fold_right _ _ _)). apply cost_bind; [apply IHf; intros; apply H; right; assumption|intro; apply cost_ret]. }
    assert (Hleaf : forall A (m : bm A) x f, Move x m -> Cost (1 + 0) (tick (@wmap A val f (plain m)))).
    { intros A m x f H. apply cost_tick, cost_map. eapply cost_plain. exact H. }
    destruct t; cbn [weight].
    - destruct k; eapply (Hleaf _ _ _ _); first [apply move_usize | apply move_fixed; cbn; lia].
    - eapply (Hleaf _ _ _ _), move_fixed. lia.
    - eapply (Hleaf _ _ _ _), move_fixed. lia.
    - eapply (Hleaf _ _ _ _), move_fixed. lia.
    - eapply (Hleaf _ _ _ _), move_str.
    - apply (cost_tick 0), cost_ret.
    - inversion Hp; subst. inversion Hl; subst; [|contradiction]. apply (cost_tick 0).
      apply (cost_paid 1 (weight wn t)); [apply move_fixed; lia| |lia|lia].
      intro b. destruct (_ =? _); [apply cost_map, IH; assumption|apply (cost_le 0); [lia|apply cost_ret]].
    - inversion Hp; subst. inversion Hl; subst; [|contradiction]. apply (cost_tick 0).
      apply (cost_paid 8 (2 * K)); [apply move_usize| |lia|lia]. intro len. change (2 * K) with (0 + 2 * K).
      apply cost_bind; [apply (cost_plain 0); destruct k; first [apply move_ret|apply move_capacity]|]. intros _. apply cost_map.
      apply (cost_iter (fun acc => wbind (w_bin c G d n t) (fun v => wret (seq_add k v acc)))); intro acc.
      + apply (cost_le (weight wn t + 0)); [lia|]. apply cost_bind; [apply IH; assumption|intro; apply cost_ret].
      + apply (adv_bind 1 0 _ _ (weight wn t)); [apply IH; assumption|apply adv_takes; assumption|]. intro. eapply adv_any, cost_ret.
    - inversion Hp; subst. inversion Hl; subst; [|contradiction]. apply (cost_tick 0).
      apply (cost_paid 8 (2 * K)); [apply move_usize| |lia|lia]. intro len. change (2 * K) with (0 + 2 * K).
      apply cost_bind; [apply (cost_plain 0); destruct k; first [apply move_ret|apply move_capacity]|]. intros _. apply cost_map.
      apply (cost_iter (fun acc => wbind (w_bin c G d n t1) (fun x => wbind (w_bin c G d n t2) (fun y => wret (map_add k x y acc))))); intro acc.
      + apply (cost_le (weight wn t1 + (weight wn t2 + 0))); [lia|]. apply cost_bind; [apply IH; assumption|]. intro.
        apply cost_bind; [apply IH; assumption|intro; apply cost_ret].
      + match goal with H : takes_byte _ _ \/ takes_byte _ _ |- _ => destruct H as [H|H] end.
        * apply (adv_bind 1 0 _ _ (weight wn t1)); [apply IH; assumption|apply adv_takes; assumption|]. intro.
          apply (adv_bind 0 0 _ _ (weight wn t2)); [apply IH; assumption|eapply adv_any, IH; assumption|]. intro. eapply adv_any, cost_ret.
        * apply (adv_bind 0 1 _ _ (weight wn t1)); [apply IH; assumption|eapply adv_any, IH; assumption|]. intro.
          apply (adv_bind 1 0 _ _ (weight wn t2)); [apply IH; assumption|apply adv_takes; assumption|]. intro. eapply adv_any, cost_ret.
    - inversion Hp; subst. inversion Hl; subst; [|contradiction]. apply cost_tick, cost_map.
      induction n0 as [|m IHm]; [apply cost_ret|]. cbn [w_rep].
      replace (N.of_nat (S m) * weight wn t) with (weight wn t + (N.of_nat m * weight wn t + 0)) by lia.
      apply cost_bind; [apply IH; assumption|]. intro. apply cost_bind; [apply IHm; constructor; assumption|intro; apply cost_ret].
    - inversion Hp; subst. inversion Hl; subst; [|contradiction]. apply cost_tick, cost_map, Htys.
      intros u Hu. split; [eapply Forall_forall; [|exact Hu]; eassumption|eapply Forall_forall; [|exact Hu]; eassumption].
    - inversion Hp; subst. inversion Hl; subst; [|contradiction]. apply cost_tick, IH; assumption.
    - apply (cost_tick 0). eapply cost_plain, move_dur.
    - apply (cost_tick 0). eapply cost_plain, move_time.
    - inversion Hp; subst. inversion Hl; subst; [|contradiction]. apply cost_tick, cost_map, IH; assumption.
    - apply cost_tick. destruct (nth_error G n0) as [[df nl fs|tr fs|vs|p t']|] eqn:E.
      + assert (X := HG _ _ E). destruct X as [_ X]. eapply cost_le; [exact X|]. apply cost_map, Hfs. intros u Hu. eapply decl_parts; eassumption.
      + assert (X := HG _ _ E). destruct X as [_ X]. destruct (existsb f_skip fs); [apply (cost_le 0); [lia|apply cost_fail]|].
        eapply cost_le; [exact X|]. apply cost_map, Hfs. intros u Hu. eapply decl_parts; eassumption.
      + assert (X := HG _ _ E). destruct X as [_ X]. apply (cost_le 0); [lia|]. apply (cost_paid 2 K); [apply move_fixed; lia| |lia|lia].
        intro b. cbv zeta. destruct (nth_error vs _) as [vr|] eqn:Ev; [|apply (cost_le 0); [lia|apply cost_fail]].
        assert (Hv := nth_error_In _ _ Ev). specialize (X vr Hv).
        assert (Y : forall u, In u (body_tys (v_body vr)) -> pays G u /\ light wn K u).
        { intros u Hu. eapply decl_parts; [exact E|]. cbn [decl_tys]. apply in_flat_map. exists vr. auto. }
        destruct (v_body vr); cbn [body_tys] in *; [apply (cost_le 0); [lia|apply cost_ret]| |];
          (eapply cost_le; [exact X|]); apply cost_map; [apply Htys|apply Hfs]; exact Y.
      + assert (X := HG _ _ E). destruct X as [_ X]. eapply cost_le; [exact X|]. apply cost_map. destruct (decl_parts _ _ t' E (or_introl eq_refl)). apply IH; assumption.
      + apply (cost_le 0); [lia|apply cost_fail].
  Qed.
End Cost.

(** ** There are such weights and such a bound *)
Lemma weight_ext w1 w2 t : (forall j, In j (unguarded t) -> w1 j = w2 j) -> weight w1 t = weight w2 t.
Proof.
  induction t as [k| | | | | |t' IHt|k t' IHt|k tk tv IHk IHv|m t' IHt|ts IHts|t' IHt| | |p t' IHt|i] using ty_ind2; cbn [unguarded weight]; intro H; try reflexivity.
  - rewrite IHt; auto.
  - f_equal. induction IHts as [|t ts Ht Hts IH]; [reflexivity|]. cbn [fold_right flat_map] in *.
    rewrite Ht by (intros; apply H, in_or_app; auto). f_equal. apply IH. intros. apply H, in_or_app. auto.
  - rewrite IHt; auto.
  - rewrite IHt; auto.
  - rewrite (H i); [reflexivity|left; reflexivity].
Qed.
Lemma weights_ext w1 w2 ts : (forall j, In j (flat_map unguarded ts) -> w1 j = w2 j) -> weights w1 ts = weights w2 ts.
Proof.
  induction ts as [|t ts IH]; intro H; [reflexivity|]. cbn [weights fold_right flat_map] in *.
  rewrite (weight_ext w1 w2 t) by (intros; apply H, in_or_app; auto). f_equal. apply IH. intros. apply H, in_or_app. auto.
Qed.
Definition decl_weight (w : nat -> N) (x : decl) : N :=
  match x with
  | DStruct _ _ fs | DTuple _ fs => weights w (map f_ty fs)
  | DProxy _ t => weight w t
  | DEnum _ => 0
  end.
Lemma decl_weight_ext w1 w2 x : (forall j, In j (decl_unguarded x) -> w1 j = w2 j) -> decl_weight w1 x = decl_weight w2 x.
Proof.
  assert (E : forall fs, flat_map unguarded (map f_ty fs) = flat_map (fun f => unguarded (f_ty f)) fs).
  { induction fs as [|f fs IH]; [reflexivity|]. cbn. rewrite IH. reflexivity. }
  destruct x; cbn [decl_unguarded decl_weight]; intro H; [apply weights_ext; rewrite E; exact H|apply weights_ext; rewrite E; exact H|reflexivity|apply weight_ext; exact H].
Qed.
Fixpoint tab (G : env) (k : nat) (i : nat) : N :=
  match k with
  | O => 0
  | S k' => match nth_error G i with Some x => decl_weight (tab G k') x | None => 0 end
  end.
Lemma tab_stable G rank : (forall i x j, nth_error G i = Some x -> In j (decl_unguarded x) -> (rank j < rank i)%nat) ->
  forall k i, (rank i < k)%nat -> tab G (S k) i = tab G k i.
Proof.
  intro HR. induction k as [|k IH]; intros i Hi; [lia|]. cbn [tab]. destruct (nth_error G i) as [x|] eqn:E; [|reflexivity].
  change (decl_weight (tab G (S k)) x = decl_weight (tab G k) x). apply decl_weight_ext. intros j Hj. apply IH. specialize (HR _ _ _ E Hj). lia.
Qed.
Lemma rank_bound (rank : nat -> nat) n : exists M, forall i, (i < n)%nat -> (rank i < M)%nat.
Proof.
  induction n as [|n [M IH]]; [exists 0%nat; intros; lia|]. exists (S (Nat.max M (rank n))). intros i Hi.
  destruct (Nat.eq_dec i n) as [->|]; [lia|]. specialize (IH i ltac:(lia)). lia.
Qed.
Lemma weights_exist G : guarded G -> exists wn, forall i x, nth_error G i = Some x -> decl_weight wn x = wn i.
Proof.
  intros [rank HR]. destruct (rank_bound rank (length G)) as [M HM]. exists (tab G M). intros i x E.
  assert (Hi : (i < length G)%nat) by (apply nth_error_Some; congruence).
  rewrite <- (tab_stable G rank (fun i x j => HR i x j) M i (HM i Hi)). cbn [tab]. rewrite E. reflexivity.
Qed.
Section LightInd.
  Variable wn : nat -> N.
  Lemma light_mono K K' : K <= K' -> forall t, light wn K t -> light wn K' t.
  Proof.
    intros H t. induction t as [k| | | | | |t' IHt|k t' IHt|k tk tv IHk IHv|m t' IHt|ts IHts|t' IHt| | |p t' IHt|i] using ty_ind2; intro Hl;
      inversion Hl; subst; try contradiction; try (apply l_other; exact I).
    - apply l_opt; [lia|auto].
    - apply l_seq; [lia|auto].
    - apply l_map; [lia|auto..].
    - apply l_arr; auto.
    - apply l_tup. apply Forall_forall. intros t Ht. rewrite Forall_forall in *. auto.
    - apply l_box; auto.
    - apply l_proxy; auto.
  Qed.
  Lemma all_light ts : Forall (fun t => exists K, light wn K t) ts -> exists K, Forall (light wn K) ts.
  Proof.
    induction 1 as [|t ts [K1 H1] _ [K2 H2]]; [exists 0; constructor|]. exists (N.max K1 K2). constructor.
    - eapply light_mono; [|exact H1]. lia.
    - eapply Forall_impl; [|exact H2]. intro. apply light_mono. lia.
  Qed.
  Lemma some_light t : exists K, light wn K t.
  Proof.
    induction t as [k| | | | | |t' IHt|k t' IHt|k tk tv IHk IHv|m t' IHt|ts IHts|t' IHt| | |p t' IHt|i] using ty_ind2; try (exists 0; apply l_other; exact I).
    - destruct IHt as [K H]. exists (N.max K (weight wn t')). apply l_opt; [lia|]. eapply light_mono; [|exact H]. lia.
    - destruct IHt as [K H]. exists (N.max K (weight wn t')). apply l_seq; [lia|]. eapply light_mono; [|exact H]. lia.
    - destruct IHk as [K H]. destruct IHv as [K' H']. exists (N.max (N.max K K') (weight wn tk + weight wn tv)).
      apply l_map; [lia| |]; eapply light_mono; try eassumption; lia.
    - destruct IHt as [K H]. exists K. apply l_arr. exact H.
    - apply all_light in IHts as [K H]. exists K. apply l_tup. exact H.
    - destruct IHt as [K H]. exists K. apply l_box. exact H.
    - destruct IHt as [K H]. exists K. apply l_proxy. exact H.
  Qed.
  Lemma some_decl i x : decl_weight wn x <= wn i -> exists K, forall K', K <= K' -> decl_light wn K' i x.
  Proof.
    intro H. destruct (all_light (decl_tys x)) as [K1 H1]; [apply Forall_forall; intros; apply some_light|].
    assert (X : exists K2, match x with DEnum vs => forall v, In v vs -> weights wn (body_tys (v_body v)) <= K2 | _ => True end).
    { destruct x as [| |vs|]; try (exists 0; exact I). clear. induction vs as [|v vs [K IH]]; [exists 0; intros v []|].
      exists (N.max K (weights wn (body_tys (v_body v)))). intros u [->|Hu]; [lia|]. specialize (IH u Hu). lia. }
    destruct X as [K2 H2]. exists (N.max K1 K2). intros K' HK. split.
    - intros t Ht. rewrite Forall_forall in H1. eapply light_mono; [|apply H1; exact Ht]. lia.
    - destruct x; cbn [decl_weight] in H; try exact H. intros v Hv. specialize (H2 v Hv). lia.
  Qed.
  Lemma some_env G : (forall i x, nth_error G i = Some x -> decl_weight wn x <= wn i) ->
    exists K, forall K' i x, K <= K' -> nth_error G i = Some x -> decl_light wn K' i x.
  Proof.
    intro H. assert (X : forall n, (n <= length G)%nat -> exists K, forall K' i x, (i < n)%nat -> K <= K' -> nth_error G i = Some x -> decl_light wn K' i x).
    { induction n as [|n IH]; intro L; [exists 0; intros; lia|]. destruct IH as [K1 H1]; [lia|].
      destruct (nth_error G n) as [x|] eqn:E; [|apply nth_error_None in E; lia].
      destruct (some_decl n x (H _ _ E)) as [K2 H2]. exists (N.max K1 K2). intros K' i y Hi HK Ey.
      destruct (Nat.eq_dec i n) as [->|]; [rewrite E in Ey; injection Ey as <-; apply H2; lia|apply H1; [lia|lia|exact Ey]]. }
    destruct (X (length G) (Nat.le_refl _)) as [K HK]. exists K. intros K' i x H1 E. apply HK; auto. apply nth_error_Some. congruence.
  Qed.
End LightInd.
Lemma bound_exists G t : guarded G -> exists wn K, (forall i x, nth_error G i = Some x -> decl_light wn K i x) /\ light wn K t.
Proof.
  intro H. destruct (weights_exist G H) as [wn Hw]. destruct (some_env wn G) as [K1 H1]; [intros i x E; rewrite (Hw i x E); lia|].
  destruct (some_light wn t) as [K2 H2]. exists wn, (N.max K1 K2). split; [intros i x E; apply H1; [lia|exact E]|]. eapply light_mono; [|exact H2]. lia.
Qed.
