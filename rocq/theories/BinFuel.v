(** The fuel only limits the recursion depth: more fuel never changes an
    outcome.  Termination of decoding. *)
From Verif Require Import Base Utf8 Types TyAll BinModel BinRead BinLocal.
Local Open Scope N_scope.
Ltac Zify.zify_post_hook ::= Z.div_mod_to_equations.

(** ** Serialization *)
Definition sle (x y : sres) : Prop := x = NoFuel \/ x = y.

Lemma sle_refl x : sle x x. Proof. right; reflexivity. Qed.
Lemma sle_bind x y (f g : list N -> sres) :
  sle x y -> (forall o, sle (f o) (g o)) -> sle (rbind x f) (rbind y g).
Proof.
  intros [-> | ->] H; [left; reflexivity|]. destruct y; simpl; auto; apply sle_refl.
Qed.

Section SerMono.
  Variables s1 s2 : ty -> val -> list N -> sres.
  Hypothesis H : forall t v o, sle (s1 t v o) (s2 t v o).
  Lemma items_mono t l o : sle (ser_items s1 t l o) (ser_items s2 t l o).
  Proof. revert o; induction l as [|v l IH]; intro o; simpl; [apply sle_refl|]. apply sle_bind; auto. Qed.
  Lemma entries_mono tk tv l o : sle (ser_entries s1 tk tv l o) (ser_entries s2 tk tv l o).
  Proof.
    revert o; induction l as [|[k v] l IH]; intro o; simpl; [apply sle_refl|].
    apply sle_bind; auto. intro. apply sle_bind; auto.
  Qed.
  Lemma tys_mono ts l o : sle (ser_tys s1 ts l o) (ser_tys s2 ts l o).
  Proof.
    revert l o; induction ts as [|t ts IH]; intros [|v l] o; simpl; try apply sle_refl. apply sle_bind; auto.
  Qed.
  Lemma fields_mono hs fs l o : sle (ser_fields s1 hs fs l o) (ser_fields s2 hs fs l o).
  Proof.
    revert l o; induction fs as [|f fs IH]; intros [|v l] o; simpl; try apply sle_refl.
    destruct (hs && f_skip f); auto. apply sle_bind; auto.
  Qed.
End SerMono.

Lemma ser_bin_mono1 G n t v o : sle (ser_bin G n t v o) (ser_bin G (S n) t v o).
Proof.
  revert t v o; induction n as [|n IH]; intros t v o; [left; reflexivity|].
  destruct t as [k| | | | | |t'|k t'|k tk tv|m t'|ts|t'| | |p t'|i].
  1-6: apply sle_refl.
  7-8: apply sle_refl.
  - destruct v; try apply sle_refl. apply sle_bind; [apply sle_refl|]. intro. apply IH.
  - destruct v; try apply sle_refl. apply sle_bind; [apply sle_refl|]. intro. apply items_mono, IH.
  - destruct v; try apply sle_refl. apply sle_bind; [apply sle_refl|]. intro. apply entries_mono, IH.
  - destruct v; try apply sle_refl. apply items_mono, IH.
  - destruct v; try apply sle_refl. apply tys_mono, IH.
  - destruct v; apply IH.
  - destruct v; apply IH.
  - cbn [ser_bin]. destruct (nth_error G i) as [[dflt nul fs|tr fs|vs|p t']|]; [| | | |destruct v; apply sle_refl].
    + destruct v; try apply sle_refl. apply fields_mono, IH.
    + destruct v; try apply sle_refl. apply fields_mono, IH.
    + destruct v; try apply sle_refl. destruct (nth_error vs (N.to_nat tag)) as [vr|]; [|apply sle_refl].
      apply sle_bind; [apply sle_refl|]. intro o1. destruct (v_body vr) as [|ts|fs].
      * apply sle_refl.
      * apply tys_mono, IH.
      * apply fields_mono, IH.
    + destruct v; apply IH.
Qed.

Lemma ser_bin_mono G n m t v o r :
  (n <= m)%nat -> ser_bin G n t v o = r -> r <> NoFuel -> ser_bin G m t v o = r.
Proof.
  intros Hm. induction Hm as [|m Hm IH]; intros H Hr; [assumption|].
  destruct (ser_bin_mono1 G m t v o) as [E|E].
  - rewrite (IH H Hr) in E. congruence.
  - rewrite <- E. auto.
Qed.

(** ** Deserialization *)
Definition ble {A} (x y : N * res berr A) : Prop := snd x = NoFuel \/ x = y.
Definition bm_le {A} (f g : bm A) : Prop := forall o, ble (f o) (g o).

Lemma bm_le_refl {A} (f : bm A) : bm_le f f. Proof. intro; right; reflexivity. Qed.
Lemma bm_le_bind {A B} (m1 m2 : bm A) (f g : A -> bm B) :
  bm_le m1 m2 -> (forall a, bm_le (f a) (g a)) -> bm_le (bbind m1 f) (bbind m2 g).
Proof.
  intros H1 H2 o. unfold bbind. destruct (H1 o) as [E|E].
  - destruct (m1 o) as [o' r]. simpl in E. subst r. left; reflexivity.
  - rewrite E. destruct (m2 o) as [o' [a|e|p|]]; try (right; reflexivity). apply H2.
Qed.
Lemma bm_le_map {A B} (g : A -> B) (m1 m2 : bm A) : bm_le m1 m2 -> bm_le (bmap g m1) (bmap g m2).
Proof. intro. apply bm_le_bind; [assumption|]. intro; apply bm_le_refl. Qed.

Lemma iter_mono {A} (f g : N -> A -> N * res berr A) k :
  (forall o a, ble (f o a) (g o a)) ->
  forall o a, ble (iter_nat_m f k o a) (iter_nat_m g k o a).
Proof.
  intro H. induction k as [|k IH]; intros o a; [right; reflexivity|].
  cbn [iter_nat_m]. unfold seq2. destruct (H o a) as [E|E].
  - destruct (f o a) as [o' r]. simpl in E. subst r. left; reflexivity.
  - rewrite E. destruct (g o a) as [o' [a'|e|p|]]; try (right; reflexivity). apply IH.
Qed.

Section DeMono.
  Variables d1 d2 : ty -> bm val.
  Hypothesis H : forall t, bm_le (d1 t) (d2 t).
  Lemma de_items_mono k t len : bm_le (de_items d1 k t len) (de_items d2 k t len).
  Proof.
    intro o. unfold de_items. rewrite !iter_N_nat. apply iter_mono. intros o' a.
    apply bm_le_bind; [apply H|]. intro; apply bm_le_refl.
  Qed.
  Lemma de_entries_mono k tk tv len : bm_le (de_entries d1 k tk tv len) (de_entries d2 k tk tv len).
  Proof.
    intro o. unfold de_entries. rewrite !iter_N_nat. apply iter_mono. intros o' a.
    apply bm_le_bind; [apply H|]. intro. apply bm_le_bind; [apply H|]. intro; apply bm_le_refl.
  Qed.
  Lemma de_rep_mono n t : bm_le (de_rep d1 n t) (de_rep d2 n t).
  Proof.
    induction n as [|n IH]; simpl; [apply bm_le_refl|]. apply bm_le_bind; [apply H|]. intro. apply bm_le_map; assumption.
  Qed.
  Lemma de_tys_mono ts : bm_le (de_tys d1 ts) (de_tys d2 ts).
  Proof.
    induction ts as [|t ts IH]; simpl; [apply bm_le_refl|]. apply bm_le_bind; [apply H|]. intro. apply bm_le_map; assumption.
  Qed.
  Lemma de_fields_mono hs fs : bm_le (de_fields d1 hs fs) (de_fields d2 hs fs).
  Proof.
    induction fs as [|f fs IH]; simpl; [apply bm_le_refl|].
    apply bm_le_bind; [destruct (hs && f_skip f); [apply bm_le_refl|apply H]|]. intro. apply bm_le_map; assumption.
  Qed.
End DeMono.

Lemma de_bin_named c G d n i : de_bin c G d (S n) (TNamed i) =
  match nth_error G i with
  | Some (DStruct _ _ fs) => bmap VSeq (de_fields (de_bin c G d n) true fs)
  | Some (DTuple _ fs) =>
    if existsb f_skip fs then bfail (Panic PNotCompiled)
    else bmap VSeq (de_fields (de_bin c G d n) true fs)
  | Some (DProxy p t') => bmap (p_from p) (de_bin c G d n t')
  | Some (DEnum vs) =>
    bbind (rd_fixed c d 2) (fun b =>
      let tag := of_le b in
      match nth_error vs (N.to_nat tag) with
      | None => bfail (Err {| e_o := 0; e_msg := EDiscriminant tag |})
      | Some vr =>
        match v_body vr with
        | BUnit => bret (VEnum tag [])
        | BTuple ts => bmap (VEnum tag) (de_tys (de_bin c G d n) ts)
        | BStruct fs => bmap (VEnum tag) (de_fields (de_bin c G d n) false fs)
        end
      end)
  | None => bfail (Panic PNotCompiled)
  end.
Proof. reflexivity. Qed.

Lemma de_bin_mono1 c G d n t : bm_le (de_bin c G d n t) (de_bin c G d (S n) t).
Proof.
  revert t; induction n as [|n IH]; intros t; [intro; left; reflexivity|].
  destruct t as [k| | | | | |t'|k t'|k tk tv|m t'|ts|t'| | |p t'|i].
  1-6: apply bm_le_refl.
  7-8: apply bm_le_refl.
  - apply bm_le_bind; [apply bm_le_refl|]. intro b. destruct (of_le b =? 1); [|apply bm_le_refl]. apply bm_le_map, IH.
  - apply bm_le_bind; [apply bm_le_refl|]. intro len. apply bm_le_bind; [apply bm_le_refl|]. intro.
    apply bm_le_map, de_items_mono, IH.
  - apply bm_le_bind; [apply bm_le_refl|]. intro len. apply bm_le_bind; [apply bm_le_refl|]. intro.
    apply bm_le_map, de_entries_mono, IH.
  - apply bm_le_map, de_rep_mono, IH.
  - apply bm_le_map, de_tys_mono, IH.
  - apply IH.
  - apply bm_le_map, IH.
  - rewrite !de_bin_named.
    destruct (nth_error G i) as [[dflt nul fs|tr fs|vs|p t']|]; [| | | |apply bm_le_refl].
    + apply bm_le_map, de_fields_mono, IH.
    + destruct (existsb f_skip fs); [apply bm_le_refl|]. apply bm_le_map, de_fields_mono, IH.
    + apply bm_le_bind; [apply bm_le_refl|]. intro b. cbv zeta.
      destruct (nth_error vs (N.to_nat (of_le b))) as [vr|]; [|apply bm_le_refl].
      destruct (v_body vr) as [|ts|fs]; [apply bm_le_refl| |].
      * apply bm_le_map, de_tys_mono, IH.
      * apply bm_le_map, de_fields_mono, IH.
    + apply bm_le_map, IH.
Qed.

Lemma de_bin_mono c G d n m t o o' r :
  (n <= m)%nat -> de_bin c G d n t o = (o', r) -> r <> NoFuel -> de_bin c G d m t o = (o', r).
Proof.
  intros Hm. induction Hm as [|m Hm IH]; intros H Hr; [assumption|].
  destruct (de_bin_mono1 c G d m t o) as [E|E].
  - rewrite (IH H Hr) in E. simpl in E. congruence.
  - rewrite <- E. auto.
Qed.

(** Enough fuel once is enough for ever. *)
Lemma ser_returns G n t v o bs :
  ser_bin G n t v o = Ok bs -> returns (fun m => ser_bin G m t v o) (Ok bs).
Proof. intro H. exists n. intros m Hm. eapply ser_bin_mono; eauto. discriminate. Qed.
Lemma de_returns c G d n t o o' r :
  de_bin c G d n t o = (o', r) -> r <> NoFuel -> returns (fun m => de_bin c G d m t o) (o', r).
Proof. intros H Hr. exists n. intros m Hm. eapply de_bin_mono; eauto. Qed.

(** ** Termination *)
(** Names reachable in a type before a byte has certainly been consumed. Under
    Option, collections and enums at least one byte has been read. *)
Fixpoint unguarded (t : ty) : list nat :=
  match t with
  | TArr _ t' | TBox t' | TProxy _ t' => unguarded t'
  | TTup ts => flat_map unguarded ts
  | TNamed i => [i]
  | _ => []
  end.
Definition decl_unguarded (d : decl) : list nat :=
  match d with
  | DStruct _ _ fs | DTuple _ fs => flat_map (fun f => unguarded (f_ty f)) fs
  | DProxy _ t => unguarded t
  | DEnum _ => []
  end.
(** Every recursive type recurses through Option, a collection or an enum, as
    Rust types with values do: there is a rank that decreases along the
    unguarded references. *)
Definition guarded (G : env) : Prop :=
  exists rank : nat -> nat, forall i d j,
    nth_error G i = Some d -> In j (decl_unguarded d) -> (rank j < rank i)%nat.

Section Term.
  Variable c : cfg.
  Variable G : env.
  Variable d : list N.
  Hypothesis Hc : cfg_ok c.
  Hypothesis Hd : slice_fits c (lenN d).

  (** With fuel [n], reading [t] anywhere with at most [rem] bytes left does
      not run out of fuel. *)
  Definition Done {A} (rem : N) (m : bm A) : Prop :=
    forall o, o <= lenN d -> lenN d - o <= rem -> snd (m o) <> NoFuel.
  (** [m] moves forward and stays inside. *)
  Definition Fwd {A} (k : N) (m : bm A) : Prop :=
    forall o o' a, o <= lenN d -> m o = (o', Ok a) -> o + k <= o' /\ o' <= lenN d.

  Lemma Fwd_of_Local {A} (m : list N -> bm A) : Local c m -> Fwd 0 (m d).
  Proof. intros H o o' a Ho E. destruct (H _ _ _ _ Hd Ho E) as (H1 & H2 & _). lia. Qed.
  Lemma Fwd_de n t : Fwd 0 (de_bin c G d n t).
  Proof. apply (Fwd_of_Local (fun d => de_bin c G d n t)). apply Local_de. assumption. Qed.
  Lemma Fwd_fixed w : w <= 16 -> Fwd w (rd_fixed c d w).
  Proof.
    intros Hw o o' a Ho H. assert (Hu := slice_fits_usize c _ Hc Hd).
    unfold rd_fixed in H. rewrite usize_add_ok in H by lia.
    destruct (N.ltb_spec (lenN d) (o + w)); [discriminate|].
    destruct (N.ltb_spec (o + w) o); [discriminate|]. inversion H; subst. lia.
  Qed.
  Lemma Fwd_usize : Fwd 8 (rd_usize c d).
  Proof.
    intros o o' a Ho H. assert (Hu := slice_fits_usize c _ Hc Hd).
    unfold rd_usize in H. rewrite usize_add_ok in H by lia.
    destruct (N.leb_spec o (o + 8)); [|lia].
    destruct (N.leb_spec (o + 8) (lenN d)); [|discriminate]. inversion H; subst. lia.
  Qed.

  Lemma Done_le {A} r1 r2 (m : bm A) : r2 <= r1 -> Done r1 m -> Done r2 m.
  Proof. intros H1 H2 o Ho Hr. apply H2; lia. Qed.
  Lemma Done_bind {A B} rem k (m : bm A) (f : A -> bm B) :
    Done rem m -> Fwd k m -> (forall a, Done (rem - k) (f a)) -> Done rem (bbind m f).
  Proof.
    intros H1 HF H2 o Ho Hr. unfold bbind. specialize (H1 o Ho Hr).
    destruct (m o) as [o' [a|e|p|]] eqn:E; simpl in *; try discriminate; try congruence.
    destruct (HF _ _ _ Ho E). apply H2; lia.
  Qed.
  Lemma Done_map {A B} rem (g : A -> B) (m : bm A) : Done rem m -> Done rem (bmap g m).
  Proof.
    intros H o Ho Hr. unfold bmap, bbind. specialize (H o Ho Hr).
    destruct (m o) as [o' [a|e|p|]]; simpl in *; try discriminate; congruence.
  Qed.
  Lemma Done_ret {A} rem (a : A) : Done rem (bret a).
  Proof. intros o _ _. discriminate. Qed.
  Lemma Done_fixed rem w : Done rem (rd_fixed c d w).
  Proof.
    intros o _ _. unfold rd_fixed, usize_add. destruct (o + w <? usize_mod c);
    [|destruct (overflow_checks c)]; try discriminate;
    match goal with |- context [lenN d <? ?e] => destruct (lenN d <? e); [discriminate|]; destruct (e <? o); discriminate end.
  Qed.
  Lemma Done_usize rem : Done rem (rd_usize c d).
  Proof.
    intros o _ _. unfold rd_usize, usize_add. destruct (o + 8 <? usize_mod c);
    [|destruct (overflow_checks c)]; try discriminate;
    match goal with |- context [if ?b then _ else _] => destruct b; discriminate end.
  Qed.
  Lemma Done_str rem : Done rem (rd_str c d).
  Proof.
    unfold rd_str. apply (Done_bind rem 8); [apply Done_usize|apply Fwd_usize|].
    intros len o _ _. unfold usize_add. destruct (o + len <? usize_mod c);
    [|destruct (overflow_checks c)]; try discriminate;
    match goal with |- context [lenN d <? ?e] => destruct (lenN d <? e); [discriminate|]; destruct (e <? o); [discriminate|] end;
    destruct (utf8_dec (slice o len d)); discriminate.
  Qed.
  Lemma Done_dur rem : Done rem (rd_dur c d).
  Proof.
    unfold rd_dur. apply (Done_bind rem 8); [apply Done_fixed|apply Fwd_fixed; lia|].
    intro bs. apply (Done_bind _ 4); [apply Done_fixed|apply Fwd_fixed; lia|].
    intros bn o _ _. cbv zeta. destruct (1000000000 <? of_le bn); [discriminate|].
    unfold duration_new. destruct (of_le bn <? 1000000000); [discriminate|].
    destruct (of_le bs + of_le bn / 1000000000 <? 2 ^ 64); discriminate.
  Qed.
  Lemma Done_time rem : Done rem (rd_time c d).
  Proof.
    unfold rd_time. apply (Done_bind rem 1); [apply Done_fixed|apply Fwd_fixed; lia|].
    intro b. destruct (of_le b =? 1); [|apply Done_ret].
    apply (Done_bind _ 0); [apply Done_dur|apply (Fwd_of_Local (fun d => rd_dur c d)); apply Local_dur; assumption|].
    intros v o _ _. destruct v; try discriminate. destruct (secs <=? time_max c); discriminate.
  Qed.
  Lemma Done_iter {A} rem (step : A -> bm A) k :
    (forall a, Done rem (step a)) -> (forall a, Fwd 0 (step a)) ->
    forall a, Done rem (fun o => iter_nat_m (fun o a => step a o) k o a).
  Proof.
    intros H1 H2. induction k as [|k IH]; intros a; [intros o _ _; discriminate|].
    intros o Ho Hr. cbn [iter_nat_m]. unfold seq2. specialize (H1 a o Ho Hr).
    destruct (step a o) as [o' [a'|e|p|]] eqn:E; simpl in *; try discriminate; try congruence.
    destruct (H2 _ _ _ _ Ho E). apply IH; lia.
  Qed.
  Lemma Fwd_bind0 {A B} (m : bm A) (f : A -> bm B) : Fwd 0 m -> (forall a, Fwd 0 (f a)) -> Fwd 0 (bbind m f).
  Proof.
    intros H1 H2 o o' b Ho E. unfold bbind in E. destruct (m o) as [o1 [a|e|p|]] eqn:E1; try discriminate.
    destruct (H1 _ _ _ Ho E1) as [L1 L2]. destruct (H2 _ _ _ _ L2 E). lia.
  Qed.
  Lemma Fwd_ret {A} (a : A) : Fwd 0 (bret a).
  Proof. intros o o' b Ho E. inversion E; subst. lia. Qed.

  Lemma Done_mono rem n m t : (n <= m)%nat -> Done rem (de_bin c G d n t) -> Done rem (de_bin c G d m t).
  Proof.
    intros Hm H o Ho Hr. specialize (H o Ho Hr).
    destruct (de_bin c G d n t o) as [o' r] eqn:E. simpl in H.
    rewrite (de_bin_mono _ _ _ _ _ _ _ _ _ Hm E H). exact H.
  Qed.

  Lemma Done_list rem ts :
    Forall (fun t => exists n, Done rem (de_bin c G d n t)) ts ->
    exists n, Forall (fun t => Done rem (de_bin c G d n t)) ts.
  Proof.
    induction 1 as [|t ts [n1 H1] _ [n2 H2]]; [exists O; constructor|].
    exists (Nat.max n1 n2). constructor.
    - eapply Done_mono; [|exact H1]. lia.
    - eapply Forall_impl; [|exact H2]. intros t' Ht. eapply Done_mono; [|exact Ht]. lia.
  Qed.

  Lemma Done_tys rem n ts :
    Forall (fun t => Done rem (de_bin c G d n t)) ts -> Done rem (de_tys (de_bin c G d n) ts).
  Proof.
    induction 1 as [|t ts Ht _ IH]; simpl; [apply Done_ret|].
    apply (Done_bind rem 0); [assumption|apply Fwd_de|]. intro v. apply Done_map.
    eapply Done_le; [|exact IH]. lia.
  Qed.
  Lemma Done_rep rem n t k :
    Done rem (de_bin c G d n t) -> Done rem (de_rep (de_bin c G d n) k t).
  Proof.
    intro Ht. induction k as [|k IH]; simpl; [apply Done_ret|].
    apply (Done_bind rem 0); [assumption|apply Fwd_de|]. intro v. apply Done_map.
    eapply Done_le; [|exact IH]. lia.
  Qed.
  Lemma Done_fields rem n hs fs :
    Forall (fun f => Done rem (de_bin c G d n (f_ty f))) fs -> Done rem (de_fields (de_bin c G d n) hs fs).
  Proof.
    induction 1 as [|f fs Ht _ IH]; simpl; [apply Done_ret|].
    apply (Done_bind rem 0).
    - destruct (hs && f_skip f); [apply Done_ret|assumption].
    - destruct (hs && f_skip f); [apply Fwd_ret|apply Fwd_de].
    - intro v. apply Done_map. eapply Done_le; [|exact IH]. lia.
  Qed.
  Lemma Done_items rem n k t len :
    Done rem (de_bin c G d n t) -> Done rem (de_items (de_bin c G d n) k t len).
  Proof.
    intros H o Ho Hr. unfold de_items. rewrite iter_N_nat.
    apply (Done_iter rem (fun acc => bbind (de_bin c G d n t) (fun v => bret (seq_add k v acc)))); try assumption.
    - intro a. apply (Done_map rem (fun v => seq_add k v a)). assumption.
    - intro a. apply Fwd_bind0; [apply Fwd_de|]. intro; apply Fwd_ret.
  Qed.
  Lemma Done_entries rem n k tk tv len :
    Done rem (de_bin c G d n tk) -> Done rem (de_bin c G d n tv) ->
    Done rem (de_entries (de_bin c G d n) k tk tv len).
  Proof.
    intros H1 H2 o Ho Hr. unfold de_entries. rewrite iter_N_nat.
    apply (Done_iter rem (fun acc => bbind (de_bin c G d n tk) (fun x => bbind (de_bin c G d n tv) (fun y => bret (map_add k x y acc))))); try assumption.
    - intro a. apply (Done_bind rem 0); [assumption|apply Fwd_de|]. intro x.
      apply (Done_map _ (fun y => map_add k x y a)). eapply Done_le; [|exact H2]. lia.
    - intro a. apply Fwd_bind0; [apply Fwd_de|]. intro. apply Fwd_bind0; [apply Fwd_de|]. intro; apply Fwd_ret.
  Qed.

  Variable rank : nat -> nat.
  Hypothesis Hrank : forall i d j,
    nth_error G i = Some d -> In j (decl_unguarded d) -> (rank j < rank i)%nat.

  (** All types terminate when fewer than [rem] bytes are left. *)
  Definition Below (rem : N) : Prop := forall r, r < rem -> forall t, exists n, Done r (de_bin c G d n t).

  Lemma term_fields_list rem fs :
    (forall f, In f fs -> exists n, Done rem (de_bin c G d n (f_ty f))) ->
    exists n, Forall (fun f => Done rem (de_bin c G d n (f_ty f))) fs.
  Proof.
    intro H. destruct (Done_list rem (map f_ty fs)) as [n Hn].
    - apply Forall_forall. intros t Ht. apply in_map_iff in Ht as (f & <- & Hf). auto.
    - exists n. rewrite Forall_map in Hn. exact Hn.
  Qed.

  (** Guarded positions: [k >= 1] bytes have been read. If nothing is left to
      read the guard itself fails. *)
  Lemma Done_guard {A B} rem k (m : bm A) (f : A -> bm B) :
    0 < k -> Done rem m -> Fwd k m ->
    (k <= rem -> forall a, Done (rem - k) (f a)) -> Done rem (bbind m f).
  Proof.
    intros Hk H1 HF H2 o Ho Hr. unfold bbind. specialize (H1 o Ho Hr).
    destruct (m o) as [o' [a|e|p|]] eqn:E; simpl in *; try discriminate; try congruence.
    destruct (HF _ _ _ Ho E). apply H2; lia.
  Qed.

  Lemma term_ty rem : Below rem ->
    forall r t, (forall j, In j (unguarded t) -> (rank j < r)%nat) ->
    exists n, Done rem (de_bin c G d n t).
  Proof.
    intros HB. induction r as [r IHr] using lt_wf_ind. intro t.
    induction t as [k| | | | | |t' IHt|k t' IHt|k tk tv IHk IHv|m t' IHt|ts IHts|t' IHt| | |p t' IHt|i] using ty_ind2; intro Hu.
    - exists 1%nat. cbn [de_bin]. destruct k; apply Done_map; first [apply Done_fixed | apply Done_usize].
    - exists 1%nat. apply Done_map, Done_fixed.
    - exists 1%nat. apply Done_map, Done_fixed.
    - exists 1%nat. apply Done_map, Done_fixed.
    - exists 1%nat. apply Done_map, Done_str.
    - exists 1%nat. apply Done_ret.
    - destruct (N.ltb_spec 0 rem) as [Hpos|Hz].
      + destruct (HB (rem - 1) ltac:(lia) t') as [n Hn]. exists (S n). cbn [de_bin].
        apply (Done_guard rem 1); [lia|apply Done_fixed|apply Fwd_fixed; lia|].
        intros _ b. destruct (of_le b =? 1); [apply Done_map; assumption|apply Done_ret].
      + exists 1%nat. cbn [de_bin].
        apply (Done_guard rem 1); [lia|apply Done_fixed|apply Fwd_fixed; lia|]. lia.
    - destruct (N.leb_spec 8 rem) as [Hpos|Hz].
      + destruct (HB (rem - 8) ltac:(lia) t') as [n Hn]. exists (S n). cbn [de_bin].
        apply (Done_guard rem 8); [lia|apply Done_usize|apply Fwd_usize|].
        intros _ len.
        assert (HC : Done (rem - 8) (match k with SVec | SHSet => with_capacity c t' len | _ => bret tt end)
                   /\ Fwd 0 (match k with SVec | SHSet => with_capacity c t' len | _ => bret tt end)).
        { unfold with_capacity. destruct k; (destruct (len <=? alloc_max c t') || idtac);
            (split; [intros o _ _; discriminate|first [apply Fwd_ret|intros o o' a _ E; discriminate]]). }
        destruct HC as [HC1 HC2].
        apply (Done_bind _ 0); [assumption|assumption|]. intros _. rewrite N.sub_0_r.
        apply Done_map, Done_items. assumption.
      + exists 1%nat. cbn [de_bin]. apply (Done_guard rem 8); [lia|apply Done_usize|apply Fwd_usize|]. lia.
    - destruct (N.leb_spec 8 rem) as [Hpos|Hz].
      + destruct (HB (rem - 8) ltac:(lia) tk) as [n1 Hn1].
        destruct (HB (rem - 8) ltac:(lia) tv) as [n2 Hn2].
        exists (S (Nat.max n1 n2)). cbn [de_bin].
        apply (Done_guard rem 8); [lia|apply Done_usize|apply Fwd_usize|].
        intros _ len.
        assert (HC : Done (rem - 8) (match k with MHash => with_capacity c tk len | MBTree => bret tt end)
                   /\ Fwd 0 (match k with MHash => with_capacity c tk len | MBTree => bret tt end)).
        { unfold with_capacity. destruct k; (destruct (len <=? alloc_max c tk) || idtac);
            (split; [intros o _ _; discriminate|first [apply Fwd_ret|intros o o' a _ E; discriminate]]). }
        destruct HC as [HC1 HC2].
        apply (Done_bind _ 0); [assumption|assumption|]. intros _. rewrite N.sub_0_r.
        apply Done_map, Done_entries; (eapply Done_mono; [|eassumption]); lia.
      + exists 1%nat. cbn [de_bin]. apply (Done_guard rem 8); [lia|apply Done_usize|apply Fwd_usize|]. lia.
    - destruct (IHt Hu) as [n Hn]. exists (S n). cbn [de_bin]. apply Done_map, Done_rep. assumption.
    - assert (HF : Forall (fun t => exists n, Done rem (de_bin c G d n t)) ts).
      { simpl in Hu. rewrite Forall_forall in *. intros t Ht. apply IHts; [assumption|].
        intros j Hj. apply Hu. apply in_flat_map. eauto. }
      destruct (Done_list _ _ HF) as [n Hn]. exists (S n). cbn [de_bin]. apply Done_map, Done_tys. assumption.
    - destruct (IHt Hu) as [n Hn]. exists (S n). exact Hn.
    - exists 1%nat. apply Done_dur.
    - exists 1%nat. apply Done_time.
    - destruct (IHt Hu) as [n Hn]. exists (S n). cbn [de_bin]. apply Done_map. assumption.
    - assert (Hi : (rank i < r)%nat) by (apply Hu; left; reflexivity).
      destruct (nth_error G i) as [dd|] eqn:EG.
      2:{ exists 1%nat. cbn [de_bin]. rewrite EG. intros o _ _. discriminate. }
      destruct dd as [dflt nul fs|tr fs|vs|p t'].
      + destruct (term_fields_list rem fs) as [n Hn].
        { intros f Hf. apply (IHr (rank i) Hi). intros j Hj. eapply Hrank; [exact EG|].
          simpl. apply in_flat_map. eauto. }
        exists (S n). cbn [de_bin]. rewrite EG. apply Done_map, Done_fields. assumption.
      + destruct (term_fields_list rem fs) as [n Hn].
        { intros f Hf. apply (IHr (rank i) Hi). intros j Hj. eapply Hrank; [exact EG|].
          simpl. apply in_flat_map. eauto. }
        exists (S n). cbn [de_bin]. rewrite EG. destruct (existsb f_skip fs); [intros o _ _; discriminate|].
        apply Done_map, Done_fields. assumption.
      + destruct (N.leb_spec 2 rem) as [Hpos|Hz].
        * assert (HV : exists n, Forall (fun vr => match v_body vr with
              | BUnit => True
              | BTuple ts => Forall (fun t => Done (rem - 2) (de_bin c G d n t)) ts
              | BStruct fs => Forall (fun f => Done (rem - 2) (de_bin c G d n (f_ty f))) fs end) vs).
          { clear EG. induction vs as [|vr vs [n1 IHvs]]; [exists O; constructor|].
            assert (Hone : exists n, match v_body vr with
              | BUnit => True
              | BTuple ts => Forall (fun t => Done (rem - 2) (de_bin c G d n t)) ts
              | BStruct fs => Forall (fun f => Done (rem - 2) (de_bin c G d n (f_ty f))) fs end).
            { destruct (v_body vr) as [|ts|fs]; [exists O; exact I| |].
              - apply Done_list. apply Forall_forall. intros t _. apply HB. lia.
              - apply term_fields_list. intros f _. apply HB. lia. }
            destruct Hone as [n2 H2]. exists (Nat.max n1 n2). constructor.
            - destruct (v_body vr) as [|ts|fs]; [exact I| |]; (eapply Forall_impl; [|exact H2]);
                intros t Ht; (eapply Done_mono; [|exact Ht]); lia.
            - eapply Forall_impl; [|exact IHvs]. intros v Hv. cbv beta in Hv.
              destruct (v_body v) as [|ts|fs]; [exact I| |]; (eapply Forall_impl; [|exact Hv]);
                intros t Ht; (eapply Done_mono; [|exact Ht]); lia. }
          destruct HV as [n Hn]. exists (S n). cbn [de_bin]. rewrite EG.
          apply (Done_guard rem 2); [lia|apply Done_fixed|apply Fwd_fixed; lia|].
          intros _ b. cbv zeta. destruct (nth_error vs (N.to_nat (of_le b))) as [vr|] eqn:EV; [|intros o _ _; discriminate].
          apply nth_error_In in EV. rewrite Forall_forall in Hn. specialize (Hn _ EV).
          destruct (v_body vr) as [|ts|fs]; [apply Done_ret| |].
          -- apply Done_map, Done_tys. assumption.
          -- apply Done_map, Done_fields. assumption.
        * exists 1%nat. cbn [de_bin]. rewrite EG.
          apply (Done_guard rem 2); [lia|apply Done_fixed|apply Fwd_fixed; lia|]. lia.
      + destruct (IHr (rank i) Hi t') as [n Hn].
        { intros j Hj. eapply Hrank; [exact EG|]. exact Hj. }
        exists (S n). cbn [de_bin]. rewrite EG. apply Done_map. assumption.
  Qed.

  Lemma term_all rem : forall t, exists n, Done rem (de_bin c G d n t).
  Proof.
    induction rem as [rem IH] using (well_founded_induction N.lt_wf_0). intro t.
    apply (term_ty rem) with (r := S (list_max (map rank (unguarded t)))).
    - intros r Hr t'. apply IH. assumption.
    - intros j Hj. apply Nat.lt_succ_r.
      assert (Hm := list_max_le (map rank (unguarded t)) (list_max (map rank (unguarded t)))).
      destruct Hm as [Hm _]. specialize (Hm (le_n _)). rewrite Forall_forall in Hm. apply Hm.
      apply in_map. assumption.
  Qed.
End Term.

Theorem de_bin_terminates c G d t o :
  cfg_ok c -> guarded G -> slice_fits c (lenN d) -> o <= lenN d ->
  exists o' r, r <> NoFuel /\ returns (fun n => de_bin c G d n t o) (o', r).
Proof.
  intros Hc [rank Hr] Hd Ho.
  destruct (term_all c G d Hc Hd rank Hr (lenN d) t) as [n Hn].
  specialize (Hn o Ho ltac:(lia)). destruct (de_bin c G d n t o) as [o' r] eqn:E.
  exists o', r. split; [exact Hn|]. eapply de_returns; eauto.
Qed.
