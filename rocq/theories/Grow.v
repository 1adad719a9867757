(** Appending variants to enums: what was written stays what it was, what was
    accepted stays accepted with the same value. *)
From Verif Require Import Base Utf8 Types BinModel BinRead Text TextModel SpecGrow.
Local Open Scope N_scope.

Lemma grown_nth vs more (k : nat) (x : variant) : nth_error vs k = Some x -> nth_error (vs ++ more) k = Some x.
Proof. intro H. rewrite nth_error_app1; [exact H|]. apply nth_error_Some. congruence. Qed.

(** ** Typing *)
Lemma fits_grown c G G' : env_grown G G' -> forall n t v, fits px_inverse c G n t v -> fits px_inverse c G' n t v.
Proof.
  intro HG. induction n as [|n IH]; intros t v H; [destruct H|].
  assert (IH2 : forall ts l, Forall2 (fits px_inverse c G n) ts l -> Forall2 (fits px_inverse c G' n) ts l)
    by (intros ts l Hl; induction Hl; constructor; auto).
  assert (IH3 : forall fs l, Forall2 (fun f v => if f_skip f then v = f_tydefault f else fits px_inverse c G n (f_ty f) v) fs l ->
                             Forall2 (fun f v => if f_skip f then v = f_tydefault f else fits px_inverse c G' n (f_ty f) v) fs l)
    by (intros fs l Hl; induction Hl as [|f w fs l Hf]; constructor; auto; destruct (f_skip f); auto).
  assert (IH4 : forall fs l, Forall2 (fun f w => fits px_inverse c G n (f_ty f) w) fs l -> Forall2 (fun f w => fits px_inverse c G' n (f_ty f) w) fs l)
    by (intros fs l Hl; induction Hl; constructor; auto).
  destruct t as [k| | | | | |t|k t|k tk tv|m t|ts|t| | |p t|i]; try exact H.
  - destruct v; try exact H. cbn [fits] in *. auto.
  - destruct v; try exact H. cbn [fits] in *. destruct H as (H & ?). split; [|assumption]. eapply Forall_impl; [|exact H]. auto.
  - destruct v; try exact H. cbn [fits] in *. destruct H as (H & ?). split; [|assumption]. eapply Forall_impl; [|exact H]. intros e [H1 H2]. auto.
  - destruct v; try exact H. cbn [fits] in *. destruct H as (H1 & H2). split; [assumption|]. eapply Forall_impl; [|exact H2]. auto.
  - destruct v; try exact H. cbn [fits] in *. auto.
  - cbn [fits] in *. destruct v; auto.
  - cbn [fits] in *. assert (Hx : px_inverse p (fits px_inverse c G n t) v) by (destruct v; exact H).
    destruct Hx as [H1 H2]. assert (Hy : px_inverse p (fits px_inverse c G' n t) v) by (split; auto). destruct v; exact Hy.
  - cbn [fits] in *. destruct (nth_error G i) as [d|] eqn:E; [|destruct v; destruct H].
    destruct (HG i d E) as (d' & E' & Hd). rewrite E'.
    destruct d as [df cn fs|tr fs|vs|p t]; cbn [grown] in Hd.
    + subst d'. destruct v; try exact H. auto.
    + subst d'. destruct v; try exact H. destruct H as [H1 H2]. auto.
    + destruct Hd as [more ->]. destruct v; try exact H. destruct H as [H1 H2]. split; [assumption|].
      destruct (nth_error vs (N.to_nat tag)) as [vr|] eqn:Ev; [|destruct H2]. rewrite (grown_nth _ _ _ _ Ev).
      destruct (v_body vr) as [|ts|fs]; auto.
    + subst d'. assert (Hx : px_inverse p (fits px_inverse c G n t) v) by (destruct v; exact H).
      destruct Hx as [H1 H2]. assert (Hy : px_inverse p (fits px_inverse c G' n t) v) by (split; auto). destruct v; exact Hy.
Qed.

(** ** Writing *)
Definition rle {E A} (x y : res E A) : Prop := forall a, x = Ok a -> y = Ok a.
Lemma rle_refl {E A} (x : res E A) : rle x x. Proof. intros a H; exact H. Qed.
Lemma rle_bind {E A B} (x y : res E A) (f g : A -> res E B) :
  rle x y -> (forall o, rle (f o) (g o)) -> rle (rbind x f) (rbind y g).
Proof. intros H Hf b. destruct x as [a|e|p|]; simpl; try discriminate. rewrite (H a eq_refl). apply Hf. Qed.
Lemma rle_map {E A B} (f : A -> B) (x y : res E A) : rle x y -> rle (rmap f x) (rmap f y).
Proof. intros H b. destruct x as [a|e|p|]; simpl; try discriminate. rewrite (H a eq_refl). exact (fun H => H). Qed.
Lemma rle_fail {E A} p (y : res E A) : rle (Panic p) y. Proof. intros a H; discriminate. Qed.

Section BinSer.
  Variables s1 s2 : ty -> val -> list N -> sres.
  Hypothesis H : forall t v o, rle (s1 t v o) (s2 t v o).
  Lemma g_items t l o : rle (ser_items s1 t l o) (ser_items s2 t l o).
  Proof. revert o; induction l as [|v l IH]; intro o; simpl; [apply rle_refl|]. apply rle_bind; auto. Qed.
  Lemma g_entries tk tv l o : rle (ser_entries s1 tk tv l o) (ser_entries s2 tk tv l o).
  Proof. revert o; induction l as [|[k v] l IH]; intro o; simpl; [apply rle_refl|]. apply rle_bind; auto. intro. apply rle_bind; auto. Qed.
  Lemma g_tys ts l o : rle (BinModel.ser_tys s1 ts l o) (BinModel.ser_tys s2 ts l o).
  Proof. revert l o; induction ts as [|t ts IH]; intros [|v l] o; simpl; try apply rle_refl. apply rle_bind; auto. Qed.
  Lemma g_fields hs fs l o : rle (ser_fields s1 hs fs l o) (ser_fields s2 hs fs l o).
  Proof.
    revert l o; induction fs as [|f fs IH]; intros [|v l] o; simpl; try apply rle_refl.
    destruct (hs && f_skip f); auto. apply rle_bind; auto.
  Qed.
End BinSer.

Lemma ser_bin_grown G G' : env_grown G G' -> forall n t v o, rle (ser_bin G n t v o) (ser_bin G' n t v o).
Proof.
  intro HG. induction n as [|n IH]; intros t v o; [intros a H; discriminate|].
  destruct t as [k| | | | | |t'|k t'|k tk tv|m t'|ts|t'| | |p t'|i].
  1-6: apply rle_refl.
  7-8: apply rle_refl.
  - destruct v; try apply rle_refl. apply rle_bind; [apply rle_refl|]. intro. apply IH.
  - destruct v; try apply rle_refl. apply rle_bind; [apply rle_refl|]. intro. apply g_items, IH.
  - destruct v; try apply rle_refl. apply rle_bind; [apply rle_refl|]. intro. apply g_entries, IH.
  - destruct v; try apply rle_refl. apply g_items, IH.
  - destruct v; try apply rle_refl. apply g_tys, IH.
  - destruct v; apply IH.
  - destruct v; apply IH.
  - cbn [ser_bin]. destruct (nth_error G i) as [d|] eqn:E; [|destruct v; apply rle_fail].
    destruct (HG i d E) as (d' & E' & Hd). rewrite E'.
    destruct d as [df cn fs|tr fs|vs|p t]; cbn [grown] in Hd.
    + subst d'. destruct v; try apply rle_refl. apply g_fields, IH.
    + subst d'. destruct v; try apply rle_refl. apply g_fields, IH.
    + destruct Hd as [more ->]. destruct v; try apply rle_refl.
      destruct (nth_error vs (N.to_nat tag)) as [vr|] eqn:Ev; [|apply rle_fail]. rewrite (grown_nth _ _ _ _ Ev).
      apply rle_bind; [apply rle_refl|]. intro o1. destruct (v_body vr) as [|ts|fs].
      * apply rle_refl.
      * apply g_tys, IH.
      * apply g_fields, IH.
    + subst d'. destruct v; apply IH.
Qed.

Section TextSer.
  Variable fm : fmt.
  Variables s1 s2 : ty -> val -> wres.
  Hypothesis H : forall t v, rle (s1 t v) (s2 t v).
  Lemma g_rall l t : rle (rall (map (s1 t) l)) (rall (map (s2 t) l)).
  Proof. induction l as [|v l IH]; simpl; [apply rle_refl|]. apply rle_bind; [apply H|]. intro. apply rle_map, IH. Qed.
  Lemma g_rall_entries tk tv l : rle (rall (map (ser_entry s1 tk tv) l)) (rall (map (ser_entry s2 tk tv) l)).
  Proof.
    induction l as [|v l IH]; simpl; [apply rle_refl|]. apply rle_bind.
    - unfold ser_entry. apply rle_bind; [apply H|]. intro. apply rle_bind; [apply H|]. intro. apply rle_refl.
    - intro. apply rle_map, IH.
  Qed.
  Lemma g_ttys ts l : rle (ser_tys s1 ts l) (ser_tys s2 ts l).
  Proof. revert l; induction ts as [|t ts IH]; intros [|v l]; simpl; try apply rle_refl. apply rle_bind; [apply H|]. intro. apply rle_map, IH. Qed.
  Lemma g_some f w : rle (ser_some s1 f w) (ser_some s2 f w).
  Proof. unfold ser_some. destruct (f_ty f); try apply rle_refl; apply H. Qed.
  Lemma g_field nl nm f v : rle (ser_field fm s1 nl nm f v) (ser_field fm s2 nl nm f v).
  Proof.
    unfold ser_field. destruct (f_isopt f); [|apply rle_map, H]. destruct v; try apply rle_refl. apply rle_map, g_some.
  Qed.
  Lemma g_named cn fs l : rle (ser_named fm s1 cn fs l) (ser_named fm s2 cn fs l).
  Proof.
    revert l; induction fs as [|f fs IH]; intros [|v l]; simpl; try apply rle_refl.
    destruct (f_skip f); [apply IH|]. apply rle_bind; [apply g_field|]. intro. apply rle_bind; [apply IH|]. intro. apply rle_refl.
  Qed.
  Lemma g_vfields fs l : rle (ser_variant_fields fm s1 fs l) (ser_variant_fields fm s2 fs l).
  Proof.
    revert l; induction fs as [|f fs IH]; intros [|v l]; simpl; try apply rle_refl.
    apply rle_bind; [apply g_field|]. intro. apply rle_bind; [apply IH|]. intro. apply rle_refl.
  Qed.
  Lemma g_unnamed fs l : rle (ser_unnamed fm s1 fs l) (ser_unnamed fm s2 fs l).
  Proof.
    revert l; induction fs as [|f fs IH]; intros [|v l]; simpl; try apply rle_refl.
    destruct fm; [|destruct (f_skip f); [apply IH|]]; (apply rle_bind; [apply H|]; intro; apply rle_bind; [apply IH|]; intro; apply rle_refl).
  Qed.
End TextSer.

Lemma ser_text_grown F c G G' fm : env_grown G G' -> forall n t v, rle (ser_text F c G fm n t v) (ser_text F c G' fm n t v).
Proof.
  intro HG. induction n as [|n IH]; intros t v; [intros a H; discriminate|].
  destruct t as [k| | | | | |t'|k t'|k tk tv|m t'|ts|t'| | |p t'|i].
  1-6: apply rle_refl.
  7-8: apply rle_refl.
  - destruct v; try apply rle_refl. apply IH.
  - destruct v; try apply rle_refl. cbn [ser_text]. apply rle_map, g_rall, IH.
  - destruct v; try apply rle_refl. cbn [ser_text]. apply rle_map, g_rall_entries, IH.
  - destruct v; try apply rle_refl. cbn [ser_text]. destruct l; [apply rle_refl|]. apply rle_map, g_rall, IH.
  - destruct v; try apply rle_refl. cbn [ser_text]. destruct (tuple_arity (length ts)); [|apply rle_refl]. apply rle_map, g_ttys, IH.
  - destruct v; apply IH.
  - cbn [ser_text]. destruct fm; [|destruct v; apply rle_refl]. destruct v; apply IH.
  - cbn [ser_text]. destruct (nth_error G i) as [d|] eqn:E; [|destruct v; apply rle_fail].
    destruct (HG i d E) as (d' & E' & Hd). rewrite E'.
    destruct d as [df cn fs|tr fs|vs|p t]; cbn [grown] in Hd.
    + subst d'. destruct v; try apply rle_refl. apply rle_map, g_named, IH.
    + subst d'. destruct v; try apply rle_refl. destruct (existsb f_hasproxy fs); [apply rle_refl|].
      assert (Hu : rle (rmap (wrap (t_open fm) (t_close fm)) (ser_unnamed fm (ser_text F c G fm n) fs l))
                       (rmap (wrap (t_open fm) (t_close fm)) (ser_unnamed fm (ser_text F c G' fm n) fs l))) by (apply rle_map, g_unnamed, IH).
      destruct fm.
      * destruct fs as [|f [|f2 fs]]; [destruct l; [apply rle_refl|exact Hu]| |exact Hu].
        destruct l as [|w [|w2 l]]; try exact Hu. destruct tr; [apply IH|exact Hu].
      * destruct fs; [apply rle_refl|exact Hu].
    + destruct Hd as [more ->]. destruct v; try apply rle_refl.
      destruct (nth_error vs (N.to_nat tag)) as [vr|] eqn:Ev; [|apply rle_fail]. rewrite (grown_nth _ _ _ _ Ev).
      destruct (v_body vr) as [|ts|fs].
      * apply rle_refl.
      * destruct ts as [|t ts]; [apply rle_refl|]. apply rle_map, g_ttys, IH.
      * apply rle_map, g_vfields, IH.
    + subst d'. destruct fm; [|destruct v; apply rle_refl]. destruct v; apply IH.
Qed.

(** ** Reading bytes *)
Definition bok {A} (f g : bm A) : Prop := forall o o' a, f o = (o', Ok a) -> g o = (o', Ok a).
Lemma bok_refl {A} (f : bm A) : bok f f. Proof. intros o o' a H; exact H. Qed.
Lemma bok_bind {A B} (m1 m2 : bm A) (f g : A -> bm B) : bok m1 m2 -> (forall a, bok (f a) (g a)) -> bok (bbind m1 f) (bbind m2 g).
Proof.
  intros H1 H2 o o' b E. unfold bbind in *. destruct (m1 o) as [o1 [a|e|p|]] eqn:E1; try discriminate.
  rewrite (H1 _ _ _ E1). apply H2. exact E.
Qed.
Lemma bok_map {A B} (g : A -> B) (m1 m2 : bm A) : bok m1 m2 -> bok (bmap g m1) (bmap g m2).
Proof. intro. apply bok_bind; [assumption|]. intro; apply bok_refl. Qed.
Lemma bok_panic {A} p (m : bm A) : bok (bfail (Panic p)) m. Proof. intros o o' a H; discriminate. Qed.
Lemma bok_err {A} e (m : bm A) : bok (bfail (Err e)) m. Proof. intros o o' a H; discriminate. Qed.

Lemma bok_iter {A} (f g : N -> A -> N * res berr A) k :
  (forall o a o' b, f o a = (o', Ok b) -> g o a = (o', Ok b)) ->
  forall o a o' b, iter_nat_m f k o a = (o', Ok b) -> iter_nat_m g k o a = (o', Ok b).
Proof.
  intro H. induction k as [|k IH]; intros o a o' b; [exact (fun H => H)|].
  cbn [iter_nat_m]. unfold seq2. destruct (f o a) as [o1 [a1|e|p|]] eqn:E; try discriminate.
  rewrite (H _ _ _ _ E). apply IH.
Qed.

Section BinDe.
  Variables d1 d2 : ty -> bm val.
  Hypothesis H : forall t, bok (d1 t) (d2 t).
  Lemma b_items k t len : bok (de_items d1 k t len) (de_items d2 k t len).
  Proof.
    intros o o' a. unfold de_items. rewrite !iter_N_nat. apply bok_iter. intros o1 a1.
    apply (bok_bind (d1 t) (d2 t)); [apply H|]. intro; apply bok_refl.
  Qed.
  Lemma b_entries k tk tv len : bok (de_entries d1 k tk tv len) (de_entries d2 k tk tv len).
  Proof.
    intros o o' a. unfold de_entries. rewrite !iter_N_nat. apply bok_iter. intros o1 a1.
    apply (bok_bind (d1 tk) (d2 tk)); [apply H|]. intro. apply bok_bind; [apply H|]. intro; apply bok_refl.
  Qed.
  Lemma b_rep n t : bok (de_rep d1 n t) (de_rep d2 n t).
  Proof. induction n as [|n IH]; simpl; [apply bok_refl|]. apply bok_bind; [apply H|]. intro. apply bok_map; assumption. Qed.
  Lemma b_tys ts : bok (de_tys d1 ts) (de_tys d2 ts).
  Proof. induction ts as [|t ts IH]; simpl; [apply bok_refl|]. apply bok_bind; [apply H|]. intro. apply bok_map; assumption. Qed.
  Lemma b_fields hs fs : bok (de_fields d1 hs fs) (de_fields d2 hs fs).
  Proof.
    induction fs as [|f fs IH]; simpl; [apply bok_refl|].
    apply bok_bind; [destruct (hs && f_skip f); [apply bok_refl|apply H]|]. intro. apply bok_map; assumption.
  Qed.
End BinDe.

Lemma de_bin_grown c G G' d : env_grown G G' -> forall n t, bok (de_bin c G d n t) (de_bin c G' d n t).
Proof.
  intro HG. induction n as [|n IH]; intro t; [intros o o' a H; discriminate|].
  destruct t as [k| | | | | |t'|k t'|k tk tv|m t'|ts|t'| | |p t'|i]; cbn [de_bin]; try apply bok_refl.
  - apply bok_bind; [apply bok_refl|]. intro b. destruct (of_le b =? 1); [apply bok_map, IH|apply bok_refl].
  - apply bok_bind; [apply bok_refl|]. intro len. apply bok_bind; [apply bok_refl|]. intro. apply bok_map, b_items, IH.
  - apply bok_bind; [apply bok_refl|]. intro len. apply bok_bind; [apply bok_refl|]. intro. apply bok_map, b_entries, IH.
  - apply bok_map, b_rep, IH.
  - apply bok_map, b_tys, IH.
  - apply IH.
  - apply bok_map, IH.
  - destruct (nth_error G i) as [e|] eqn:E; [|apply bok_panic].
    destruct (HG i e E) as (d' & E' & Hd). rewrite E'.
    destruct e as [df cn fs|tr fs|vs|p t]; cbn [grown] in Hd.
    + subst d'. apply bok_map, b_fields, IH.
    + subst d'. destruct (existsb f_skip fs); [apply bok_refl|]. apply bok_map, b_fields, IH.
    + destruct Hd as [more ->]. apply bok_bind; [apply bok_refl|]. intro b. cbv zeta.
      destruct (nth_error vs (N.to_nat (of_le b))) as [vr|] eqn:Ev; [|apply bok_err]. rewrite (grown_nth _ _ _ _ Ev).
      destruct (v_body vr) as [|ts|fs]; [apply bok_refl | apply bok_map, b_tys, IH | apply bok_map, b_fields, IH].
    + subst d'. apply bok_map, IH.
Qed.

(** ** Reading text *)
Section TextDe.
  Context {S : Type}.
  Variable L : lexer S.
  Variable F : flt.
  Variable c : cfg.
  Variable fm : fmt.
  Definition tle {A} (m1 m2 : @pm S A) : Prop := forall s s' a, m1 s = (s', Ok a) -> m2 s = (s', Ok a).
  Lemma tle_refl {A} (m : @pm S A) : tle m m. Proof. intros s s' a H; exact H. Qed.
  Lemma tle_bind {A B} (m1 m2 : @pm S A) (f g : A -> @pm S B) : tle m1 m2 -> (forall a, tle (f a) (g a)) -> tle (pbind m1 f) (pbind m2 g).
  Proof.
    intros H Hf s s' b E. unfold pbind in *. destruct (m1 s) as [s1 [a|e|p|]] eqn:E1; try discriminate.
    rewrite (H _ _ _ E1). apply Hf. exact E.
  Qed.
  Lemma tle_bind1 {A B} (m1 m2 : @pm S A) (f : A -> @pm S B) : tle m1 m2 -> tle (pbind m1 f) (pbind m2 f).
  Proof. intro H. apply tle_bind; [exact H | intro; apply tle_refl]. Qed.
  Lemma tle_bind2 {A B} (m : @pm S A) (f g : A -> @pm S B) : (forall a, tle (f a) (g a)) -> tle (pbind m f) (pbind m g).
  Proof. intro H. apply tle_bind; [apply tle_refl | exact H]. Qed.
  Lemma tle_map {A B} (f : A -> B) (m1 m2 : @pm S A) : tle m1 m2 -> tle (pmap f m1) (pmap f m2).
  Proof. intro H. apply tle_bind1. exact H. Qed.
  Lemma tle_fail {A} p (m : @pm S A) : tle (pfail (Panic p)) m. Proof. intros s s' a H; discriminate. Qed.
  Lemma tle_while {A} n cond (b1 b2 : A -> @pm S A) a : (forall a, tle (b1 a) (b2 a)) -> tle (while_ n cond b1 a) (while_ n cond b2 a).
  Proof.
    intro H. revert a; induction n as [|n IH]; intro a; [apply tle_refl|].
    intro s. cbn [while_]. destruct (cond s); [|exact (fun s' a Q => Q)].
    apply (tle_bind (b1 a) (b2 a) (while_ n cond b1)); [apply H | exact IH].
  Qed.
  Lemma tle_opt (m1 m2 : @pm S val) : tle m1 m2 -> tle (de_opt L fm m1) (de_opt L fm m2).
  Proof. intros H s. unfold de_opt. destruct (at_none L fm s); [exact (fun s' a Q => Q)|]. apply (tle_map VSome m1 m2 H s). Qed.

  Section Helpers.
    Variables d1 d2 : ty -> @pm S val.
    Hypothesis Hd : forall t, tle (d1 t) (d2 t).
    Variable n : nat.

    Lemma tle_seq k t : tle (de_seq L d1 n k t) (de_seq L d2 n k t).
    Proof. unfold de_seq. apply tle_bind2. intro. apply tle_bind1. apply tle_while. intro. apply tle_bind1. apply Hd. Qed.
    Lemma tle_mapk k tk tv : tle (de_map L d1 n k tk tv) (de_map L d2 n k tk tv).
    Proof.
      unfold de_map. apply tle_bind2. intro. apply tle_bind1. apply tle_while. intro.
      apply tle_bind; [apply Hd|]. intro. apply tle_bind2. intro. apply tle_bind1, Hd.
    Qed.
    Lemma tle_item t : tle (de_item L fm d1 t) (de_item L fm d2 t).
    Proof. apply tle_bind1, Hd. Qed.
    (** [comma_block] goes on after an error but returns the error in the end. *)
    Lemma tle_comma_block t : tle (comma_block L fm d1 t) (comma_block L fm d2 t).
    Proof.
      intros s s' a. unfold comma_block. destruct (d1 t s) as [s1 [x|e|p|]] eqn:E; try discriminate.
      - rewrite (Hd t _ _ _ E). exact (fun H => H).
      - destruct (eat_tcomma L fm s1) as [s2 [x|e2|p|]]; discriminate.
    Qed.
    Lemma tle_list l1 l2 : Forall2 (@tle val) l1 l2 -> tle (de_list l1) (de_list l2).
    Proof. induction 1 as [|p q l1 l2 H _ IH]; [apply tle_refl|]. cbn [de_list]. apply tle_bind; [exact H|]. intro. apply tle_bind1, IH. Qed.
    Lemma tle_bracketed l1 l2 : Forall2 (@tle val) l1 l2 -> tle (de_bracketed L fm l1) (de_bracketed L fm l2).
    Proof. intro H. unfold de_bracketed. apply tle_bind2. intro. apply tle_bind1, tle_list, H. Qed.
    Lemma tle_maps (f1 f2 : ty -> @pm S val) ts : (forall t, tle (f1 t) (f2 t)) -> Forall2 (@tle val) (map f1 ts) (map f2 ts).
    Proof. intro H. induction ts; cbn [map]; constructor; auto. Qed.
    Lemma tle_field f : tle (de_field d1 f) (de_field d2 f).
    Proof. unfold de_field. destruct (f_isopt f && f_hasproxy f); [apply tle_map, Hd | apply Hd]. Qed.
    Lemma tle_named_body fs acc : tle (named_body L fm d1 n fs acc) (named_body L fm d2 n fs acc).
    Proof.
      unfold named_body. apply tle_bind1. intro s. destruct (find_field (key_of L fm s) fs 0) as [[i f]|].
      - apply (tle_bind2 (p_next_colon L)). intro. apply tle_bind1, tle_field.
      - exact (fun s' a Q => Q).
    Qed.
    Lemma tle_named dflt fs : tle (de_named L fm d1 n dflt fs) (de_named L fm d2 n dflt fs).
    Proof. unfold de_named. apply tle_bind2. intro. apply tle_bind1. apply tle_while. apply tle_named_body. Qed.
    Lemma tle_body tag b : tle (de_body L fm d1 n tag b) (de_body L fm d2 n tag b).
    Proof.
      destruct b as [|ts|fs]; cbn [de_body]; [apply tle_refl | |].
      - apply tle_map, tle_bracketed, tle_maps. exact tle_item.
      - apply tle_map, tle_named.
    Qed.
    Lemma find_more p vs more : forall i r, find_variant p vs i = Some r -> find_variant p (vs ++ more) i = Some r.
    Proof. induction vs as [|v vs IH]; intros i r E; [discriminate|]. cbn in *. destruct (p v); [exact E|]. apply IH, E. Qed.
    Lemma exists_more {A} (p : A -> bool) vs more : existsb p vs = true -> existsb p (vs ++ more) = true.
    Proof. intro H. rewrite existsb_app, H. reflexivity. Qed.
    Lemma tle_enum_json vs more : tle (de_enum_json L fm d1 n vs) (de_enum_json L fm d2 n (vs ++ more)).
    Proof.
      intro s. unfold de_enum_json. destruct (tok_is (l_tok L s) KCurlyOpen) eqn:E1; cbn [andb].
      - destruct (existsb (fun v => negb (is_unit v)) vs) eqn:E2.
        + rewrite (exists_more _ _ _ E2). apply (tle_bind2 (expect L KCurlyOpen (chars "{"))). intro. apply tle_bind2. intro. apply tle_bind2. intros _ s1.
          match goal with |- context [find_variant ?p vs 0] => destruct (find_variant p vs 0) as [[i v]|] eqn:Ef end; [|let Q := fresh in intros ? ? Q; discriminate Q].
          rewrite (find_more _ _ more _ _ Ef). apply tle_bind1. apply tle_body.
        + assert (Es : tok_is (l_tok L s) KStr = false) by (destruct (l_tok L s); try reflexivity; discriminate). rewrite Es. cbn [andb]. let Q := fresh in intros ? ? Q; discriminate Q.
      - destruct (tok_is (l_tok L s) KStr); cbn [andb]; [|exact (fun s' a Q => Q)].
        destruct (existsb is_unit vs) eqn:E2; [|let Q := fresh in intros ? ? Q; discriminate Q]. rewrite (exists_more _ _ _ E2).
        apply (tle_bind2 (expect L KStr (chars "String"))). intros _ s1.
        match goal with |- context [find_variant ?p vs 0] => destruct (find_variant p vs 0) as [[i v]|] eqn:Ef end; [|let Q := fresh in intros ? ? Q; discriminate Q].
        rewrite (find_more _ _ more _ _ Ef). exact (fun s' a Q => Q).
    Qed.
    Lemma tle_enum_ron vs more : tle (de_enum_ron L fm d1 n vs) (de_enum_ron L fm d2 n (vs ++ more)).
    Proof.
      unfold de_enum_ron. apply tle_bind2. intros _ s1.
      match goal with |- context [find_variant ?p vs 0] => destruct (find_variant p vs 0) as [[i v]|] eqn:Ef end; [|let Q := fresh in intros ? ? Q; discriminate Q].
      rewrite (find_more _ _ more _ _ Ef). apply tle_body.
    Qed.
    Lemma tle_unnamed tr fs : tle (de_unnamed L fm d1 tr fs) (de_unnamed L fm d2 tr fs).
    Proof.
      assert (Hg : tle (de_bracketed L fm (map (fun f => de_item L fm d1 (f_ty f)) fs))
                       (de_bracketed L fm (map (fun f => de_item L fm d2 (f_ty f)) fs))).
      { apply tle_bracketed. rewrite <- (map_map f_ty (de_item L fm d1)), <- (map_map f_ty (de_item L fm d2)).
        apply tle_maps. exact tle_item. }
      assert (H1 : forall f, tle (de_bracketed L fm [d1 (f_ty f)]) (de_bracketed L fm [d2 (f_ty f)])).
      { intro f. apply tle_bracketed. constructor; [apply Hd | constructor]. }
      unfold de_unnamed. destruct fm; [|exact Hg].
      destruct fs as [|f [|]]; [apply tle_refl | | exact Hg].
      destruct tr; [apply tle_map, Hd|]. apply H1.
    Qed.
  End Helpers.

  Variables G G' : env.
  Hypothesis HG : env_grown G G'.
  Lemma de_text_grown : forall n t, tle (de_text L F c G fm n t) (de_text L F c G' fm n t).
  Proof.
    induction n as [|n IH]; intro t; [intros s s' a H; discriminate|].
    destruct t as [k| | | | | |t|k t|k tk tv|m t|ts|t| | |p t|i]; cbn [de_text]; try apply tle_refl.
    - apply tle_opt, IH.
    - apply (tle_map VSeq), tle_seq, IH.
    - apply (tle_map VMap), tle_mapk, IH.
    - apply tle_map, tle_bracketed. induction m; cbn [repeat]; constructor; auto. apply tle_item, IH.
    - destruct (tuple_arity (length ts)); [|apply tle_refl]. apply tle_map, tle_bracketed, tle_maps. apply tle_comma_block, IH.
    - apply IH.
    - destruct fm; [apply tle_map, IH | apply tle_refl].
    - destruct (nth_error G i) as [d|] eqn:E; [|apply tle_fail].
      destruct (HG i d E) as (d' & E' & Hd). rewrite E'.
      destruct d as [df cn fs|tr fs|vs|p t]; cbn [grown] in Hd.
      + subst d'. apply tle_map, tle_named, IH.
      + subst d'. destruct (existsb f_hasproxy fs); [apply tle_refl|].
        pose proof (tle_unnamed _ _ IH tr fs) as Hu. destruct fm, fs; try apply tle_refl; apply (tle_map VSeq); exact Hu.
      + destruct Hd as [more ->]. pose proof (tle_enum_json _ _ IH n vs more) as H1. pose proof (tle_enum_ron _ _ IH n vs more) as H2. destruct fm; assumption.
      + subst d'. destruct fm; [apply tle_map, IH | apply tle_refl].
  Qed.
End TextDe.
