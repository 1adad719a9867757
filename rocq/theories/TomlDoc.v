(** What the TOML reader makes of the documents of SpecToml.v. *)
From Verif Require Import Base Utf8 Types Text TextModel TextToks TextLex SpecText SpecGram TextGram TomlModel SpecToml TomlRead.
Local Open Scope N_scope.

(** ** Maps *)
Definition kcmp := list_cmp N.compare.
Lemma kcmp_eq a b : kcmp a b = Eq <-> a = b.
Proof. apply list_cmp_eq. apply Forall_forall. intros. apply N.compare_eq_iff. Qed.
Lemma kcmp_opp a b : kcmp b a = CompOpp (kcmp a b).
Proof. apply list_cmp_opp. apply Forall_forall. intros. apply N.compare_antisym. Qed.
Lemma kcmp_trans a b c : kcmp a b = Lt -> kcmp b c = Lt -> kcmp a c = Lt.
Proof.
  apply list_cmp_trans; [intros; apply N.compare_eq_iff; assumption|].
  apply Forall_forall. intros x _ y z. rewrite !N.compare_lt_iff. lia.
Qed.
Lemma kcmp_refl a : kcmp a a = Eq.
Proof. apply kcmp_eq. reflexivity. Qed.
Lemma get_insert {A} k k' (v : A) m : t_get k (t_insert k' v m) = if str_eqb k k' then Some v else t_get k m.
Proof.
  induction m as [|[k1 v1] m IH]; cbn [t_insert t_get]; [reflexivity|]. fold kcmp. destruct (kcmp k' k1) eqn:E; cbn [t_get].
  - apply kcmp_eq in E. subst k1. destruct (str_eqb k k'); reflexivity.
  - reflexivity.
  - rewrite IH. destruct (str_eqb k k1) eqn:E1; [|reflexivity]. apply str_eqb_eq in E1. subst k1.
    destruct (str_eqb k k') eqn:E2; [|reflexivity]. apply str_eqb_eq in E2. subst k'. rewrite kcmp_refl in E. discriminate.
Qed.
Lemma insert_above (P : str -> Prop) k v (m : tmap) : P k -> Forall (fun e => P (fst e)) m -> Forall (fun e => P (fst e)) (t_insert k v m).
Proof.
  intros Hk H. induction H as [|[k1 v1] m H1 H IH]; cbn [t_insert]; [auto|].
  destruct (list_cmp N.compare k k1); constructor; auto.
Qed.
Lemma insert_sorted k v (m : tmap) : sorted m -> sorted (t_insert k v m).
Proof.
  induction m as [|[k1 v1] m IH]; cbn [t_insert sorted]; [auto|]. intros [H1 H2]. fold kcmp in *. destruct (kcmp k k1) eqn:E; cbn [sorted].
  - auto.
  - split; [|auto]. constructor; [exact E|]. eapply Forall_impl; [|exact H1]. cbn. intros. eapply kcmp_trans; eassumption.
  - split; [|auto]. apply insert_above with (P := fun y => kcmp k1 y = Lt); [|exact H1]. rewrite kcmp_opp, E. reflexivity.
Qed.
Lemma get_above k (m : tmap) : Forall (fun e => kcmp k (fst e) = Lt) m -> t_get k m = None.
Proof.
  induction 1 as [|[k1 v1] m H1 H IH]; [reflexivity|]. cbn [t_get]. rewrite (proj2 (str_eqb_neq k k1)); [exact IH|]. intros ->. cbn [fst] in H1. rewrite kcmp_refl in H1. discriminate.
Qed.
(** A sorted map is given by its entries. *)
Lemma sorted_ext (m1 : tmap) : forall m2, sorted m1 -> sorted m2 -> (forall k, t_get k m1 = t_get k m2) -> m1 = m2.
Proof.
  induction m1 as [|[k1 v1] m1 IH]; intros m2 S1 S2 H.
  - destruct m2 as [|[k2 v2] m2]; [reflexivity|]. specialize (H k2). cbn [t_get] in H. rewrite str_eqb_refl in H. discriminate.
  - destruct m2 as [|[k2 v2] m2]; [specialize (H k1); cbn [t_get] in H; rewrite str_eqb_refl in H; discriminate|].
    destruct S1 as [A1 S1], S2 as [A2 S2]. fold kcmp in *.
    assert (E : k1 = k2).
    { destruct (kcmp k1 k2) eqn:C; [apply kcmp_eq; exact C| |]; exfalso.
      - assert (X : t_get k1 ((k2, v2) :: m2) = None).
        { apply get_above. constructor; [exact C|]. eapply Forall_impl; [|exact A2]. cbn. intros. eapply kcmp_trans; eassumption. }
        rewrite <- H in X. cbn [t_get] in X. rewrite str_eqb_refl in X. discriminate.
      - assert (C' : kcmp k2 k1 = Lt) by (rewrite kcmp_opp, C; reflexivity).
        assert (X : t_get k2 ((k1, v1) :: m1) = None).
        { apply get_above. constructor; [exact C'|]. eapply Forall_impl; [|exact A1]. cbn. intros. eapply kcmp_trans; eassumption. }
        rewrite H in X. cbn [t_get] in X. rewrite str_eqb_refl in X. discriminate. }
    subst k2. assert (Ev : v1 = v2) by (specialize (H k1); cbn [t_get] in H; rewrite str_eqb_refl in H; congruence). subst v2. f_equal.
    apply IH; [exact S1 | exact S2|]. intro k. destruct (str_eqb k k1) eqn:E.
    + apply str_eqb_eq in E. subst k. rewrite !get_above by assumption. reflexivity.
    + specialize (H k). cbn [t_get] in H. rewrite E in H. exact H.
Qed.

(** ** Assignments *)
Lemma last_snoc l k v k' v' : last_value (l ++ [(k', v')]) k v <-> (k = k' /\ v = v') \/ (k <> k' /\ last_value l k v).
Proof.
  unfold last_value. split.
  - intros (a & b & E & H). destruct b as [|[k2 v2] b _] using rev_ind.
    + apply app_inj_tail in E as [-> E]. inversion E. auto.
    + rewrite app_comm_cons, app_assoc in E. apply app_inj_tail in E as [-> E]. inversion E; subst. right.
      rewrite map_app, in_app_iff in H. cbn [map fst In] in H. split; [intros ->; tauto|]. exists a, b. tauto.
  - intros [[-> ->]|[Hk (a & b & -> & H)]].
    + exists l, []. auto.
    + exists a, (b ++ [(k', v')]). rewrite <- app_assoc. split; [reflexivity|]. rewrite map_app, in_app_iff. cbn [map fst In]. intros [X|[X|[]]]; congruence.
Qed.
Lemma last_in l k v : last_value l k v -> In (k, v) l.
Proof. intros (a & b & -> & _). apply in_app_iff. right. left. reflexivity. Qed.
Lemma in_last l k : In k (map fst l) -> exists v, last_value l k v.
Proof.
  induction l as [|[k1 v1] l IH] using rev_ind; [intros []|]. rewrite map_app, in_app_iff. cbn [map fst In]. intros H.
  destruct (str_eqb k k1) eqn:E.
  - apply str_eqb_eq in E. subst. exists v1. apply last_snoc. auto.
  - apply str_eqb_neq in E. destruct H as [H|[H|[]]]; [|congruence]. destruct (IH H) as [v Hv]. exists v. apply last_snoc. auto.
Qed.
Lemma last_fun l k v v' : last_value l k v -> last_value l k v' -> v = v'.
Proof.
  induction l as [|[k1 v1] l IH] using rev_ind; [intros (a & b & E & _); destruct a; discriminate|].
  rewrite !last_snoc. intros [[-> ->]|[H1 H2]] [[? ?]|[H3 H4]]; try congruence. auto.
Qed.
Lemma holds_insert l m k v : holds l m -> holds (l ++ [(k, v)]) (t_insert k v m).
Proof.
  intros H k1 v1. rewrite get_insert, last_snoc. destruct (str_eqb k1 k) eqn:E.
  - apply str_eqb_eq in E. subst. split; [intro X; inversion X; auto | intros [[_ ->]|[X _]]; congruence].
  - apply str_eqb_neq in E. rewrite (H k1 v1). tauto.
Qed.

(** ** Documents as sequences of steps *)
Section Run.
  Variable F : flt. Variable show : N -> str.
  (** The reader's effect, entry by entry. *)
  Fixpoint run (es : list entry) (scope : str) (o : out) : res qerr tmap :=
    match es with
    | [] => Ok (o_map o)
    | ETable k :: r => run r k o
    | ETables k :: r =>
      match start_array k o with
      | Ok o' => run r [] o'
      | Err e => Err e
      | Panic p => Panic p
      | NoFuel => NoFuel
      end
    | ESet k v :: r =>
      match o_check o with
      | Some p => Panic p
      | None => run r scope (o_insert (full_key scope k) v o)
      end
    end.
  Lemma blanks_term s b r : blanks s -> q_term b = true -> q_term (cur (s ++ b :: r)) = true.
  Proof. intros H Hb. destruct H as [|x s [-> | ->] H]; [exact Hb | reflexivity | reflexivity]. Qed.
  Lemma line_end n scope o l ln r : reads F l QEof r -> exists ln', q_line_ F show n scope o {| q_inp := l; q_ln := ln |} = ({| q_inp := r; q_ln := ln' |}, Ok None).
  Proof. intro H. unfold q_line_. destruct (next_reads F l QEof r ln H) as [ln' E]. exists ln'. unfold qbind. rewrite E. reflexivity. Qed.
  Lemma line_set scope o l t k kk l1 l2 v r : reads F l t l1 -> ktok show t k kk -> reads F l1 QEq l2 -> vreads F l2 v r ->
    match o_check o with
    | Some p => exists N, forall n, (N <= n)%nat -> forall ln, exists s', q_line_ F show n scope o {| q_inp := l; q_ln := ln |} = (s', Panic p)
    | None => exists N, forall n, (N <= n)%nat -> forall ln, exists ln',
        q_line_ F show n scope o {| q_inp := l; q_ln := ln |} = ({| q_inp := r; q_ln := ln' |}, Ok (Some (scope, o_insert (full_key scope k) v o)))
    end.
  Proof.
    intros H1 [Hk Hkk] H2 (t2 & l3 & H3 & _ & [N HN]).
    assert (Et : forall n, exists f, forall s, q_line_ F show n scope o s = f s) by eauto. clear Et.
    assert (El : forall n ln, exists ln', q_line_ F show n scope o {| q_inp := l; q_ln := ln |} =
      qbind (q_key_value F n scope k o) (fun o' => qret (Some (scope, o'))) {| q_inp := l1; q_ln := ln' |}).
    { intros n ln. unfold q_line_. destruct (next_reads F l t l1 ln H1) as [ln' E]. exists ln'. unfold qbind at 1. rewrite E. rewrite <- Hk.
      destruct kk; [subst t; reflexivity| |subst t; reflexivity]. destruct t; try contradiction; reflexivity. }
    destruct (o_check o) as [p|] eqn:Ec.
    - exists O. intros n _ ln. destruct (El n ln) as [ln' E]. eexists. rewrite E. unfold qbind, q_key_value. rewrite Ec. reflexivity.
    - exists N. intros n Hn ln. destruct (El n ln) as [ln1 E]. rewrite E. unfold q_key_value. rewrite Ec.
      destruct (next_reads F l1 QEq l2 ln1 H2) as [ln2 E2]. destruct (next_reads F l2 t2 l3 ln2 H3) as [ln3 E3]. destruct (HN n Hn ln3) as [ln4 E4].
      exists ln4. unfold qbind. rewrite E2, E3, E4. reflexivity.
  Qed.
  Lemma line_table n scope o l t k kk l1 l2 r ln : reads F l QOpen l1 -> reads F l1 t l2 -> ktok show t k kk -> kk <> NumberLike -> reads F l2 QClose r ->
    exists ln', q_line_ F show n scope o {| q_inp := l; q_ln := ln |} = ({| q_inp := r; q_ln := ln' |}, Ok (Some (k, o))).
  Proof.
    intros H1 H2 [_ Hk] Hkk H3. unfold q_line_, q_close.
    destruct (next_reads F l _ l1 ln H1) as [ln1 E1]. destruct (next_reads F l1 _ l2 ln1 H2) as [ln2 E2]. destruct (next_reads F l2 _ r ln2 H3) as [ln3 E3].
    exists ln3. unfold qbind. rewrite E1, E2. destruct kk; [|congruence|]; subst t; rewrite E3; reflexivity.
  Qed.
  Lemma close_reads l r ln : reads F l QClose r -> exists ln', q_close F {| q_inp := l; q_ln := ln |} = ({| q_inp := r; q_ln := ln' |}, Ok tt).
  Proof. intro H. destruct (next_reads F l _ r ln H) as [ln' E]. exists ln'. unfold q_close, qbind. rewrite E. reflexivity. Qed.
  Lemma line_tables n scope o l t k kk l1 l2 l3 l4 r ln : reads F l QOpen l1 -> reads F l1 QOpen l2 -> reads F l2 t l3 -> ktok show t k kk -> kk <> Quoted ->
    reads F l3 QClose l4 -> reads F l4 QClose r ->
    exists ln', q_line_ F show n scope o {| q_inp := l; q_ln := ln |} = ({| q_inp := r; q_ln := ln' |},
      match start_array k o with Ok o' => Ok (Some ([], o')) | Err e => Err e | Panic p => Panic p | NoFuel => NoFuel end).
  Proof.
    intros H1 H2 H3 [Ht Hk] Hkk H4 H5. unfold q_line_.
    destruct (next_reads F l _ l1 ln H1) as [ln1 E1]. destruct (next_reads F l1 _ l2 ln1 H2) as [ln2 E2]. destruct (next_reads F l2 _ l3 ln2 H3) as [ln3 E3].
    destruct (close_reads l3 l4 ln3 H4) as [ln4 E4]. destruct (close_reads l4 r ln4 H5) as [ln5 E5].
    exists ln5. unfold qbind. rewrite E1, E2, E3. subst k.
    destruct kk; [| |congruence]; (destruct t; try contradiction; try discriminate Hk); rewrite E4, E5;
      match goal with |- context [start_array ?a o] => destruct (start_array a o) end; reflexivity.
  Qed.
  Lemma doc_run es text : tdoc F es text -> forall scope o, exists N, forall n, (N <= n)%nat -> forall ln,
    snd (q_lines F show n scope o {| q_inp := text; q_ln := ln |}) = run es scope o.
  Proof.
    induction 1 as [g Hg|g body Hg Hb|g kt k kk a b x v e r es Hg Hk Ha Hb Hx Hf Hd IH|g kt k kk a b r es Hg Ha Hk Hkk Hb Hd IH|g kt k kk a b r es Hg Ha Hk Hkk Hb Hd IH];
      intros scope o.
    - assert (R : reads F g QEof []). { pose proof (reads_gap F g [] QEof [] Hg (reads_eof F)) as X. rewrite app_nil_r in X. exact X. }
      exists 1%nat. intros [|n] Hn ln; [lia|]. cbn [q_lines]. destruct (line_end n scope o g ln [] R) as [ln' E]. unfold qbind. rewrite E. reflexivity.
    - assert (R : reads F (35 :: body) QEof []).
      { intros n Hn. destruct n as [|n]; [lia|]. rewrite <- (app_nil_r body). rewrite scan_comment by auto. destruct n; [cbn [length] in Hn; lia|]. reflexivity. }
      pose proof (reads_gap F g _ _ _ Hg R) as R'.
      exists 1%nat. intros [|n] Hn ln; [lia|]. cbn [q_lines]. destruct (line_end n scope o _ ln [] R') as [ln' E]. unfold qbind. rewrite E. reflexivity.
    - destruct (key_reads F show kt k kk (a ++ 61 :: b ++ x ++ r) Hk ltac:(right; apply blanks_term; [exact Ha|reflexivity])) as (t & Ht & Hkt).
      assert (R2 : reads F (a ++ 61 :: b ++ x ++ r) QEq (b ++ x ++ r)) by (apply reads_gap; [apply blanks_gap; exact Ha | apply reads_punct; auto 6]).
      pose proof (proj1 (value_reads F) x v e Hx r Hf) as Hv.
      pose proof (vreads_gap F b _ v _ (blanks_gap b Hb) Hv) as Hv'.
      pose proof (line_set scope o _ t k kk _ _ v r (reads_gap F g _ _ _ Hg Ht) Hkt R2 Hv') as L. cbn [run].
      destruct (o_check o) as [p|].
      + destruct L as [N HN]. exists (S N). intros [|n] Hn ln; [lia|]. cbn [q_lines]. destruct (HN n ltac:(lia) ln) as [s' E]. unfold qbind. rewrite E. reflexivity.
      + destruct L as [N HN]. destruct (IH scope (o_insert (full_key scope k) v o)) as [M HM]. exists (S (N + M)). intros [|n] Hn ln; [lia|]. cbn [q_lines].
        destruct (HN n ltac:(lia) ln) as [ln' E]. unfold qbind. rewrite E. apply HM. lia.
    - destruct (key_reads F show kt k kk (b ++ 93 :: r) Hk ltac:(right; apply blanks_term; [exact Hb|reflexivity])) as (t & Ht & Hkt).
      assert (R1 : reads F (g ++ 91 :: a ++ kt ++ b ++ 93 :: r) QOpen (a ++ kt ++ b ++ 93 :: r)) by (apply reads_gap; [exact Hg | apply reads_punct; auto]).
      pose proof (reads_gap F a _ _ _ (blanks_gap a Ha) Ht) as R2.
      assert (R3 : reads F (b ++ 93 :: r) QClose r) by (apply reads_gap; [apply blanks_gap; exact Hb | apply reads_punct; auto]).
      destruct (IH k o) as [M HM]. exists (S M). intros [|n] Hn ln; [lia|]. cbn [q_lines run].
      destruct (line_table n scope o _ t k kk _ _ r ln R1 R2 Hkt Hkk R3) as [ln' E]. unfold qbind. rewrite E. apply HM. lia.
    - destruct (key_reads F show kt k kk (b ++ 93 :: 93 :: r) Hk ltac:(right; apply blanks_term; [exact Hb|reflexivity])) as (t & Ht & Hkt).
      assert (R1 : reads F (g ++ 91 :: 91 :: a ++ kt ++ b ++ 93 :: 93 :: r) QOpen (91 :: a ++ kt ++ b ++ 93 :: 93 :: r)) by (apply reads_gap; [exact Hg | apply reads_punct; auto]).
      assert (R1' : reads F (91 :: a ++ kt ++ b ++ 93 :: 93 :: r) QOpen (a ++ kt ++ b ++ 93 :: 93 :: r)) by (apply reads_punct; auto).
      pose proof (reads_gap F a _ _ _ (blanks_gap a Ha) Ht) as R2.
      assert (R3 : reads F (b ++ 93 :: 93 :: r) QClose (93 :: r)) by (apply reads_gap; [apply blanks_gap; exact Hb | apply reads_punct; auto]).
      assert (R4 : reads F (93 :: r) QClose r) by (apply reads_punct; auto).
      cbn [run]. pose proof (fun n ln => line_tables n scope o _ t k kk _ _ _ _ r ln R1 R1' R2 Hkt Hkk R3 R4) as L.
      destruct (start_array k o) as [o'|e|p|].
      + destruct (IH [] o') as [M HM]. exists (S M). intros [|n] Hn ln; [lia|]. cbn [q_lines].
        destruct (L n ln) as [ln' E]. unfold qbind. rewrite E. apply HM. lia.
      + exists 1%nat. intros [|n] Hn ln; [lia|]. cbn [q_lines]. destruct (L n ln) as [ln' E]. unfold qbind. rewrite E. reflexivity.
      + exists 1%nat. intros [|n] Hn ln; [lia|]. cbn [q_lines]. destruct (L n ln) as [ln' E]. unfold qbind. rewrite E. reflexivity.
      + exists 1%nat. intros [|n] Hn ln; [lia|]. cbn [q_lines]. destruct (L n ln) as [ln' E]. unfold qbind. rewrite E. reflexivity.
  Qed.
End Run.

(** ** The meaning of the steps *)
Definition is_map (l : list (str * toml)) (x : tmap) : Prop := holds l x /\ sorted x.
Definition st (R : list (str * toml)) (S : list (str * list (str * toml))) (m : tmap) : Prop :=
  sorted m /\ forall k v, t_get k m = Some v <->
    last_value R k v \/ exists ms, v = TVTables ms /\ ms <> [] /\ Forall2 is_map (of_key k S) ms.
Definition not_tables (v : toml) : Prop := match v with TVTables _ => False | _ => True end.
Definition wf_entry (e : entry) : Prop := match e with ESet _ v => not_tables v | _ => True end.
Definition apart (R : list (str * toml)) (S : list (str * list (str * toml))) : Prop := forall k, In k (map fst R) -> In k (map fst S) -> False.

Lemma is_map_nil : is_map [] [].
Proof. split; [|exact I]. intros k v. split; [discriminate|]. intros (a & b & E & _). destruct a; discriminate. Qed.
Lemma is_map_insert l x k v : is_map l x -> is_map (l ++ [(k, v)]) (t_insert k v x).
Proof. intros [H1 H2]. split; [apply holds_insert; exact H1 | apply insert_sorted; exact H2]. Qed.
Lemma is_map_ex l : exists x, is_map l x.
Proof.
  induction l as [|[k v] l [x IH]] using rev_ind; [exists []; apply is_map_nil|]. exists (t_insert k v x). apply is_map_insert. exact IH.
Qed.
Lemma is_map_fun l x y : is_map l x -> is_map l y -> x = y.
Proof.
  intros [H1 S1] [H2 S2]. apply sorted_ext; try assumption. intro k. destruct (t_get k x) as [v|] eqn:E.
  - symmetry. apply H2, H1, E.
  - destruct (t_get k y) as [v|] eqn:E2; [|reflexivity]. apply H2, H1 in E2. congruence.
Qed.
Lemma maps_ex ls : exists ms, Forall2 is_map ls ms.
Proof. induction ls as [|l ls [ms IH]]; [exists []; constructor|]. destruct (is_map_ex l) as [x Hx]. exists (x :: ms). constructor; assumption. Qed.
Lemma maps_fun ls : forall xs ys, Forall2 is_map ls xs -> Forall2 is_map ls ys -> xs = ys.
Proof.
  induction ls as [|l ls IH]; intros xs ys Hx Hy; inversion Hx; inversion Hy; subst; [reflexivity|]. f_equal; [eapply is_map_fun; eassumption | apply IH; assumption].
Qed.
Lemma of_key_app k a b : of_key k (a ++ b) = of_key k a ++ of_key k b.
Proof. unfold of_key. rewrite filter_app, map_app. reflexivity. Qed.
Lemma of_key_one k k' l : of_key k [(k', l)] = if str_eqb k k' then [l] else [].
Proof. unfold of_key. cbn [filter fst]. destruct (str_eqb k k'); reflexivity. Qed.
Lemma of_key_in k S : of_key k S <> [] -> In k (map fst S).
Proof.
  induction S as [|[k1 l] S IH]; [unfold of_key; cbn; congruence|]. unfold of_key in *. cbn [filter fst map In]. destruct (str_eqb k k1) eqn:E.
  - apply str_eqb_eq in E. auto.
  - auto.
Qed.
Lemma in_of_key k S : In k (map fst S) -> of_key k S <> [].
Proof.
  induction S as [|[k1 l] S IH]; [intros []|]. unfold of_key in *. cbn [filter fst map In]. intros [-> |H]; [rewrite str_eqb_refl; discriminate|].
  destruct (str_eqb k k1); [discriminate | auto].
Qed.
Lemma key_dec k (l : list str) : In k l \/ ~ In k l.
Proof. induction l as [|x l IH]; [right; intros []|]. cbn [In]. destruct (str_eqb x k) eqn:E; [apply str_eqb_eq in E; auto | apply str_eqb_neq in E; tauto]. Qed.
Lemma upd_last {A} (f : A -> A) (a : list A) x : upd (length a) f (a ++ [x]) = a ++ [f x].
Proof. induction a as [|y a IH]; [reflexivity|]. cbn [length app upd]. rewrite IH. reflexivity. Qed.

Lemma Forall2_length {A B} (P : A -> B -> Prop) l1 l2 : Forall2 P l1 l2 -> length l1 = length l2.
Proof. induction 1; cbn [length]; congruence. Qed.
Lemma st_get_tables R S m k : st R S m -> In k (map fst S) -> ~ In k (map fst R) -> exists ms, t_get k m = Some (TVTables ms) /\ Forall2 is_map (of_key k S) ms.
Proof.
  intros [_ H] HS HR. destruct (maps_ex (of_key k S)) as [ms Hms]. exists ms. split; [|exact Hms]. apply H. right. exists ms. split; [reflexivity|].
  split; [|exact Hms]. intros ->. inversion Hms. apply in_of_key in HS. congruence.
Qed.
(** The entries after another one was added or replaced. *)
Lemma st_tables R S S' m k ms : st R S m -> ~ In k (map fst R) -> ms <> [] -> Forall2 is_map (of_key k S') ms ->
  (forall k', k' <> k -> of_key k' S' = of_key k' S) -> st R S' (t_insert k (TVTables ms) m).
Proof.
  intros [Hs H] HR Hne Hms Ho. split; [apply insert_sorted; exact Hs|]. intros k1 v. rewrite get_insert. destruct (str_eqb k1 k) eqn:E.
  - apply str_eqb_eq in E. subst k1. split.
    + intro X. inversion X; subst. right. exists ms. auto.
    + intros [X|(ms' & -> & _ & X)].
      * exfalso. apply HR. apply in_map_iff. exists (k, v). split; [reflexivity | apply last_in; exact X].
      * f_equal. f_equal. eapply maps_fun; eassumption.
  - apply str_eqb_neq in E. rewrite (Ho k1 E). apply H.
Qed.
Lemma st_set R m k v : st R [] m -> st (R ++ [(k, v)]) [] (t_insert k v m).
Proof.
  intros [Hs H]. split; [apply insert_sorted; exact Hs|]. intros k1 v1. rewrite get_insert, last_snoc.
  assert (No : ~ exists ms, v1 = TVTables ms /\ ms <> [] /\ Forall2 is_map (of_key k1 []) ms).
  { intros (ms & _ & N & X). unfold of_key in X. cbn in X. destruct ms; [exact (N eq_refl) | inversion X]. }
  specialize (H k1 v1). destruct (str_eqb k1 k) eqn:E.
  - apply str_eqb_eq in E. subst. split; [intro X; inversion X; auto|]. intros [[[_ ->]|[X _]]|X]; [reflexivity | congruence | tauto].
  - apply str_eqb_neq in E. rewrite H. tauto.
Qed.
Lemma st_array R S m k : st R S m -> apart R S -> ~ In k (map fst R) -> forall act,
  exists m', start_array k {| o_map := m; o_active := act |} = Ok {| o_map := m'; o_active := Some (k, length (of_key k S)) |} /\ st R (S ++ [(k, [])]) m'.
Proof.
  intros H Hap HR act. unfold start_array. cbn [o_map].
  assert (Ho : forall k', k' <> k -> of_key k' (S ++ [(k, [])]) = of_key k' S).
  { intros k' Hk. rewrite of_key_app, of_key_one, (proj2 (str_eqb_neq k' k) Hk), app_nil_r. reflexivity. }
  assert (Hk : of_key k (S ++ [(k, [])]) = of_key k S ++ [[]]) by (rewrite of_key_app, of_key_one, str_eqb_refl; reflexivity).
  destruct (key_dec k (map fst S)) as [HS|HS].
  - destruct (st_get_tables R S m k H HS HR) as (ms & E & Hms). rewrite !E. eexists. split; [rewrite (Forall2_length _ _ _ Hms); reflexivity|].
    apply (st_tables R S); [exact H | exact HR | destruct ms; discriminate | | exact Ho]. rewrite Hk. apply Forall2_app; [exact Hms|]. constructor; [apply is_map_nil | constructor].
  - assert (On : of_key k S = []).
    { destruct (of_key k S) eqn:E; [reflexivity|]. exfalso. apply HS, of_key_in. rewrite E. discriminate. }
    assert (E : t_get k m = None).
    { destruct (t_get k m) as [v|] eqn:E; [|reflexivity]. exfalso. apply (proj2 H) in E. destruct E as [E|(ms & _ & N & X)].
      - apply HR. apply in_map_iff. exists (k, v). split; [reflexivity | apply last_in; exact E].
      - rewrite On in X. destruct ms; [exact (N eq_refl) | inversion X]. }
    rewrite E. rewrite get_insert, str_eqb_refl. eexists. split; [rewrite On; reflexivity|].
    assert (Ei : t_insert k (TVTables ([] ++ [[]])) (t_insert k (TVTables []) m) = t_insert k (TVTables [[]]) m).
    { apply sorted_ext; [apply insert_sorted, insert_sorted, (proj1 H) | apply insert_sorted, (proj1 H)|]. intro k1. rewrite !get_insert. destruct (str_eqb k1 k); reflexivity. }
    rewrite Ei. apply (st_tables R S); [exact H | exact HR | discriminate | | exact Ho]. rewrite Hk, On. constructor; [apply is_map_nil | constructor].
Qed.
Lemma array_panics R S m k act : st R S m -> Forall (fun e => not_tables (snd e)) R -> In k (map fst R) ->
  start_array k {| o_map := m; o_active := act |} = Panic PUnreachable.
Proof.
  intros [_ H] HR Hk. destruct (in_last R k Hk) as [v Hv]. assert (E : t_get k m = Some v) by (apply H; auto).
  rewrite Forall_forall in HR. pose proof (HR _ (last_in R k v Hv)) as N. cbn [snd] in N.
  unfold start_array. cbn [o_map]. rewrite !E. destruct v; [reflexivity..|contradiction|reflexivity].
Qed.

Section Meaning.
  Lemma run_in es : forall scope R S k l m, Forall wf_entry es -> Forall (fun e => not_tables (snd e)) R -> apart R (S ++ [(k, l)]) -> st R (S ++ [(k, l)]) m ->
    let o := {| o_map := m; o_active := Some (k, length (of_key k S)) |} in
    (~ apart R (sections es) /\ run es scope o = Panic PUnreachable) \/
    (apart R (sections es) /\ exists m', run es scope o = Ok m' /\ st R (S ++ (k, l ++ settings scope es) :: sections es) m').
  Proof.
    induction es as [|e es IH]; intros scope R S k l m Hw HR Hap Hst o; cbn [sections settings run].
    - right. split; [intros x _ []|]. exists m. rewrite app_nil_r. auto.
    - inversion Hw as [|? ? We Hw']; subst. destruct e as [k1|k1|k1 v].
      + apply IH; assumption.
      + rewrite app_nil_r. destruct (key_dec k1 (map fst R)) as [Hk|Hk].
        * left. split; [intro X; apply (X k1 Hk); left; reflexivity|]. unfold o. rewrite (array_panics R _ m k1 _ Hst HR Hk). reflexivity.
        * unfold o. destruct (st_array R _ m k1 Hst Hap Hk (Some (k, length (of_key k S)))) as (m' & E & Hst'). rewrite E.
          assert (Hap' : apart R ((S ++ [(k, l)]) ++ [(k1, [])])).
          { intros x Hx. rewrite map_app, in_app_iff. intros [X|[X|[]]]; [exact (Hap x Hx X)|]. cbn [fst] in X. subst. contradiction. }
          destruct (IH [] R (S ++ [(k, l)]) k1 [] m' Hw' HR Hap' Hst') as [[X1 X2]|[X1 (m2 & X2 & X3)]].
          -- left. split; [|exact X2]. intro X. apply X1. intros x Hx Hx'. apply (X x Hx). right. exact Hx'.
          -- right. split; [intros x Hx [Hx'|Hx']; [cbn [fst] in Hx'; subst; contradiction | exact (X1 x Hx Hx')]|]. exists m2. split; [exact X2|].
             rewrite <- app_assoc in X3. cbn [app] in X3. exact X3.
      + assert (HkR : ~ In k (map fst R)).
        { intro X. apply (Hap k X). rewrite map_app, in_app_iff. right. left. reflexivity. }
        destruct (st_get_tables R _ m k Hst ltac:(rewrite map_app, in_app_iff; right; left; reflexivity) HkR) as (ms & E & Hms).
        rewrite of_key_app, of_key_one, str_eqb_refl in Hms. apply Forall2_app_inv_l in Hms as (a & x & Ha & Hx & ->).
        inversion Hx as [|? y ? ? Hy Hnil]; subst. inversion Hnil; subst. clear Hx Hnil.
        assert (Ec : o_check o = None).
        { unfold o_check, o. cbn [o_active o_map]. rewrite E. rewrite app_length, (Forall2_length _ _ _ Ha). cbn [length].
          destruct (Nat.ltb_spec (length a) (length a + 1)); [reflexivity|lia]. }
        rewrite Ec. unfold o_insert, o. cbn [o_active o_map]. rewrite E. rewrite (Forall2_length _ _ _ Ha), upd_last. rewrite <- (Forall2_length _ _ _ Ha).
        set (fk := full_key scope k1).
        assert (Hst' : st R (S ++ [(k, l ++ [(fk, v)])]) (t_insert k (TVTables (a ++ [t_insert fk v y])) m)).
        { apply (st_tables R (S ++ [(k, l)])); [exact Hst | exact HkR | destruct a; discriminate | |].
          - rewrite of_key_app, of_key_one, str_eqb_refl. apply Forall2_app; [exact Ha|]. constructor; [|constructor]. apply is_map_insert. exact Hy.
          - intros k' Hk'. rewrite !of_key_app, !of_key_one, (proj2 (str_eqb_neq k' k) Hk'). reflexivity. }
        assert (Hap' : apart R (S ++ [(k, l ++ [(fk, v)])])).
        { intros x Hx X. apply (Hap x Hx). rewrite map_app in *. exact X. }
        destruct (IH scope R S k _ _ Hw' HR Hap' Hst') as [X|[X1 (m2 & X2 & X3)]]; [left; exact X|]. right. split; [exact X1|]. exists m2. split; [exact X2|].
        rewrite <- app_assoc in X3. exact X3.
  Qed.
  Lemma run_root es : forall scope R m, Forall wf_entry es -> Forall (fun e => not_tables (snd e)) R -> st R [] m ->
    let o := {| o_map := m; o_active := None |} in
    (~ apart (R ++ settings scope es) (sections es) /\ run es scope o = Panic PUnreachable) \/
    (apart (R ++ settings scope es) (sections es) /\ exists m', run es scope o = Ok m' /\ st (R ++ settings scope es) (sections es) m').
  Proof.
    induction es as [|e es IH]; intros scope R m Hw HR Hst o; cbn [sections settings run].
    - right. rewrite app_nil_r. split; [intros x _ []|]. exists m. auto.
    - inversion Hw as [|? ? We Hw']; subst. destruct e as [k1|k1|k1 v].
      + apply IH; assumption.
      + rewrite app_nil_r. destruct (key_dec k1 (map fst R)) as [Hk|Hk].
        * left. split; [intro X; apply (X k1 Hk); left; reflexivity|]. unfold o. rewrite (array_panics R _ m k1 _ Hst HR Hk). reflexivity.
        * unfold o. destruct (st_array R [] m k1 Hst ltac:(intros x _ []) Hk None) as (m' & E & Hst'). rewrite E.
          assert (Hap' : apart R ([] ++ [(k1, [])])) by (intros x Hx [X|[]]; cbn [fst] in X; subst; contradiction).
          destruct (run_in es [] R [] k1 [] m' Hw' HR Hap' Hst') as [[X1 X2]|[X1 (m2 & X2 & X3)]].
          -- left. split; [|exact X2]. intro X. apply X1. intros x Hx Hx'. apply (X x Hx). right. exact Hx'.
          -- right. split; [intros x Hx [Hx'|Hx']; [cbn [fst] in Hx'; subst; contradiction | exact (X1 x Hx Hx')]|]. exists m2. split; [exact X2 | exact X3].
      + cbn [o_check o_active]. unfold o. cbn [o_check o_active o_insert o_map].
        destruct (IH scope (R ++ [(full_key scope k1, v)]) (t_insert (full_key scope k1) v m) Hw'
                    ltac:(apply Forall_app; split; [exact HR | constructor; [exact We | constructor]]) (st_set R m _ v Hst)) as [X|X];
          rewrite <- app_assoc in X; [left | right]; exact X.
  Qed.
  Lemma run_means es : Forall wf_entry es ->
    (clash es /\ run es [] {| o_map := []; o_active := None |} = Panic PUnreachable) \/
    (~ clash es /\ exists m, run es [] {| o_map := []; o_active := None |} = Ok m /\ means es m).
  Proof.
    intro Hw. assert (H0 : st [] [] []).
    { split; [exact I|]. intros k v. split; [discriminate|]. intros [(a & b & E & _)|(ms & _ & N & X)]; [destruct a; discriminate | unfold of_key in X; cbn in X; destruct ms; [destruct (N eq_refl) | inversion X]]. }
    destruct (run_root es [] [] [] Hw ltac:(constructor) H0) as [[X1 X2]|[X1 X2]]; cbn [app] in *.
    - left. split; [|exact X2].
      assert (D : clash es \/ apart (settings [] es) (sections es)).
      { unfold clash, apart. generalize (map fst (sections es)). intro l2. generalize (map fst (settings [] es)). intro l1. clear.
        induction l1 as [|x l1 [IH|IH]]; [right; intros k []| left; destruct IH as (k & A & B); exists k; split; [right|]; assumption |].
        destruct (key_dec x l2) as [H|H]; [left; exists x; split; [left; reflexivity | exact H]|]. right. intros k [<- |Hk] Hk2; [contradiction | exact (IH k Hk Hk2)]. }
      destruct D as [D|D]; [exact D | contradiction].
    - right. split; [intros (k & A & B); exact (X1 k A B) | exact X2].
  Qed.
End Meaning.
Lemma value_not_tables F x v k : tvalue F x v k -> not_tables v.
Proof. intro H. destruct H; exact I. Qed.
Lemma doc_wf F es text : tdoc F es text -> Forall wf_entry es.
Proof. induction 1; constructor; try assumption; cbn [wf_entry]; try exact I. eapply value_not_tables; eassumption. Qed.
