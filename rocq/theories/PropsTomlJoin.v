(** C81: TOML documents can be joined, and the order of entries with different keys is
    irrelevant. *)
From Coq Require Import Permutation.
From Verif Require Import Base Utf8 Types Text TextModel SpecText SpecGram TomlModel SpecToml TomlRead TomlDoc TomlTerm SpecTomlAcc TomlAcc PropsToml PropsTomlAcc SpecTomlErr TomlErr PropsTomlErr SpecTomlJoin.
Local Open Scope N_scope.

(** ** Assignments *)
Lemma last_app l1 l2 k v : last_value (l1 ++ l2) k v <-> last_value l2 k v \/ (~ In k (map fst l2) /\ last_value l1 k v).
Proof.
  induction l2 as [|[k' v'] l2 IH] using rev_ind.
  - rewrite app_nil_r. split; [intro H; right; split; [intros [] | exact H]|]. intros [(a & b & E & _)|[_ H]]; [destruct a; discriminate | exact H].
  - rewrite app_assoc, !last_snoc, IH, map_app, in_app_iff. cbn [map fst In]. split.
    + intros [H|[N [H|[H1 H2]]]]; [left; left; exact H | left; right; auto|]. right. split; [|exact H2]. intros [H|[H|[]]]; congruence.
    + intros [[H|[N H]]|[N H]]; [left; exact H | right; auto|]. right. split; [intro E; apply N; right; left; congruence|]. right. split; [intro Q; apply N; left; exact Q | exact H].
Qed.
Lemma last_once l k v : NoDup (map fst l) -> (last_value l k v <-> In (k, v) l).
Proof.
  intro H. split; [apply last_in|]. intro Hi. apply in_split in Hi as (a & b & ->). exists a, b. split; [reflexivity|].
  rewrite map_app in H. cbn [map fst] in H. apply NoDup_remove_2 in H. intro Q. apply H. apply in_or_app. right. exact Q.
Qed.
(** Assignments to different keys may change places. *)
Lemma perm_values l l' : NoDup (map fst l) -> Permutation l l' -> same_values l l'.
Proof.
  intros H P k v. rewrite (last_once l k v H). assert (H' : NoDup (map fst l')) by (eapply Permutation_NoDup; [apply Permutation_map; exact P | exact H]).
  rewrite (last_once l' k v H'). split; intro Q; [eapply Permutation_in; [exact P | exact Q] | eapply Permutation_in; [apply Permutation_sym; exact P | exact Q]].
Qed.
Lemma same_refl l : same_values l l. Proof. intros k v. reflexivity. Qed.
Lemma same_sym l l' : same_values l l' -> same_values l' l. Proof. intros H k v. symmetry. apply H. Qed.
Lemma same_swap a b c d k v k' v' : k <> k' -> a = c -> b = d -> same_values (a ++ (k, v) :: (k', v') :: b) (c ++ (k', v') :: (k, v) :: d).
Proof.
  intros N <- <- j w. change (a ++ (k, v) :: (k', v') :: b) with (a ++ [(k, v); (k', v')] ++ b). change (a ++ (k', v') :: (k, v) :: b) with (a ++ [(k', v'); (k, v)] ++ b).
  assert (P : same_values [(k, v); (k', v')] [(k', v'); (k, v)]).
  { apply perm_values; [|apply perm_swap]. cbn. constructor; [intros [E|[]]; congruence|]. constructor; [intros [] | constructor]. }
  rewrite !last_app, !map_app, !in_app_iff, (P j w). cbn [map fst In]. tauto.
Qed.
(** A value that is overwritten later is of no account. *)
Lemma same_drop a k v b : In k (map fst b) -> same_values (a ++ (k, v) :: b) (a ++ b).
Proof.
  intros Hi j w. change (a ++ (k, v) :: b) with (a ++ [(k, v)] ++ b). rewrite !last_app, !map_app, !in_app_iff. cbn [map fst In]. split.
  - intros [[H|[N (x & y & E & _)]]|[N H]]; [left; exact H| |right; tauto]. exfalso. apply N. destruct x as [|p x]; cbn in E; [congruence|]. destruct x; discriminate.
  - intros [H|[N H]]; [left; left; exact H|]. right. split; [|exact H]. intros [[E|[]]|Q]; [subst; contradiction | contradiction].
Qed.
Lemma holds_same l l' m : same_values l l' -> holds l m -> holds l' m.
Proof. intros H Hm k v. rewrite (Hm k v). apply H. Qed.
Lemma keys_same l l' k : same_values l l' -> In k (map fst l) -> In k (map fst l').
Proof. intros H Hi. apply in_last in Hi as [v Hv]. apply H in Hv. apply last_in in Hv. apply (in_map fst) in Hv. exact Hv. Qed.
Lemma of_key_in k (l : list (str * list (str * toml))) : In k (map fst l) <-> of_key k l <> [].
Proof.
  unfold of_key. induction l as [|[j x] l IH]; cbn [map fst In filter]; [tauto|]. destruct (str_eqb k j) eqn:E.
  - apply str_eqb_eq in E. subst. cbn [map]. split; [discriminate | auto].
  - apply str_eqb_neq in E. rewrite <- IH. split; [intros [Q|Q]; [congruence | exact Q] | auto].
Qed.
Lemma f2_sym {A} (R : A -> A -> Prop) l l' : (forall a b, R a b -> R b a) -> Forall2 R l l' -> Forall2 R l' l.
Proof. intros H F. induction F; constructor; auto. Qed.
Lemma alike_sym es es' : alike es es' -> alike es' es.
Proof. intros [H1 H2]. split; [apply same_sym, H1|]. intro k. apply f2_sym; [apply same_sym | apply H2]. Qed.
Lemma clash_alike es es' : alike es es' -> clash es -> clash es'.
Proof.
  intros [H1 H2] (k & A & B). exists k. split; [exact (keys_same _ _ k H1 A)|]. apply of_key_in in B. apply of_key_in. intro E. apply B. specialize (H2 k). rewrite E in H2. inversion H2. reflexivity.
Qed.
Lemma means_alike es es' m : alike es es' -> means es m -> means es' m.
Proof.
  intros [H1 H2] [Hs Hm]. split; [exact Hs|]. intros k v. rewrite (Hm k v), (H1 k v).
  assert (Q : forall l l' ms, Forall2 same_values l l' -> Forall2 (fun l x => holds l x /\ sorted x) l ms -> Forall2 (fun l x => holds l x /\ sorted x) l' ms).
  { intros l l' ms H. revert ms. induction H as [|a b l l' Ha Hl IH]; intros ms H'; inversion H' as [|? x ? ms' [A B] Hr]; subst; constructor; auto. split; [eapply holds_same; eassumption | exact B]. }
  split; (intros [H|(ms & A & B & C)]; [left; exact H|]; right; exists ms; split; [exact A|]; split; [exact B|]).
  - exact (Q _ _ _ (H2 k) C).
  - exact (Q _ _ _ (f2_sym _ _ _ same_sym (H2 k)) C).
Qed.

(** ** Joining *)
(** The table header in force after some entries. *)
Fixpoint scope_after (sc : str) (es : list entry) : str :=
  match es with [] => sc | ETable k :: r => scope_after k r | ETables _ :: r => scope_after [] r | ESet _ _ :: r => scope_after sc r end.
Lemma settings_app es es' : no_tables es -> forall sc, settings sc (es ++ es') = settings sc es ++ settings (scope_after sc es) es'.
Proof.
  induction 1 as [|e es He Hn IH]; intro sc; [reflexivity|]. destruct e; [| contradiction |]; cbn [app settings scope_after]; rewrite IH; reflexivity.
Qed.
Lemma fresh_settings es es' : fresh es es' -> settings (scope_after [] es) es' = settings [] es'.
Proof.
  intros [H|[->|(k & r & [-> | ->])]]; try reflexivity. assert (E : forall sc, scope_after sc es = sc).
  { induction es as [|e es IH]; intro sc; [reflexivity|]. destruct (H e (or_introl eq_refl)) as (k & v & ->). cbn [scope_after]. apply IH. intros e Hi. apply H. right. exact Hi. }
  rewrite E. reflexivity.
Qed.

Section C81.
  Variable F : flt.           (* the standard library's [parse::<f64>] and [as f64] *)
  Variable show : N -> str.   (* ... and [f64::to_string] *)
  (** Documents that assign the same values are read the same - as the same map, or
      with the same panic -, whatever the order, the tables and the spelling. *)
  Theorem C81_order text text' es es' : toml_text F show text es -> toml_text F show text' es' -> alike es es' -> toml_parse F show text = toml_parse F show text'.
  Proof.
    intros H H' Ha. pose proof H as (l & r & He & _). pose proof H' as (l' & r' & He' & _). destruct (run_means es (entries_wf F show _ _ _ He)) as [[Hc _]|[Hc (m & _ & Hm)]].
    - rewrite (proj2 (C73_panics F show text PUnreachable)), (proj2 (C73_panics F show text' PUnreachable)); try reflexivity; (split; [reflexivity|]); [exists es', l' | exists es, l]; split; auto.
      exact (clash_alike _ _ Ha Hc).
    - rewrite (proj2 (C73_accepted F show text m)), (proj2 (C73_accepted F show text' m)); try reflexivity; [exists es' | exists es]; split; auto.
      split; [intro C; exact (Hc (clash_alike _ _ (alike_sym _ _ Ha) C)) | exact (means_alike _ _ _ Ha Hm)].
  Qed.
  (** In particular, if no key is assigned twice, the assignments - with their full
      keys - may come in any order and under any headers. *)
  Theorem C81_permuted text text' es es' : toml_text F show text es -> toml_text F show text' es' -> no_tables es -> no_tables es' ->
    NoDup (map fst (settings [] es)) -> Permutation (settings [] es) (settings [] es') -> toml_parse F show text = toml_parse F show text'.
  Proof.
    intros H H' N N' D P. apply (C81_order text text' es es' H H'). split; [apply perm_values; assumption|].
    assert (E : forall x, no_tables x -> sections x = []) by (intros x Hx; induction Hx as [|e x He Hx IH]; [reflexivity|]; destruct e; [exact IH | contradiction | exact IH]).
    intro k. rewrite (E es N), (E es' N'). constructor.
  Qed.
  (** A table header and dotted keys are the same. *)
  Theorem C81_dotted text text' t l : t <> [] ->
    toml_text F show text (ETable t :: map (fun e => ESet (fst e) (snd e)) l) -> toml_text F show text' (map (fun e => ESet (t ++ 46 :: fst e) (snd e)) l) ->
    toml_parse F show text = toml_parse F show text'.
  Proof.
    intros Ht H H'. apply (C81_order _ _ _ _ H H').
    assert (E1 : settings [] (ETable t :: map (fun e => ESet (fst e) (snd e)) l) = map (fun e => (t ++ 46 :: fst e, snd e)) l).
    { cbn [settings]. clear - Ht. induction l as [|[k v] l IH]; [reflexivity|]. cbn [map settings fst snd]. rewrite IH. destruct t; [congruence | reflexivity]. }
    assert (E2 : settings [] (map (fun e => ESet (t ++ 46 :: fst e) (snd e)) l) = map (fun e => (t ++ 46 :: fst e, snd e)) l).
    { clear. induction l as [|[k v] l IH]; [reflexivity|]. cbn [map settings fst snd]. rewrite IH. reflexivity. }
    assert (E3 : forall (f : str * toml -> entry), (forall e, exists k v, f e = ESet k v) -> sections (map f l) = []).
    { intros f Hf. clear - Hf. induction l as [|e l IH]; [reflexivity|]. cbn [map]. destruct (Hf e) as (k & v & ->). exact IH. }
    split; [rewrite E1, E2; apply same_refl|]. intro k. cbn [sections]. rewrite !E3; [constructor | intro e; eauto | intro e; eauto].
  Qed.

  Lemma gap_entries g q es r : tgap g -> es <> [] -> entries_at F show q es r -> entries_at F show (g ++ q) es r.
  Proof.
    intros Hg Hne H. inversion H as [|? e l1 es1 ? He Hr]; subst; [congruence|]. eapply es_cons; [|exact Hr].
    inversion He; subst.
    - eapply ea_set; [apply (first_gap F); eassumption | eassumption..].
    - eapply ea_table; [apply (first_gap F); eassumption | eassumption | eassumption | eassumption].
    - eapply ea_tables; [apply (first_gap F); eassumption | eassumption..].
  Qed.
  Lemma lines_front p es q : lines F show p es -> exists w, entries_at F show (p ++ q) es (w ++ q) /\ tgap w /\ (exists a, p = a ++ w).
  Proof.
    intros (w & H & Hg & Hw). destruct (entries_loc F show _ _ _ H) as (a & -> & Ha). exists w. split; [|eauto]. rewrite <- app_assoc. apply Ha.
    unfold same. destruct w; [congruence | reflexivity].
  Qed.
  Lemma entries_app l es l1 es' r : entries_at F show l es l1 -> entries_at F show l1 es' r -> entries_at F show l (es ++ es') r.
  Proof. induction 1; intro H1; [exact H1|]. cbn [app]. eapply es_cons; [eassumption | auto]. Qed.
  Lemma join_entries p es q es' r : lines F show p es -> entries_at F show q es' r -> es' <> [] -> entries_at F show (p ++ q) (es ++ es') r.
  Proof. intros Hp Hq Hne. destruct (lines_front p es q Hp) as (w & H & Hg & _). eapply entries_app; [exact H|]. apply gap_entries; assumption. Qed.
  Lemma join_text p es q es' : lines F show p es -> toml_text F show q es' -> toml_text F show (p ++ q) (es ++ es').
  Proof.
    intros Hp (l & r & Hq & Ht). destruct es' as [|e es'].
    - inversion Hq; subst. rewrite app_nil_r. destruct (lines_front p es l Hp) as (w & H & Hg & _). exists (w ++ l), r. split; [exact H|]. apply (first_gap F); assumption.
    - exists l, r. split; [|exact Ht]. apply join_entries; [exact Hp | exact Hq | discriminate].
  Qed.
  Lemma lines_text p es : lines F show p es -> toml_text F show p es.
  Proof. intros (w & H & Hg & _). exists w, []. split; [exact H|]. rewrite <- (app_nil_r w). apply ft_end; [exact Hg | reflexivity]. Qed.
  Lemma entry_err_gap g l m r : tgap g -> entry_err F show l m r -> entry_err F show (g ++ l) m r.
  Proof.
    intros Hg H.
    assert (W : forall P l m r, wants F P l m r -> wants F P (g ++ l) m r).
    { intros P l0 m0 r0 Q. inversion Q; subst; [apply wn_bad, (bad_gap F); assumption | apply wn_tok; [apply (first_gap F); assumption | assumption]]. }
    inversion H; subst.
    - apply xe_start, W; assumption.
    - eapply xe_eq; [apply (first_gap F); eassumption | eassumption..].
    - eapply xe_value; [apply (first_gap F); eassumption | eassumption..].
    - eapply xe_name; [apply (first_gap F); eassumption | eassumption..].
    - eapply xe_close; [apply (first_gap F); eassumption | eassumption..].
    - eapply xe_names; [apply (first_gap F); eassumption | eassumption..].
    - eapply xe_close1; [apply (first_gap F); eassumption | eassumption..].
    - eapply xe_close2; [apply (first_gap F); eassumption | eassumption..].
  Qed.
  Lemma join_error p es q es' m r : lines F show p es -> toml_error F show q es' m r -> toml_error F show (p ++ q) (es ++ es') m r.
  Proof.
    intros Hp (l & Hq & Ht). destruct es' as [|e es'].
    - inversion Hq; subst. rewrite app_nil_r. destruct (lines_front p es l Hp) as (w & H & Hg & _). exists (w ++ l). split; [exact H|]. apply entry_err_gap; assumption.
    - exists l. split; [|exact Ht]. apply join_entries; [exact Hp | exact Hq | discriminate].
  Qed.
  (** Two documents in one text: the entries of the first and then of the second. *)
  Theorem C81_join p es q es' : lines F show p es -> toml_text F show q es' ->
    (forall m, toml_parse F show (p ++ q) = Ok m <-> ~ clash (es ++ es') /\ means (es ++ es') m) /\
    (clash (es ++ es') -> toml_parse F show (p ++ q) = Panic PUnreachable).
  Proof.
    intros Hp Hq. pose proof (join_text p es q es' Hp Hq) as H. split.
    - intro m. rewrite C73_accepted. split.
      + intros (x & Hx & Hc & Hm). rewrite (C73_unique F show _ _ _ H Hx). auto.
      + intros [Hc Hm]. exists (es ++ es'). auto.
    - intro Hc. apply C73_panics. split; [reflexivity|]. destruct H as (l & r & He & _). eauto.
  Qed.
  (** An error in the second part is the error of the whole, further down by the lines
      of the first part. *)
  Theorem C81_error p es q es' r e : lines F show p es -> toml_error F show q es' (q_msg e) r -> error_line q r (q_line e) -> ~ clash (es ++ es') ->
    toml_parse F show (p ++ q) = Err {| q_line := newlines p + q_line e; q_msg := q_msg e |}.
  Proof.
    intros Hp Hq (a & -> & El) Hc. apply C78_error. exists (es ++ es'), r. cbn [q_msg q_line]. split; [apply join_error; assumption|]. split; [exact Hc|].
    exists (p ++ a). split; [apply app_assoc|]. rewrite El, <- app_assoc. generalize (a ++ firstn 1 r). intro x. unfold newlines, lenN. rewrite filter_app, app_length. lia.
  Qed.
  (** Without [[k]] headers: the values of the second part go before those of the first. *)
  Theorem C81_override p es q es' : lines F show p es -> toml_text F show q es' -> no_tables es -> no_tables es' -> fresh es es' ->
    exists m1 m2 m, toml_parse F show p = Ok m1 /\ toml_parse F show q = Ok m2 /\ toml_parse F show (p ++ q) = Ok m /\
      forall k, t_get k m = match t_get k m2 with Some v => Some v | None => t_get k m1 end.
  Proof.
    intros Hp Hq N1 N2 Hf.
    assert (R : forall text x, no_tables x -> toml_text F show text x -> exists m, toml_parse F show text = Ok m /\ holds (settings [] x) m).
    { intros text x Nx Hx. pose proof Hx as (l & r & He & _).
      assert (Es : sections x = []) by (clear - Nx; induction Nx as [|e x He Hx IH]; [reflexivity|]; destruct e; [exact IH | contradiction | exact IH]).
      destruct (run_means x (entries_wf F show _ _ _ He)) as [[(k & _ & C) _]|[C (m & _ & S & M)]]; [rewrite Es in C; destruct C|].
      exists m. split; [apply C73_accepted; exists x; split; [exact Hx|]; split; [exact C | split; assumption]|].
      intros k v. rewrite (M k v), Es. split; [|auto]. intros [X|(ms & _ & N & X)]; [exact X|]. unfold of_key in X. cbn in X. destruct ms; [congruence | inversion X]. }
    destruct (R p es N1 (lines_text p es Hp)) as (m1 & E1 & H1). destruct (R q es' N2 Hq) as (m2 & E2 & H2).
    destruct (R (p ++ q) (es ++ es') (proj2 (Forall_app _ _ _) (conj N1 N2)) (join_text p es q es' Hp Hq)) as (m & E & H).
    exists m1, m2, m. split; [exact E1|]. split; [exact E2|]. split; [exact E|]. intro k.
    rewrite (settings_app es es' N1 []), (fresh_settings es es' Hf) in H.
    assert (K : forall l x, holds l x -> t_get k x = None -> ~ In k (map fst l)).
    { intros l x Hh Hn Hi. apply in_last in Hi as [v Hv]. apply Hh in Hv. congruence. }
    destruct (t_get k m2) as [v|] eqn:G2.
    - apply H. apply last_app. left. apply H2. exact G2.
    - pose proof (K _ _ H2 G2) as Hn. destruct (t_get k m1) as [v|] eqn:G1.
      + apply H. apply last_app. right. split; [exact Hn|]. apply H1. exact G1.
      + destruct (t_get k m) as [v|] eqn:G; [|reflexivity]. apply H, last_app in G as [G|[_ G]]; [apply H2 in G | apply H1 in G]; congruence.
  Qed.
End C81.

(** The documents of the TOML specification (SpecToml.v) can always be joined: a line
    end between them is enough. *)
Lemma tdoc_gap F g es q : tgap g -> tdoc F es q -> tdoc F es (g ++ q).
Proof.
  intros Hg H. inversion H; subst.
  - apply td_end, tgap_app; assumption.
  - rewrite app_assoc. apply td_comment; [apply tgap_app; assumption | assumption].
  - rewrite app_assoc. eapply td_set; try eassumption. apply tgap_app; assumption.
  - rewrite app_assoc. eapply td_table; try eassumption. apply tgap_app; assumption.
  - rewrite app_assoc. eapply td_tables; try eassumption. apply tgap_app; assumption.
Qed.
Theorem C81_documents F es es' p q : tdoc F es p -> tdoc F es' q -> tdoc F (es ++ es') (p ++ 10 :: q).
Proof.
  assert (W : ws_char 10) by (unfold ws_char; auto 6).
  intros H Hq. induction H as [g Hg|g body Hg Hb|g kt k kk a b x v e r es Hg Hk Ha Hb Hx Hf Hd IH|g kt k kk a b r es Hg Ha Hk Hn Hb Hd IH|g kt k kk a b r es Hg Ha Hk Hn Hb Hd IH]; cbn [app].
  - apply tdoc_gap; [exact Hg|]. apply (tdoc_gap F [10]); [apply tg_ws; [exact W | constructor] | exact Hq].
  - rewrite <- app_assoc. apply tdoc_gap; [exact Hg|]. cbn [app]. change (35 :: body ++ 10 :: q) with ((35 :: body) ++ [10] ++ q). rewrite app_assoc.
    apply tdoc_gap; [|exact Hq]. apply (tg_comment body []); [exact Hb | constructor].
  - replace ((g ++ kt ++ a ++ 61 :: b ++ x ++ r) ++ 10 :: q) with (g ++ kt ++ a ++ 61 :: b ++ x ++ (r ++ 10 :: q)) by (rewrite <- !app_assoc; cbn [app]; rewrite <- !app_assoc; reflexivity).
    eapply td_set; try eassumption. clear - Hf. destruct r as [|y r]; [destruct e; cbn; auto 10|]. destruct e; cbn in *; (destruct Hf as [Hf|Hf]; [discriminate|]; auto) || exact I.
  - replace ((g ++ 91 :: a ++ kt ++ b ++ 93 :: r) ++ 10 :: q) with (g ++ 91 :: a ++ kt ++ b ++ 93 :: (r ++ 10 :: q)) by (rewrite <- !app_assoc; cbn [app]; rewrite <- !app_assoc; reflexivity).
    eapply td_table; eassumption.
  - replace ((g ++ 91 :: 91 :: a ++ kt ++ b ++ 93 :: 93 :: r) ++ 10 :: q) with (g ++ 91 :: 91 :: a ++ kt ++ b ++ 93 :: 93 :: (r ++ 10 :: q)) by (rewrite <- !app_assoc; cbn [app]; rewrite <- !app_assoc; reflexivity).
    eapply td_tables; eassumption.
Qed.
(** ... and read in any order that assigns the same. *)
Theorem C81_documents_order F show es es' p q : tdoc F es p -> tdoc F es' q -> alike es es' -> toml_parse F show p = toml_parse F show q.
Proof.
  intros Hp Hq Ha. rewrite (parse_doc F show es p Hp), (parse_doc F show es' q Hq).
  destruct (run_means es (doc_wf F es p Hp)) as [[C E]|[C (m & E & M)]], (run_means es' (doc_wf F es' q Hq)) as [[C' E']|[C' (m' & E' & M')]]; rewrite E, E'.
  - reflexivity.
  - exfalso. apply C'. exact (clash_alike _ _ Ha C).
  - exfalso. apply C. exact (clash_alike _ _ (alike_sym _ _ Ha) C').
  - f_equal. apply (means_fun es'); [exact (means_alike _ _ _ Ha M) | exact M'].
Qed.

(** ** Cases *)
Local Ltac tok n := apply (scan_first no_flt n); vm_compute; reflexivity.
Local Ltac ent_set k t v r1 r2 r := eapply (es_cons no_flt dec _ _ r); [eapply (ea_set no_flt dec _ k _ r1 r2); [tok 60%nat | constructor | tok 60%nat | eapply (va_tok no_flt _ t); [tok 60%nat | constructor]]|].
(** [[t]] with two keys, and the same keys dotted, in the other order. *)
Definition text1 : str := chars "[t]" ++ lf ++ chars "b=true" ++ lf ++ chars "c=""x"" #" ++ lf.
Definition text2 : str := chars "t.c =""x""" ++ lf ++ chars "t.b=true" ++ lf.
Definition text3 : str := chars "d=false" ++ lf.
Definition ents1 : list entry := [ETable (chars "t"); ESet (chars "b") (TVBool true); ESet (chars "c") (TVStr (chars "x"))].
Definition ents2 : list entry := [ESet (chars "t.c") (TVStr (chars "x")); ESet (chars "t.b") (TVBool true)].
Lemma text1_lines : lines no_flt dec text1 ents1.
Proof.
  exists (chars " #" ++ lf). split; [|split; [apply tg_ws; [unfold ws_char; auto|]; apply (tg_comment []); constructor | discriminate]].
  eapply (es_cons no_flt dec _ _ (lf ++ chars "b=true" ++ lf ++ chars "c=""x"" #" ++ lf)).
  { eapply (ea_table no_flt dec _ (tl text1) (QIdent (chars "t"))); [tok 60%nat | tok 60%nat | right; reflexivity | tok 60%nat]. }
  ent_set (QIdent (chars "b")) (QBool true) (TVBool true) (chars "=true" ++ lf ++ chars "c=""x"" #" ++ lf) (chars "true" ++ lf ++ chars "c=""x"" #" ++ lf) (lf ++ chars "c=""x"" #" ++ lf).
  ent_set (QIdent (chars "c")) (QStr (chars "x")) (TVStr (chars "x")) (chars "=""x"" #" ++ lf) (chars """x"" #" ++ lf) (chars " #" ++ lf).
  constructor.
Qed.
Lemma text2_lines : lines no_flt dec text2 ents2.
Proof.
  exists lf. split; [|split; [apply tg_ws; [unfold ws_char; auto 6 | constructor] | discriminate]].
  ent_set (QIdent (chars "t.c")) (QStr (chars "x")) (TVStr (chars "x")) (chars " =""x""" ++ lf ++ chars "t.b=true" ++ lf) (chars """x""" ++ lf ++ chars "t.b=true" ++ lf) (lf ++ chars "t.b=true" ++ lf).
  ent_set (QIdent (chars "t.b")) (QBool true) (TVBool true) (chars "=true" ++ lf) (chars "true" ++ lf) lf.
  constructor.
Qed.
Example C81_ex_order : toml_parse no_flt dec text1 = toml_parse no_flt dec text2 /\ alike ents1 ents2.
Proof.
  assert (A : alike ents1 ents2).
  { split; [|intro k; constructor]. apply perm_values; [|apply perm_swap]. cbn. constructor; [intros [E|[]]; discriminate|]. constructor; [intros [] | constructor]. }
  split; [|exact A]. exact (C81_order no_flt dec text1 text2 ents1 ents2 (lines_text _ _ _ _ text1_lines) (lines_text _ _ _ _ text2_lines) A).
Qed.
Example C81_ex_join : forall q es', toml_text no_flt dec q es' -> no_tables es' ->
  exists m1 m2 m, toml_parse no_flt dec text2 = Ok m1 /\ toml_parse no_flt dec q = Ok m2 /\ toml_parse no_flt dec (text2 ++ q) = Ok m /\
    forall k, t_get k m = match t_get k m2 with Some v => Some v | None => t_get k m1 end.
Proof.
  intros q es' Hq N. apply (C81_override no_flt dec text2 ents2 q es' text2_lines Hq); [repeat constructor | exact N|].
  left. intros e [<-|[<-|[]]]; eauto.
Qed.
(** Behind a header the second part is read under that header. *)
Example C81_ex_scope : toml_parse no_flt dec (text1 ++ text3) = Ok [(chars "t.b", TVBool true); (chars "t.c", TVStr (chars "x")); (chars "t.d", TVBool false)] /\
  toml_parse no_flt dec text3 = Ok [(chars "d", TVBool false)].
Proof. split; vm_compute; reflexivity. Qed.
(** An open array swallows what comes behind it: such a text is no [lines]. *)
Example C81_ex_open es : ~ lines no_flt dec (chars "a=[1" ++ lf) es.
Proof.
  intros H. assert (Q : toml_text no_flt dec text3 [ESet (chars "d") (TVBool false)]).
  { exists lf, []. split; [|tok 20%nat]. ent_set (QIdent (chars "d")) (QBool false) (TVBool false) (chars "=false" ++ lf) (chars "false" ++ lf) lf. constructor. }
  pose proof (join_text no_flt dec _ es text3 _ H Q) as J.
  destruct (proj1 (C73_rejected no_flt dec ((chars "a=[1" ++ lf) ++ text3)) ltac:(eexists; vm_compute; reflexivity)) as [N _]. apply N. eexists. exact J.
Qed.

Print Assumptions C81_order.
Print Assumptions C81_error.
Print Assumptions C81_override.
