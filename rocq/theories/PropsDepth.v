(** C72: how deep the calls go. *)
From Verif Require Import Base Utf8 Types BinModel BinRead SpecBin BinLocal TyAll BinValid BinFuel PropsBin SpecMem BinMem BinMemAll PropsMem SpecDepth Depth
  Text TextModel TextRun SpecText SpecGram SpecDoc SpecRon TextEx PropsDoc PropsRon.
Local Open Scope N_scope.

(** ** Upper bound, binary *)
(** (In the model of [de_bin] the fuel is the number of calls of the readers of the
    parts that may be under way at once; loops do not use it.)
    For every program whose recursive types recurse through Option, a collection or
    an enum there is a constant such that no input, wanted or malicious, takes more
    than the constant times the number of bytes (plus one) of nested calls. *)
Theorem C72_bin_stack G t : guarded G ->
  exists K, (0 < K)%nat /\ forall c d o, cfg_ok c -> slice_fits c (lenN d) -> o <= lenN d ->
    snd (de_bin c G d (K * (N.to_nat (lenN d - o) + 1)) t o) <> NoFuel.
Proof.
  intros [rank Hr].
  set (R := S (deepest (map rank (seq 0 (length G))))).
  set (H := deepest (height t :: map (fun d => deepest (map height (decl_types d))) G)).
  exists (per H R). split; [unfold per; lia|]. intros c d o Hc Hd Ho.
  assert (HR : forall i, (i < length G)%nat -> (rank i < R)%nat).
  { intros i Hi. unfold R. apply Nat.lt_succ_r. apply deepest_in. apply in_map. apply in_seq. lia. }
  assert (HH : Forall (fun d => Forall (fun t => (height t <= H)%nat) (decl_types d)) G).
  { apply Forall_forall. intros d0 Hd0. apply Forall_forall. intros t0 Ht0. unfold H.
    pose proof (deepest_in (height t0) (map height (decl_types d0)) (in_map height _ _ Ht0)) as A.
    assert (B : In (deepest (map height (decl_types d0))) (height t :: map (fun d => deepest (map height (decl_types d))) G)) by (right; apply (in_map (fun d => deepest (map height (decl_types d)))); exact Hd0).
    apply deepest_in in B. eapply Nat.le_trans; [exact A|exact B]. }
  assert (Ht : (height t <= H)%nat) by (unfold H; apply deepest_in; left; reflexivity).
  pose proof (depth_all c G d Hc Hd rank H R Hr HR HH (lenN d - o) t Ht o Ho (N.le_refl _)) as X.
  replace (per H R * (N.to_nat (lenN d - o) + 1))%nat with (N.to_nat (lenN d - o + 1) * per H R)%nat by lia. exact X.
Qed.

(** ** Every level of the value takes a call *)
Lemma deepest_le l n : (forall x, In x l -> (x <= n)%nat) -> (deepest l <= n)%nat.
Proof. intro H. unfold deepest. induction l as [|x l IH]; cbn [fold_right]; [lia|]. apply Nat.max_lub; [apply H; left; reflexivity | apply IH; intros; apply H; right; assumption]. Qed.
Definition nested (n : nat) (v : val) : Prop := (nesting v <= n)%nat.
Lemma nested_seq n l : Forall (nested n) l -> nested (S n) (VSeq l).
Proof. intro H. unfold nested. cbn [nesting]. apply le_n_S, deepest_le. intros x Hx. apply in_map_iff in Hx as (v & <- & Hv). rewrite Forall_forall in H. apply H. exact Hv. Qed.
Lemma nested_enum n k l : Forall (nested n) l -> nested (S n) (VEnum k l).
Proof. apply nested_seq. Qed.
Lemma nested_map n l : Forall (fun e => nested n (fst e) /\ nested n (snd e)) l -> nested (S n) (VMap l).
Proof.
  intro H. unfold nested. cbn [nesting]. apply le_n_S, deepest_le. intros x Hx. apply in_map_iff in Hx as (v & <- & Hv). rewrite Forall_forall in H.
  destruct (H _ Hv). apply Nat.max_lub; assumption.
Qed.
Section Yields.
  Definition yields {A} (P : A -> Prop) (m : bm A) : Prop := forall o o' a, m o = (o', Ok a) -> P a.
  Lemma y_bind {A B} (P : A -> Prop) (Q : B -> Prop) (m : bm A) (f : A -> bm B) : yields P m -> (forall a, P a -> yields Q (f a)) -> yields Q (bbind m f).
  Proof. intros H1 H2 o o' b E. unfold bbind in E. destruct (m o) as [o1 [a|e|p|]] eqn:Em; try discriminate. eapply H2; [eapply H1; eassumption | eassumption]. Qed.
  Lemma y_any {A} (m : bm A) : yields (fun _ => True) m. Proof. easy. Qed.
  Lemma y_ret {A} (P : A -> Prop) a : P a -> yields P (bret a).
  Proof. intros H o o' b E. unfold bret in E. congruence. Qed.
  Lemma y_fail {A} (P : A -> Prop) r : (forall a, r <> Ok a) -> yields P (bfail r).
  Proof. intros H o o' b E. unfold bfail in E. exfalso. apply (H b). congruence. Qed.
  Lemma y_map {A B} (g : A -> B) (Q : B -> Prop) (m : bm A) : yields (fun a => Q (g a)) m -> yields Q (bmap g m).
  Proof. intro H. apply (y_bind _ _ _ _ H). intros a Ha. apply y_ret. exact Ha. Qed.
  Lemma y_iter {A} (P : A -> Prop) (step : N -> A -> N * res berr A) k : (forall a, P a -> yields P (fun o => step o a)) ->
    forall a, P a -> yields P (fun o => iter_nat_m step k o a).
  Proof.
    intro H. induction k as [|k IH]; intros a Ha o o' b E; cbn [iter_nat_m] in E; [congruence|]. unfold seq2 in E.
    destruct (step o a) as [o1 [a1|e|p|]] eqn:Es; try discriminate. eapply (IH a1); [eapply H; eassumption | exact E].
  Qed.
End Yields.

(** The defaults of the skipped fields are nested at most [D] deep. *)
Definition defaults_within (D : nat) (d : decl) : Prop :=
  match d with DStruct _ _ fs => Forall (fun f => f_skip f = true -> (nesting (f_tydefault f) <= D)%nat) fs | _ => True end.
Lemma calls_nested c G d D : env_all no_proxy G -> Forall no_proxy_decl G -> Forall (defaults_within D) G ->
  forall n t, ty_all no_proxy t -> yields (nested (n + D)) (de_bin c G d n t).
Proof.
  intros HP HG HD. unfold env_all in HP. rewrite Forall_forall in HP, HG, HD.
  induction n as [|n IH]; [intros t _ o o' a E; discriminate|].
  assert (Hrep : forall m t, ty_all no_proxy t -> yields (Forall (nested (n + D))) (de_rep (de_bin c G d n) m t)).
  { intros m t Ht. induction m as [|m IHm]; cbn [de_rep]; [apply y_ret; constructor|].
    apply (y_bind (nested (n + D))); [apply IH; exact Ht|]. intros v Hv. apply y_map. intros o o' l E. constructor; [exact Hv | eapply IHm; exact E]. }
  assert (Htys : forall ts, Forall (ty_all no_proxy) ts -> yields (Forall (nested (n + D))) (de_tys (de_bin c G d n) ts)).
  { induction 1 as [|t ts Ht _ IHm]; cbn [de_tys]; [apply y_ret; constructor|].
    apply (y_bind (nested (n + D))); [apply IH; exact Ht|]. intros v Hv. apply y_map. intros o o' l E. constructor; [exact Hv | eapply IHm; exact E]. }
  assert (Hfs : forall hs fs, Forall (fun f => ty_all no_proxy (f_ty f)) fs -> (hs = true -> Forall (fun f => f_skip f = true -> (nesting (f_tydefault f) <= D)%nat) fs) ->
     yields (Forall (nested (n + D))) (de_fields (de_bin c G d n) hs fs)).
  { intros hs fs. induction 1 as [|f fs Ht _ IHm]; intro Hs; cbn [de_fields]; [apply y_ret; constructor|].
    apply (y_bind (nested (n + D))).
    - destruct (hs && f_skip f) eqn:Es; [|apply IH; exact Ht]. apply andb_true_iff in Es as [-> Es]. specialize (Hs eq_refl). inversion Hs; subst.
      apply y_ret. unfold nested. specialize (H1 Es). lia.
    - intros v Hv. apply y_map. intros o o' l E. constructor; [exact Hv|]. eapply IHm; [|exact E]. intro Q. specialize (Hs Q). inversion Hs; subst. assumption. }
  assert (Hdur : yields (nested (S n + D)) (rd_dur c d)).
  { unfold rd_dur. apply (y_bind _ _ _ _ (y_any _)). intros bs _. apply (y_bind _ _ _ _ (y_any _)). intros bn _. cbv zeta. destruct (_ <? _); [intros ? ? ? E; discriminate|].
    unfold duration_new. repeat match goal with |- context [if ?x then _ else _] => destruct x end; try (apply y_fail; discriminate); apply y_ret; unfold nested; cbn; lia. }
  intros t Ht. destruct t as [k| | | | | |t'|k t'|k tk tv|m t'|ts|t'| | |p t'|i]; cbn [de_bin]; cbn [ty_all] in Ht; destruct Ht as [Hpx Ht]; cbn [no_proxy] in Hpx.
  - assert (Hz : forall z, nested (S n + D) (VZ z)) by (intro; unfold nested; cbn; lia). destruct k; apply y_map; intros ? ? ? _; apply Hz.
  - apply y_map. intros ? ? ? _. unfold nested. cbn. lia.
  - apply y_map. intros ? ? ? _. unfold nested. cbn. lia.
  - apply y_map. intros ? ? ? _. unfold nested. cbn. lia.
  - apply y_map. intros ? ? ? _. unfold nested. cbn. lia.
  - apply y_ret. unfold nested. cbn. lia.
  - apply (y_bind _ _ _ _ (y_any _)). intros b _. destruct (of_le b =? 1); [|apply y_ret; unfold nested; cbn; lia]. apply y_map. intros o o' v E. unfold nested. cbn [nesting].
    pose proof (IH t' Ht _ _ _ E) as Q. unfold nested in Q. lia.
  - apply (y_bind _ _ _ _ (y_any _)). intros len _. apply (y_bind _ _ _ _ (y_any _)). intros _ _. apply y_map. unfold de_items. intros o o' l E. rewrite iter_N_nat in E.
    apply nested_seq. revert o o' l E. apply (y_iter (Forall (nested (n + D)))); [|constructor].
    intros l Hl. apply (y_bind (nested (n + D))); [apply IH; exact Ht|]. intros v Hv. apply y_ret.
    rewrite Forall_forall in *. intros x Hx. apply seq_add_In in Hx as [-> |Hx]; auto.
  - destruct Ht as [Hk Hv]. apply (y_bind _ _ _ _ (y_any _)). intros len _. apply (y_bind _ _ _ _ (y_any _)). intros _ _. apply y_map. unfold de_entries. intros o o' l E. rewrite iter_N_nat in E.
    apply nested_map. revert o o' l E. apply (y_iter (Forall (fun e => nested (n + D) (fst e) /\ nested (n + D) (snd e)))); [|constructor].
    intros l Hl. apply (y_bind (nested (n + D))); [apply IH; exact Hk|]. intros x Hx. apply (y_bind (nested (n + D))); [apply IH; exact Hv|]. intros y Hy. apply y_ret.
    rewrite Forall_forall in *. intros e He. apply map_add_In in He as [-> |He]; auto.
  - apply y_map. intros o o' l E. apply nested_seq. eapply Hrep; eassumption.
  - apply y_map. intros o o' l E. apply nested_seq. eapply Htys; [|eassumption]. clear -Ht. induction ts as [|t ts IH]; constructor; [apply Ht | apply IH; apply Ht].
  - intros o o' v E. unfold nested. pose proof (IH t' Ht _ _ _ E) as Q. unfold nested in Q. lia.
  - apply Hdur.
  - unfold rd_time. apply (y_bind _ _ _ _ (y_any _)). intros b _. destruct (of_le b =? 1); [|apply y_ret; unfold nested; cbn; lia].
    apply (y_bind _ _ _ _ (y_any _)). intros v _. destruct v; try (apply y_fail; discriminate). destruct (_ <=? _); [|apply y_fail; discriminate]. apply y_ret; unfold nested; cbn; lia.
  - contradiction.
  - destruct (nth_error G i) as [[dflt nul fs|tr fs|vs|p t']|] eqn:EG; [| | | |apply y_fail; discriminate]; apply nth_error_In in EG; pose proof (HP _ EG) as HPi; pose proof (HG _ EG) as HGi; pose proof (HD _ EG) as HDi; cbn [decl_all no_proxy_decl defaults_within] in *.
    + apply y_map. intros o o' l E. apply nested_seq. eapply Hfs; [|intros _; exact HDi|exact E]. exact HPi.
    + destruct (existsb f_skip fs) eqn:Es; [apply y_fail; discriminate|]. apply y_map. intros o o' l E. apply nested_seq. eapply Hfs; [|intros _|exact E]; [exact HPi|].
      apply Forall_forall. intros f Hf Hs. exfalso. assert (existsb f_skip fs = true) by (apply existsb_exists; eauto). congruence.
    + apply (y_bind _ _ _ _ (y_any _)). intros b _. cbv zeta. destruct (nth_error vs (N.to_nat (of_le b))) as [vr|] eqn:EV; [|apply y_fail; discriminate].
      apply nth_error_In in EV. rewrite Forall_forall in HPi. specialize (HPi _ EV). destruct (v_body vr) as [|ts|fs].
      * apply y_ret. apply nested_enum. constructor.
      * apply y_map. intros o o' l E. apply nested_enum. eapply Htys; eassumption.
      * apply y_map. intros o o' l E. apply nested_enum. eapply (Hfs false); [exact HPi|discriminate|exact E].
    + contradiction.
Qed.
(** Values nested [n] deep cannot be read with fewer than [n] nested calls (less what
    the defaults of skipped fields bring with them). *)
Theorem C72_bin_calls c G t d D n o o' v : env_all no_proxy G -> Forall no_proxy_decl G -> Forall (defaults_within D) G -> ty_all no_proxy t ->
  de_bin c G d n t o = (o', Ok v) -> (nesting v <= n + D)%nat.
Proof. intros HP HG HD Ht E. exact (calls_nested c G d D HP HG HD n t Ht _ _ _ E). Qed.
(** So what is read is nested at most in proportion to the bytes there are. *)
Theorem C72_bin_nesting G t D : guarded G -> env_all no_proxy G -> Forall no_proxy_decl G -> Forall (defaults_within D) G -> ty_all no_proxy t ->
  exists K, forall c d o o' v, cfg_ok c -> slice_fits c (lenN d) -> o <= lenN d -> decodes_at c G t d o o' (Ok v) ->
    (nesting v <= K * (N.to_nat (lenN d - o) + 1) + D)%nat.
Proof.
  intros Hg HP HG HD Ht. destruct (C72_bin_stack G t Hg) as (K & _ & HK). exists K. intros c d o o' v Hc Hd Ho E.
  specialize (HK c d o Hc Hd Ho). destruct (de_bin c G d _ t o) as [o1 r] eqn:Er in HK. cbn [snd] in HK.
  pose proof (de_returns _ _ _ _ _ _ _ _ Er HK) as Rr. pose proof (returns_inj _ _ _ E Rr) as Q. injection Q as <- <-.
  eapply C72_bin_calls; eassumption.
Qed.

(** ** Text: the levels of the value are characters of the text. *)
Lemma nesting_cells v : N.of_nat (nesting v) <= cells v.
Proof.
  induction v as [| | | | | |w IH|l IH|l IH|k l IH| |] using val_ind2; cbn [nesting]; try (cbn; lia).
  - change (cells (VSeq l)) with (1 + cells_of l).
    assert (N.of_nat (deepest (map nesting l)) <= cells_of l); [|lia].
    induction IH as [|x l Hx _ IHl]; [cbn; lia|]. unfold deepest, cells_of in *. cbn [map fold_right]. lia.
  - cbn [cells]. match goal with |- context [1 + ?x] => assert (N.of_nat (deepest (map (fun e => Nat.max (nesting (fst e)) (nesting (snd e))) l)) <= x); [|lia] end.
    induction IH as [|x l Hx _ IHl]; [cbn; lia|]. unfold deepest in *. cbn [map fold_right]. lia.
  - change (cells (VEnum k l)) with (1 + cells_of l).
    assert (N.of_nat (deepest (map nesting l)) <= cells_of l); [|lia].
    induction IH as [|x l Hx _ IHl]; [cbn; lia|]. unfold deepest, cells_of in *. cbn [map fold_right]. lia.
Qed.
Theorem C72_json_nesting F c G D t text v : Forall distinct_names G ->
  env_all no_proxy G -> Forall no_proxy_decl G -> Forall no_transparent G -> Forall (spare_at_most D) G -> ty_all no_proxy t ->
  parses F c G Json t text (Ok v) -> N.of_nat (nesting v) <= (D + 1) * lenN text.
Proof. intros. eapply N.le_trans; [apply nesting_cells|]. eapply C71_json; eassumption. Qed.
Theorem C72_ron_nesting F c G D t text v : Forall distinct_ron G -> Forall (spare_at_most D) G ->
  parses F c G Ron t text (Ok v) -> N.of_nat (nesting v) <= (D + 1) * lenN text.
Proof. intros. eapply N.le_trans; [apply nesting_cells|]. eapply C71_ron; eassumption. Qed.

(** ** No limit *)
(** [struct T(Vec<T>)], and its values [n] deep. *)
Definition Gdeep : env := [DTuple false [fld (chars "0") false (VSeq []) (TSeq SVec (TNamed 0))]].
Fixpoint tower (n : nat) : val :=
  match n with O => VSeq [VSeq []] | S m => VSeq [VSeq [tower m]] end.
Lemma tower_nesting n : nesting (tower n) = (2 * n + 2)%nat.
Proof. induction n as [|n IH]; [reflexivity|]. cbn [tower nesting map deepest fold_right]. rewrite IH. lia. Qed.
Fixpoint tower_bytes (n : nat) : list N :=
  match n with O => [0; 0; 0; 0; 0; 0; 0; 0] | S m => [1; 0; 0; 0; 0; 0; 0; 0] ++ tower_bytes m end.
Lemma tower_bytes_len n : lenN (tower_bytes n) = 8 * (N.of_nat n + 1).
Proof. induction n as [|n IH]; [reflexivity|]. cbn [tower_bytes]. rewrite lenN_app, IH. change (lenN [1; 0; 0; 0; 0; 0; 0; 0]) with 8. lia. Qed.
Lemma tower_ser n : forall out, ser_bin Gdeep (S (S (2 * n))) (TNamed 0) (tower n) out = Ok (out ++ tower_bytes n).
Proof.
  induction n as [|n IH]; intro out; [reflexivity|]. replace (S (S (2 * S n))) with (S (S (S (S (2 * n))))) by lia.
  cbn [tower tower_bytes]. remember (S (S (2 * n))) as m. cbn [ser_bin nth_error Gdeep ser_fields f_skip f_ty fld andb ser_items ser_tys].
  unfold ser_usize, emit. cbn [rbind]. change (le_bytes 8 (lenN [tower n])) with [1; 0; 0; 0; 0; 0; 0; 0]. rewrite IH. cbn [rbind]. rewrite <- app_assoc. reflexivity.
Qed.
Lemma tower_fits c n : cfg_ok c -> 1 <= alloc_max c (TNamed 0) -> fits px_inverse c Gdeep (S (S (2 * n))) (TNamed 0) (tower n).
Proof.
  intros Hc Ha. assert (Hu : 1 < usize_mod c) by (destruct Hc as [E|E]; unfold usize_mod; rewrite E; reflexivity).
  induction n as [|n IH].
  - change (existsb f_skip [fld (chars "0") false (VSeq []) (TSeq SVec (TNamed 0))] = false /\ Forall2 (fun f v => if f_skip f then v = f_tydefault f else fits px_inverse c Gdeep 1 (f_ty f) v) [fld (chars "0") false (VSeq []) (TSeq SVec (TNamed 0))] [VSeq []]).
    split; [reflexivity|]. constructor; [|constructor]. cbn [f_skip f_ty fld]. cbn [fits seq_inv]. split; [constructor|]. split; [exact I|]. change (lenN (@nil val)) with 0. lia.
  - replace (S (S (2 * S n))) with (S (S (S (S (2 * n))))) by lia. cbn [tower]. remember (S (S (2 * n))) as m.
    change (existsb f_skip [fld (chars "0") false (VSeq []) (TSeq SVec (TNamed 0))] = false /\ Forall2 (fun f v => if f_skip f then v = f_tydefault f else fits px_inverse c Gdeep (S m) (f_ty f) v) [fld (chars "0") false (VSeq []) (TSeq SVec (TNamed 0))] [VSeq [tower n]]).
    split; [reflexivity|]. constructor; [|constructor]. cbn [f_skip f_ty fld]. cbn [fits seq_inv]. split; [constructor; [exact IH|constructor]|]. split; [exact I|]. change (lenN [tower n]) with 1. lia.
Qed.
(** Eight bytes more, two levels more: whatever number of nested calls there is room
    for, some input in proportion takes more, and is accepted. *)
Theorem C72_bin_no_limit c n : cfg_ok c -> 1 <= alloc_max c (TNamed 0) -> slice_fits c (8 * (N.of_nat n + 1)) ->
  lenN (tower_bytes n) = 8 * (N.of_nat n + 1) /\ nesting (tower n) = (2 * n + 2)%nat /\
  encodes Gdeep (TNamed 0) (tower n) (tower_bytes n) /\ decodes c Gdeep (TNamed 0) (tower_bytes n) (Ok (tower n)) /\
  (forall k, (k < 2 * n + 2)%nat -> snd (de_bin c Gdeep (tower_bytes n) k (TNamed 0) 0) = NoFuel).
Proof.
  intros Hc Ha Hs. split; [apply tower_bytes_len|]. split; [apply tower_nesting|].
  assert (E : encodes Gdeep (TNamed 0) (tower n) (tower_bytes n)) by (apply (ser_returns Gdeep _ (TNamed 0) (tower n) [] (tower_bytes n) (tower_ser n []))).
  split; [exact E|]. assert (D : decodes c Gdeep (TNamed 0) (tower_bytes n) (Ok (tower n))).
  { destruct (C01_bin_roundtrip c Gdeep (TNamed 0) (tower n) Hc) as (bs & E' & D); [exists (S (S (2 * n))); apply tower_fits; assumption|].
    pose proof (returns_inj _ _ _ E E') as Q. injection Q as <-. apply D. rewrite tower_bytes_len. exact Hs. }
  split; [exact D|]. intros k Hk. destruct (de_bin c Gdeep (tower_bytes n) k (TNamed 0) 0) as [o1 r] eqn:Er.
  assert (Rr : r = NoFuel \/ r <> NoFuel) by (destruct r; auto; right; discriminate). destruct Rr as [->|Rr]; [reflexivity|exfalso].
  pose proof (de_returns _ _ _ _ _ _ _ _ Er Rr) as R1. destruct R1 as [k1 R1]. destruct D as [k2 D]. specialize (R1 (Nat.max k1 k2) ltac:(lia)). specialize (D (Nat.max k1 k2) ltac:(lia)).
  unfold deserialize_bin in D. rewrite R1 in D. cbn [snd] in D. subst r.
  apply (C72_bin_calls c Gdeep (TNamed 0) (tower_bytes n) 0) in Er.
  - rewrite tower_nesting in Er. lia.
  - constructor; [|constructor]. constructor; [|constructor]. repeat split.
  - repeat constructor.
  - repeat constructor.
  - split; exact I.
Qed.

(** The same in the text formats: [[[[...]]]] and ([([...])]). *)
Fixpoint tower_json (n : nat) : str := match n with O => chars "[[]]" | S m => chars "[[" ++ tower_json m ++ chars "]]" end.
Fixpoint tower_ron (n : nat) : str := match n with O => chars "([])" | S m => chars "([" ++ tower_ron m ++ chars "])" end.
Lemma tower_json_len n : lenN (tower_json n) = 4 * (N.of_nat n + 1).
Proof. induction n as [|n IH]; [reflexivity|]. cbn [tower_json]. rewrite !lenN_app, IH. change (lenN (chars "[[")) with 2. change (lenN (chars "]]")) with 2. lia. Qed.
Lemma tower_ron_len n : lenN (tower_ron n) = 4 * (N.of_nat n + 1).
Proof. induction n as [|n IH]; [reflexivity|]. cbn [tower_ron]. rewrite !lenN_app, IH. change (lenN (chars "([")) with 2. change (lenN (chars "])")) with 2. lia. Qed.
Fixpoint tower_doc (n : nat) : doc := match n with O => JArr [JArr []] | S m => JArr [JArr [tower_doc m]] end.
Fixpoint tower_rdoc (n : nat) : rdoc := match n with O => RTup [RList []] | S m => RTup [RList [tower_rdoc m]] end.
Lemma tower_denotes F n : denotes F (tower_doc n) (tower_json n).
Proof.
  assert (N0 : gap []) by constructor.
  induction n as [|n IH]; cbn [tower_doc tower_json].
  - change (chars "[[]]") with (91 :: ([] ++ (91 :: [] ++ [93]) ++ []) ++ [93]). apply dn_arr. apply eo_one; auto. apply dn_arr0. exact N0.
  - replace (chars "[[" ++ tower_json n ++ chars "]]") with (91 :: ([] ++ (91 :: ([] ++ tower_json n ++ []) ++ [93]) ++ []) ++ [93]) by (cbn [app chars]; rewrite !app_nil_r; cbn; rewrite <- app_assoc; reflexivity).
    apply dn_arr. apply eo_one; auto. apply dn_arr. apply eo_one; auto.
Qed.
Lemma tower_rdenotes F n : rdenotes F (tower_rdoc n) (tower_ron n).
Proof.
  assert (N0 : gap []) by constructor.
  induction n as [|n IH]; cbn [tower_rdoc tower_ron].
  - change (chars "([])") with (40 :: ([] ++ (91 :: [] ++ [93]) ++ []) ++ [41]). apply rn_tup. apply rs_one; auto. apply rn_list. apply rs_nil. exact N0.
  - replace (chars "([" ++ tower_ron n ++ chars "])") with (40 :: ([] ++ (91 :: ([] ++ tower_ron n ++ []) ++ [93]) ++ []) ++ [41]) by (cbn [app chars]; rewrite !app_nil_r; cbn; rewrite <- app_assoc; reflexivity).
    apply rn_tup. apply rs_one; auto. apply rn_list. apply rs_one; auto.
Qed.
Lemma tower_means F c n : means F c Gdeep (S (S (2 * n))) (TNamed 0) (tower_doc n) (tower n).
Proof.
  induction n as [|n IH].
  - change (existsb f_hasproxy [fld (chars "0") false (VSeq []) (TSeq SVec (TNamed 0))] = false /\ exists ds ws, JArr [JArr []] = JArr ds /\ tuple_means (means F c Gdeep 1) [TSeq SVec (TNamed 0)] ds ws /\ VSeq [VSeq []] = VSeq ws).
    split; [reflexivity|]. exists [JArr []], [VSeq []]. split; [reflexivity|]. split; [|reflexivity]. constructor; [|constructor]. cbn [means]. exists [], []. split; [reflexivity|]. split; [constructor|reflexivity].
  - replace (S (S (2 * S n))) with (S (S (S (S (2 * n))))) by lia. cbn [tower tower_doc]. remember (S (S (2 * n))) as m.
    change (existsb f_hasproxy [fld (chars "0") false (VSeq []) (TSeq SVec (TNamed 0))] = false /\ exists ds ws, JArr [JArr [tower_doc n]] = JArr ds /\ tuple_means (means F c Gdeep (S m)) [TSeq SVec (TNamed 0)] ds ws /\ VSeq [VSeq [tower n]] = VSeq ws).
    split; [reflexivity|]. exists [JArr [tower_doc n]], [VSeq [tower n]]. split; [reflexivity|]. split; [|reflexivity]. constructor; [|constructor]. cbn [means]. exists [tower_doc n], [tower n]. split; [reflexivity|]. split; [constructor; [exact IH|constructor]|reflexivity].
Qed.
Lemma tower_rmeans F c n : rmeans F c Gdeep (S (S (2 * n))) (TNamed 0) (tower_rdoc n) (tower n).
Proof.
  induction n as [|n IH].
  - change (existsb f_hasproxy [fld (chars "0") false (VSeq []) (TSeq SVec (TNamed 0))] = false /\ [fld (chars "0") false (VSeq []) (TSeq SVec (TNamed 0))] <> [] /\ exists ds ws, RTup [RList []] = RTup ds /\ tuple_means (rmeans F c Gdeep 1) [TSeq SVec (TNamed 0)] ds ws /\ VSeq [VSeq []] = VSeq ws).
    split; [reflexivity|]. split; [discriminate|]. exists [RList []], [VSeq []]. split; [reflexivity|]. split; [|reflexivity]. constructor; [|constructor]. cbn [rmeans rmeans1]. exists [], []. split; [reflexivity|]. split; [constructor|reflexivity].
  - replace (S (S (2 * S n))) with (S (S (S (S (2 * n))))) by lia. cbn [tower tower_rdoc]. remember (S (S (2 * n))) as m.
    change (existsb f_hasproxy [fld (chars "0") false (VSeq []) (TSeq SVec (TNamed 0))] = false /\ [fld (chars "0") false (VSeq []) (TSeq SVec (TNamed 0))] <> [] /\ exists ds ws, RTup [RList [tower_rdoc n]] = RTup ds /\ tuple_means (rmeans F c Gdeep (S m)) [TSeq SVec (TNamed 0)] ds ws /\ VSeq [VSeq [tower n]] = VSeq ws).
    split; [reflexivity|]. split; [discriminate|]. exists [RList [tower_rdoc n]], [VSeq [tower n]]. split; [reflexivity|]. split; [|reflexivity]. constructor; [|constructor]. cbn [rmeans rmeans1]. exists [tower_rdoc n], [tower n]. split; [reflexivity|]. split; [constructor; [exact IH|constructor]|reflexivity].
Qed.
Theorem C72_text_no_limit F c n : nesting (tower n) = (2 * n + 2)%nat /\
  lenN (tower_json n) = 4 * (N.of_nat n + 1) /\ parses F c Gdeep Json (TNamed 0) (tower_json n) (Ok (tower n)) /\
  lenN (tower_ron n) = 4 * (N.of_nat n + 1) /\ parses F c Gdeep Ron (TNamed 0) (tower_ron n) (Ok (tower n)).
Proof.
  assert (N0 : gap []) by constructor.
  split; [apply tower_nesting|]. split; [apply tower_json_len|]. split.
  - apply (C60_json_document F c Gdeep (TNamed 0) (tower_doc n)); [repeat constructor| |eexists; apply tower_means].
    exists [], (tower_json n), []. rewrite app_nil_r. repeat split; auto. apply tower_denotes.
  - split; [apply tower_ron_len|]. apply (C63_ron_document F c Gdeep (TNamed 0) (tower_rdoc n)); [repeat constructor| |eexists; left; apply tower_rmeans].
    exists [], (tower_ron n), []. rewrite app_nil_r. repeat split; auto. apply tower_rdenotes.
Qed.

(** ** Writing *)
(** Writing a value takes nested calls in proportion to its nesting only, however
    many elements it has. *)
Section Write.
  Variable G : env.
  Variable H : nat.
  Hypothesis HP : Forall no_proxy_decl G.
  Hypothesis HG : env_all no_proxy G.
  Hypothesis HH : Forall (fun d => Forall (fun t => (height t <= H)%nat) (decl_types d)) G.
  Definition writes_in (n : nat) (t : ty) (v : val) : Prop := forall out, ser_bin G n t v out <> NoFuel.
  Lemma w_mono n m t v : (n <= m)%nat -> writes_in n t v -> writes_in m t v.
  Proof. intros Hm Hw out E. destruct (ser_bin G n t v out) as [x|e|p|] eqn:En; [| | |exact (Hw out En)]; rewrite (ser_bin_mono G n m t v out _ Hm En) in E by discriminate; discriminate. Qed.
  Lemma rb_nf {E A B} (x : res E A) (f : A -> res E B) : x <> NoFuel -> (forall a, f a <> NoFuel) -> rbind x f <> NoFuel.
  Proof. destruct x; cbn; intros H1 H2; try discriminate; auto. Qed.
  Lemma w_items n t l : Forall (writes_in n t) l -> forall out, BinModel.ser_items (ser_bin G n) t l out <> NoFuel.
  Proof. induction 1 as [|v l Hv _ IH]; intro out; cbn [BinModel.ser_items]; [discriminate|]. apply rb_nf; [apply Hv | exact IH]. Qed.
  Lemma w_entries n tk tv l : Forall (fun e => writes_in n tk (fst e) /\ writes_in n tv (snd e)) l -> forall out, BinModel.ser_entries (ser_bin G n) tk tv l out <> NoFuel.
  Proof. induction 1 as [|[x y] l [Hx Hy] _ IH]; intro out; cbn [BinModel.ser_entries]; [discriminate|]. apply rb_nf; [apply Hx|]. intro o1. apply rb_nf; [apply Hy | exact IH]. Qed.
  Lemma w_tys n ts : forall l, (forall t v, In t ts -> In v l -> writes_in n t v) -> forall out, BinModel.ser_tys (ser_bin G n) ts l out <> NoFuel.
  Proof. induction ts as [|t ts IH]; intros [|v l] Hw out; cbn [BinModel.ser_tys]; try discriminate. apply rb_nf; [apply Hw; left; reflexivity|]. intro. apply IH. intros; apply Hw; right; assumption. Qed.
  Lemma w_fields n hs fs : forall l, (forall f v, In f fs -> In v l -> writes_in n (f_ty f) v) -> forall out, BinModel.ser_fields (ser_bin G n) hs fs l out <> NoFuel.
  Proof.
    induction fs as [|f fs IH]; intros [|v l] Hw out; cbn [BinModel.ser_fields]; try discriminate.
    assert (Hr : forall o, BinModel.ser_fields (ser_bin G n) hs fs l o <> NoFuel) by (apply IH; intros; apply Hw; right; assumption).
    destruct (hs && f_skip f); [apply Hr|]. apply rb_nf; [apply Hw; left; reflexivity|exact Hr].
  Qed.
  Lemma nest_in v l m : (S (deepest (map nesting l)) <= S m)%nat -> In v l -> (nesting v <= m)%nat.
  Proof. intros Hl Hv. pose proof (deepest_in (nesting v) (map nesting l) (in_map nesting _ _ Hv)). lia. Qed.
  Lemma write_depth m : forall t, (height t <= H)%nat -> ty_all no_proxy t -> forall v, (nesting v <= m)%nat -> writes_in (m * S (S H) + S (height t)) t v.
  Proof.
    assert (Q : forall m0 t v, (forall t, (height t <= H)%nat -> ty_all no_proxy t -> forall v, (nesting v <= m0)%nat -> writes_in (m0 * S (S H) + S (height t)) t v) ->
      (height t <= H)%nat -> ty_all no_proxy t -> (nesting v <= m0)%nat -> forall k, writes_in (S m0 * S (S H) + k) t v).
    { intros m0 t v IH Ht Hp Hn k. eapply w_mono; [|apply (IH t Ht Hp v Hn)]. lia. }
    induction m as [m IHm] using lt_wf_ind. intro t.
    assert (Rec : forall l, (S (deepest (map nesting l)) <= m)%nat -> forall t v k, (height t <= H)%nat -> ty_all no_proxy t -> In v l -> writes_in (m * S (S H) + k) t v).
    { intros l Hl t' v k Ht Hp Hv. destruct m as [|m0]; [lia|]. apply (Q m0); [apply IHm; lia | exact Ht | exact Hp | eapply nest_in; eassumption]. }
    unfold env_all in HG. rewrite Forall_forall in HG, HP, HH.
    induction t as [k| | | | | |t' IHt|k t' IHt|k tk tv IHk IHv|n t' IHt|ts IHts|t' IHt| | |p t' IHt|i] using ty_ind2; intros Ht Hp v Hn out; cbn [height] in *; rewrite Nat.add_succ_r; cbn [ser_bin]; cbn [ty_all] in Hp; destruct Hp as [Hpx Hp]; cbn [no_proxy] in Hpx;
      try contradiction.
    - destruct k, v; discriminate.
    - destruct v; discriminate.
    - destruct v; discriminate.
    - destruct v; discriminate.
    - destruct v; discriminate.
    - destruct v; discriminate.
    - destruct v; try discriminate. apply rb_nf; [discriminate|]. intro. apply IHt; [lia|exact Hp|exact Hn].
    - destruct v as [| | | | | | |l| | | |]; try discriminate. apply rb_nf; [discriminate|]. apply w_items. apply Forall_forall. intros x Hx. apply (Rec l); auto. lia.
    - destruct Hp as [Hk Hv]. destruct v as [| | | | | | | |l| | |]; try discriminate. apply rb_nf; [discriminate|]. cbn [nesting] in Hn. destruct m as [|m0]; [lia|].
      apply w_entries. apply Forall_forall. intros [x y] Hx. pose proof (deepest_in _ _ (in_map (fun e => Nat.max (nesting (fst e)) (nesting (snd e))) _ _ Hx)) as B. cbn [fst snd] in *.
      split; (apply (Q m0); [apply IHm; lia | lia | assumption | lia]).
    - destruct v as [| | | | | | |l| | | |]; try discriminate. apply w_items. apply Forall_forall. intros x Hx. apply (Rec l); auto. lia.
    - destruct v as [| | | | | | |l| | | |]; try discriminate. apply w_tys. intros t x Ht' Hx. apply (Rec l); auto.
      + pose proof (deepest_in _ _ (in_map height _ _ Ht')). lia.
      + apply ty_all_list in Hp. rewrite Forall_forall in Hp. auto.
    - apply IHt; [lia|exact Hp|exact Hn].
    - destruct v; try discriminate. 
    - destruct v; try discriminate. destruct (_ <? _)%Z; discriminate.
    - destruct (nth_error G i) as [dd|] eqn:EG; [|destruct v; discriminate]. apply nth_error_In in EG. pose proof (HG _ EG) as H1. pose proof (HP _ EG) as H2. pose proof (HH _ EG) as H3.
      destruct dd as [dflt nul fs|tr fs|vs|p t']; cbn [decl_all no_proxy_decl decl_types] in *; [| | |contradiction].
      + destruct v as [| | | | | | |l| | | |]; try discriminate. apply w_fields. intros f x Hf Hx. rewrite Forall_forall in H1, H3. apply (Rec l); auto; [apply H3; apply in_map; exact Hf | apply (H1 f Hf)].
      + destruct v as [| | | | | | |l| | | |]; try discriminate. apply w_fields. intros f x Hf Hx. rewrite Forall_forall in H1, H3. apply (Rec l); auto; [apply H3; apply in_map; exact Hf | apply (H1 f Hf)].
      + destruct v as [| | | | | | | | |tag l| |]; try discriminate. destruct (nth_error vs (N.to_nat tag)) as [vr|] eqn:EV; [|discriminate]. apply nth_error_In in EV.
        rewrite Forall_forall in H1, H3. specialize (H1 _ EV). apply rb_nf; [discriminate|]. intro o1. destruct (v_body vr) as [|ts|fs] eqn:EB.
        * destruct l; discriminate.
        * apply w_tys. intros t x Hf Hx. rewrite Forall_forall in H1. apply (Rec l); auto. apply H3. apply in_flat_map. exists vr. rewrite EB. auto.
        * apply w_fields. intros f x Hf Hx. rewrite Forall_forall in H1. apply (Rec l); auto; [|apply (H1 f Hf)]. apply H3. apply in_flat_map. exists vr. rewrite EB. split; [exact EV|apply in_map; exact Hf].
  Qed.
End Write.
Theorem C72_write_stack G t : env_all no_proxy G -> Forall no_proxy_decl G -> ty_all no_proxy t ->
  exists K, forall v out, ser_bin G (K * (nesting v + 1)) t v out <> NoFuel.
Proof.
  intros HG HP Ht.
  set (H := deepest (height t :: map (fun d => deepest (map height (decl_types d))) G)).
  assert (HH : Forall (fun d => Forall (fun t => (height t <= H)%nat) (decl_types d)) G).
  { apply Forall_forall. intros d0 Hd0. apply Forall_forall. intros t0 Ht0. unfold H.
    pose proof (deepest_in (height t0) (map height (decl_types d0)) (in_map height _ _ Ht0)) as A.
    assert (B : In (deepest (map height (decl_types d0))) (height t :: map (fun d => deepest (map height (decl_types d))) G)) by (right; apply (in_map (fun d => deepest (map height (decl_types d)))); exact Hd0).
    apply deepest_in in B. eapply Nat.le_trans; [exact A|exact B]. }
  assert (Hh : (height t <= H)%nat) by (unfold H; apply deepest_in; left; reflexivity).
  exists (S (S H)). intros v out. pose proof (write_depth G H HP HG HH (nesting v) t Hh Ht v (le_n _)) as W.
  apply (w_mono G _ (S (S H) * (nesting v + 1)) t v) in W; [apply W|]. lia.
Qed.

(** ** Concrete cases *)
Lemma Gmem_guarded : guarded Gmem.
Proof.
  exists (fun i => i). intros [|[|i]] d j E Hj; cbn in E; [injection E as <- | injection E as <- | destruct i; discriminate]; cbn in Hj; [contradiction|]. lia.
Qed.
Example C72_ex : guarded Gmem /\ Forall (defaults_within 1) Gmem /\ nesting vmem = 4%nat /\ (exists K, forall c d o o' v, cfg_ok c -> slice_fits c (lenN d) -> o <= lenN d -> decodes_at c Gmem (TNamed 1) d o o' (Ok v) ->
    (nesting v <= K * (N.to_nat (lenN d - o) + 1) + 1)%nat).
Proof.
  assert (D : Forall (defaults_within 1) Gmem) by (constructor; [exact I | constructor; [|constructor]; repeat (apply Forall_cons || apply Forall_nil); cbn; intro; try discriminate; lia]).
  split; [apply Gmem_guarded|]. split; [exact D|]. split; [reflexivity|].
  assert (P : env_all no_proxy Gmem) by (unfold env_all; repeat (apply Forall_cons || apply Forall_nil || split || exact I)).
  apply C72_bin_nesting; [apply Gmem_guarded | exact P | repeat constructor | exact D | split; exact I].
Qed.
Print Assumptions C72_bin_stack.
Print Assumptions C72_bin_nesting.
Print Assumptions C72_bin_no_limit.
Print Assumptions C72_text_no_limit.
Print Assumptions C72_json_nesting.
Print Assumptions C72_ron_nesting.
Print Assumptions C72_write_stack.
