(** C71: what is read is no larger than the input pays for. *)
From Verif Require Import BinFuel Base Utf8 Types TyAll BinModel BinRead BinLocal SpecMem BinMem BinMemAll PropsBin Text TextModel SpecText SpecGram SpecTok SpecDoc SpecAcc SpecRon SpecRonAcc TextMem TextRun TextFuel TextEx PropsDoc PropsAcc PropsRon PropsRonAcc.
Local Open Scope N_scope.

(** ** One bound for finitely many types *)
Lemma list_bound {A} (Q : N -> A -> Prop) (l : list A) : (forall a b x, Q a x -> a <= b -> Q b x) -> Forall (fun x => exists n, Q n x) l -> exists n, Forall (Q n) l.
Proof.
  intros Qm H. induction H as [|x l [n Hn] Hl [m IH]]; [exists 0; constructor|]. exists (N.max n m). constructor; [eapply Qm; [exact Hn | lia]|].
  revert IH. apply Forall_impl. intros y Hy. eapply Qm; [exact Hy | lia].
Qed.
Section Bound.
  Variable P : ty -> N -> Prop.
  Hypothesis Pm : forall t a b, P t a -> a <= b -> P t b.
  Definition upto (S : N) (t : ty) : Prop := P t S.
  Definition some (t : ty) : Prop := exists n, P t n.
  Lemma upto_le a b t : a <= b -> ty_all (upto a) t -> ty_all (upto b) t.
  Proof. intro H. apply ty_all_impl. intros x Hx. exact (Pm _ _ _ Hx H). Qed.
  Lemma ty_bound : forall t, ty_all some t -> exists S, ty_all (upto S) t.
  Proof.
    apply (ty_ind2 (fun t => ty_all some t -> exists S, ty_all (upto S) t)).
    all: try (intros; match goal with H : ty_all some _ |- _ => cbn [ty_all] in H; destruct H as [[n0 H0] _]; exists n0; cbn [ty_all]; split; [exact H0 | exact I] end; fail).
    - intros t IH [[n Hn] H]. destruct (IH H) as [m Hm]. exists (N.max n m). split; [eapply Pm; [exact Hn | lia] | eapply upto_le; [|exact Hm]; lia].
    - intros k t IH [[n Hn] H]. destruct (IH H) as [m Hm]. exists (N.max n m). split; [eapply Pm; [exact Hn | lia] | eapply upto_le; [|exact Hm]; lia].
    - intros k a b IHa IHb [[n Hn] [Ha Hb]]. destruct (IHa Ha) as [m1 Hm1]. destruct (IHb Hb) as [m2 Hm2]. exists (N.max n (N.max m1 m2)).
      split; [eapply Pm; [exact Hn | lia] | split; [eapply upto_le; [|exact Hm1]; lia | eapply upto_le; [|exact Hm2]; lia]].
    - intros m0 t IH [[n Hn] H]. destruct (IH H) as [m Hm]. exists (N.max n m). split; [eapply Pm; [exact Hn | lia] | eapply upto_le; [|exact Hm]; lia].
    - intros ts IH H. cbn [ty_all] in H. destruct H as [[n Hn] H]. apply ty_all_list in H.
      destruct (list_bound (fun S => ty_all (upto S)) ts) as [m Hm]; [intros a b x Hx Hab; eapply upto_le; eassumption | rewrite Forall_forall in *; intros x Hx; apply IH; [exact Hx | apply H; exact Hx]|].
      exists (N.max n m). cbn [ty_all]. split; [eapply Pm; [exact Hn | lia]|]. apply ty_all_list. revert Hm. apply Forall_impl. intros x Hx. eapply upto_le; [|exact Hx]. lia.
    - intros t IH [[n Hn] H]. destruct (IH H) as [m Hm]. exists (N.max n m). split; [eapply Pm; [exact Hn | lia] | eapply upto_le; [|exact Hm]; lia].
    - intros p t IH [[n Hn] H]. destruct (IH H) as [m Hm]. exists (N.max n m). split; [eapply Pm; [exact Hn | lia] | eapply upto_le; [|exact Hm]; lia].
  Qed.
  Lemma fields_bound fs : Forall (field_all some) fs -> exists S, Forall (field_all (upto S)) fs.
  Proof.
    intro H. apply (list_bound (fun S => field_all (upto S))); [intros a b x Hx Hab; eapply upto_le; eassumption|]. revert H. apply Forall_impl. intros f Hf. apply ty_bound. exact Hf.
  Qed.
  Lemma decl_le a b d : a <= b -> decl_all (upto a) d -> decl_all (upto b) d.
  Proof.
    intros Hab H. assert (E : env_all (upto a) [d]) by (constructor; [exact H | constructor]).
    apply (env_all_impl (upto a) (upto b)) in E; [inversion E; assumption|]. intros x Hx. exact (Pm _ _ _ Hx Hab).
  Qed.
  Lemma env_bound G : env_all some G -> exists S, env_all (upto S) G.
  Proof.
    intro H. unfold env_all in *. apply (list_bound (fun S => decl_all (upto S))); [intros a b x Hx Hab; eapply decl_le; eassumption|].
    revert H. apply Forall_impl. intros [dflt nul fs|tr fs|vs|p t] Hd; cbn [decl_all] in *.
    - apply fields_bound. exact Hd.
    - apply fields_bound. exact Hd.
    - apply (list_bound (fun S v => match v_body v with BUnit => True | BTuple ts => Forall (ty_all (upto S)) ts | BStruct fs => Forall (field_all (upto S)) fs end)).
      + intros a b v Hv Hab. destruct (v_body v) as [|ts|fs]; [exact I| |]; revert Hv; apply Forall_impl; intros x Hx; eapply upto_le; eassumption.
      + revert Hd. apply Forall_impl. intros v Hv. destruct (v_body v) as [|ts|fs]; [exists 0; exact I| |apply fields_bound; exact Hv].
        apply (list_bound (fun S => ty_all (upto S))); [intros a b x Hx Hab; eapply upto_le; eassumption|]. revert Hv. apply Forall_impl. intros t Ht. apply ty_bound. exact Ht.
    - apply ty_bound. exact Hd.
  Qed.
End Bound.

(** ** Binary *)
(** *** The contents of what was read are at most as many as the bytes read for it:
    every number, character, variant tag and present option has a byte of its own. *)
Theorem C71_bin_contents c G t d o o' v :
  cfg_ok c -> slice_fits c (lenN d) -> o <= lenN d ->
  env_all no_proxy G -> Forall no_proxy_decl G -> Forall skipped_empty G -> ty_all no_proxy t ->
  decodes_at c G t d o o' (Ok v) -> contents v <= o' - o.
Proof.
  intros Hc Hf Ho HG HD HS Ht [n H]. specialize (H n (le_n n)). destruct (contents_all c G Hc HG HD HS n t Ht d o o' v Hf Ho H) as (L1 & L2 & L3). lia.
Qed.

(** *** With its structure: linear, when no collection has elements that are read
    from nothing. *)
Theorem C71_bin_linear G t :
  env_all (bin_linear G) G -> Forall no_proxy_decl G -> ty_all (bin_linear G) t ->
  exists K, forall c d o o' v, cfg_ok c -> slice_fits c (lenN d) -> o <= lenN d ->
    decodes_at c G t d o o' (Ok v) -> cells v <= K * (o' - o + 1).
Proof.
  intros H1 HD H2.
  set (P := fun t S => no_proxy t /\ solid_elements G t /\ exists n, shell G t n /\ n <= S).
  assert (Pm : forall t a b, P t a -> a <= b -> P t b) by (intros t' a b (A1 & A2 & n & A3 & A4) Hab; split; [exact A1|]; split; [exact A2|]; exists n; split; [exact A3 | lia]).
  assert (Ps : forall x, bin_linear G x -> some P x).
  { intros x (A1 & A3 & A2). destruct (shell_ex G x A3) as [n Hn]. exists n. split; [exact A1|]. split; [exact A2|]. exists n. split; [exact Hn | lia]. }
  destruct (ty_bound P Pm t) as [S1 T]; [revert H2; apply ty_all_impl; exact Ps|].
  destruct (env_bound P Pm G) as [S2 E]; [revert H1; apply env_all_impl; exact Ps|].
  assert (B : exists S3, Forall (fun d => match d with DEnum vs => Forall (fun v => fine_body G S3 (v_body v)) vs | _ => True end) G).
  { assert (Bm : forall a b x, fine_body G a x -> a <= b -> fine_body G b x).
    { intros a b [|ts|fs] Hx Hab; cbn [fine_body] in *; [exact I| |]; destruct Hx as (ns & X1 & X2); exists ns; split; [exact X1 | lia | exact X1 | lia]. }
    assert (Nd : forall x, ty_all (bin_linear G) x -> exists n, shell G x n) by (intros x Hx; apply ty_all_node in Hx; destruct Hx as (_ & Hx & _); exact (shell_ex G x Hx)).
    apply (list_bound (fun S (d : decl) => match d with DEnum vs => Forall (fun v => fine_body G S (v_body v)) vs | _ => True end)).
    - intros a b x; destruct x as [| |vs|]; intros Hx Hab; try exact I. revert Hx. apply Forall_impl. intros v Hv. eapply Bm; eassumption.
    - unfold env_all in H1. revert H1. apply Forall_impl. intro x; destruct x as [| |vs|]; intro Hd; try (exists 0; exact I). cbn [decl_all] in Hd.
      apply (list_bound (fun S v => fine_body G S (v_body v))); [intros a b v Hv Hab; eapply Bm; eassumption|]. revert Hd. apply Forall_impl. intros v Hv.
      destruct (v_body v) as [|ts|fs]; cbn [fine_body]; [exists 0; exact I| |].
      + destruct (ex_list (shell G) ts) as [ns Hns]; [revert Hv; apply Forall_impl; exact Nd|]. exists (sumn ns), ns. split; [exact Hns | lia].
      + destruct (ex_list (fun f n => shell G (f_ty f) n) fs) as [ns Hns]; [revert Hv; apply Forall_impl; intros f Hf; apply Nd; exact Hf|]. exists (sumn ns), ns. split; [exact Hns | lia]. }
  destruct B as [S3 B]. set (S := N.max 1 (N.max S1 (N.max S2 S3))).
  assert (Fi : forall x a, a <= S -> upto P a x -> fine G S x) by (intros x a Ha (X1 & X2 & n & X3 & X4); split; [exact X1|]; split; [exact X2|]; exists n; split; [exact X3 | lia]).
  assert (T' : ty_all (fine G S) t) by (revert T; apply ty_all_impl; intros x; apply Fi; lia).
  assert (E' : env_all (fine G S) G) by (revert E; apply env_all_impl; intros x; apply Fi; lia).
  exists (4 * S). intros c d o o' v Hc Hf Ho [n H]. specialize (H n (le_n n)).
  destruct (fine_node G S t T') as (m & Hm & Hle).
  assert (HB : forall i vs, nth_error G i = Some (DEnum vs) -> Forall (fun v => fine_body G S (v_body v)) vs).
  { intros i vs Hi. apply nth_error_In in Hi. rewrite Forall_forall in B. specialize (B _ Hi). cbn in B. revert B. apply Forall_impl. intros v0 Hv.
    destruct (v_body v0) as [|ts|fs]; cbn [fine_body] in *; [exact I| |]; destruct Hv as (ns & X1 & X2); exists ns; split; [exact X1 | lia | exact X1 | lia]. }
  destruct (cells_all c G S Hc ltac:(lia) E' HB n t T' m Hm) as [A _]. destruct (A d o o' v Hf Ho H) as (L1 & L2 & L3). nia.
Qed.

(** *** A collection whose elements take at least a byte has no more elements than
    bytes were read for it (after the eight of the length). *)
Lemma tot_one l : tot (fun _ => 1) l = lenN l.
Proof. induction l as [|x l IH]; [reflexivity|]. rewrite tot_cons, IH. unfold lenN. cbn [length]. lia. Qed.
Lemma tot2_one l : tot2 (fun _ => 1) l = 2 * lenN l.
Proof. induction l as [|[x y] l IH]; [reflexivity|]. rewrite tot2_cons, IH. unfold lenN. cbn [length]. lia. Qed.
Theorem C71_bin_elements c G k t d o o' l :
  cfg_ok c -> slice_fits c (lenN d) -> o <= lenN d -> solid G t ->
  decodes_at c G (TSeq k t) d o o' (Ok (VSeq l)) -> lenN l + 8 <= o' - o.
Proof.
  intros Hc Hf Ho Hs [[|n] H]; [discriminate (H 0%nat (le_n _))|]. specialize (H (S n) (le_n _)). cbn [de_bin] in H.
  assert (Q : Costs c 1 (fun v => match v with VSeq l => Z.of_N (lenN l) + 8 | _ => 8 end)%Z (fun d => de_bin c G d (S n) (TSeq k t))).
  { cbn [de_bin]. apply (cost_bind c 1 (fun _ => 8)%Z _ (fun d => rd_usize c d) (fun d len => _)); [eapply cost_weaken; [apply cost_usize; exact Hc|]; cbv beta; lia|].
    intro len. apply (cost_bind c 1 (fun _ => 0)%Z _ (fun _ => match k with SVec | SHSet => with_capacity c t len | _ => bret tt end) (fun d _ => bmap VSeq (de_items (de_bin c G d n) k t len))).
    - destruct k; first [apply cost_capacity | apply cost_ret; lia].
    - intros _. apply cost_map. eapply cost_weaken; [apply (cost_items c 1 (fun d => de_bin c G d n) (fun _ => 1)); apply (solid_all c G Hc n t Hs)|].
      intro l0. cbv beta. rewrite tot_one. lia. }
  destruct (Q d o o' (VSeq l) Hf Ho H) as (L1 & L2 & L3). cbv beta iota in L3. lia.
Qed.
Theorem C71_bin_entries c G k tk tv d o o' l :
  cfg_ok c -> slice_fits c (lenN d) -> o <= lenN d -> solid G tk \/ solid G tv ->
  decodes_at c G (TMap k tk tv) d o o' (Ok (VMap l)) -> lenN l + 8 <= o' - o.
Proof.
  intros Hc Hf Ho Hs [[|n] H]; [discriminate (H 0%nat (le_n _))|]. specialize (H (S n) (le_n _)).
  assert (Q : Costs c 2 (fun v => match v with VMap l => 2 * Z.of_N (lenN l) + 16 | _ => 16 end)%Z (fun d => de_bin c G d (S n) (TMap k tk tv))).
  { cbn [de_bin]. apply (cost_bind c 2 (fun _ => 16)%Z _ (fun d => rd_usize c d) (fun d len => _)); [eapply cost_weaken; [apply cost_usize; exact Hc|]; cbv beta; lia|].
    intro len. apply (cost_bind c 2 (fun _ => 0)%Z _ (fun _ => match k with MHash => with_capacity c tk len | MBTree => bret tt end) (fun d _ => bmap VMap (de_entries (de_bin c G d n) k tk tv len))).
    - destruct k; first [apply cost_capacity | apply cost_ret; lia].
    - assert (Z0 : forall t, Costs c 2 (fun _ => 0)%Z (fun d => de_bin c G d n t)).
      { intros t d0 o0 o1 a0 Hf0 Ho0 H0. destruct (cost_none c G Hc n t d0 o0 o1 a0 Hf0 Ho0 H0) as (L1 & L2 & _). lia. }
      assert (Z1 : forall t, solid G t -> Costs c 2 (fun _ => 2)%Z (fun d => de_bin c G d n t)).
      { intros t Ht d0 o0 o1 a0 Hf0 Ho0 H0. destruct (solid_all c G Hc n t Ht d0 o0 o1 a0 Hf0 Ho0 H0) as (L1 & L2 & L3). lia. }
      intros _. apply cost_map. eapply cost_weaken.
      + destruct Hs as [Hs|Hs].
        * apply (cost_entries c 2 (fun d => de_bin c G d n) (fun _ => 1) k tk tv len 1 (-1)%Z); [eapply cost_weaken; [apply Z1; exact Hs|]; cbn; lia | eapply cost_weaken; [apply Z0|]; cbn; lia | lia].
        * apply (cost_entries c 2 (fun d => de_bin c G d n) (fun _ => 1) k tk tv len (-1)%Z 1%Z); [eapply cost_weaken; [apply Z0|]; cbn; lia | eapply cost_weaken; [apply Z1; exact Hs|]; cbn; lia | lia].
      + intro l0. cbv beta. rewrite tot2_one. lia. }
  destruct (Q d o o' (VMap l) Hf Ho H) as (L1 & L2 & L3). cbv beta iota in L3. lia.
Qed.
(** *** Not otherwise: eight bytes make a list of units of any length up to the
    largest usize. *)
Theorem C71_bin_units c n : cfg_ok c -> n < usize_mod c ->
  decodes c [] (TSeq SList TUnit) (le_bytes 8 n) (Ok (VSeq (repeat VUnit (N.to_nat n)))) /\
  (n <= alloc_max c TUnit -> decodes c [] (TSeq SVec TUnit) (le_bytes 8 n) (Ok (VSeq (repeat VUnit (N.to_nat n))))).
Proof.
  intros Hc Hn. assert (Hn64 : n < 2 ^ 64) by (unfold usize_mod in Hn; destruct Hc as [E|E]; rewrite E in Hn; [|exact Hn]; eapply N.lt_trans; [exact Hn | reflexivity]).
  assert (It : forall k, k = SVec \/ k = SList -> forall m m0 acc o, snd (iter_nat_m (fun o acc => bbind (de_bin c [] (le_bytes 8 n) (S m0) TUnit) (fun v => bret (seq_add k v acc)) o) m o acc) = Ok (acc ++ repeat VUnit m)).
  { intros k Hk m m0. induction m as [|m IH]; intros acc o; [cbn; rewrite app_nil_r; reflexivity|].
    cbn [iter_nat_m]. unfold seq2. cbn [de_bin]. unfold bbind at 1, bret. cbn [repeat].
    assert (E : seq_add k VUnit acc = acc ++ [VUnit]) by (destruct Hk as [-> | ->]; reflexivity). rewrite E, IH, <- app_assoc. reflexivity. }
  assert (Rd : rd_usize c (le_bytes 8 n) 0 = (8, Ok n)).
  { pose proof (Reads_usize8 c Hc (le_bytes 8 n) ltac:(unfold lenN; rewrite le_bytes_length; reflexivity)) as [R _]. specialize (R [] []). cbn [app] in R. rewrite app_nil_r in R.
    unfold lenN in R at 2. cbn [length N.of_nat] in R. rewrite R.
    - unfold lenN. rewrite le_bytes_length. rewrite of_le_le_bytes by exact Hn64. rewrite N.mod_small by exact Hn. reflexivity.
    - unfold slice_fits, lenN. rewrite le_bytes_length. destruct Hc as [E|E]; rewrite E; reflexivity. }
  split.
  - exists 2%nat. intros [|[|m]] Hm; [lia..|]. unfold deserialize_bin. cbn [de_bin]. unfold bbind at 1. rewrite Rd. unfold bbind at 1, bret at 1. cbv beta iota.
    unfold bmap, bbind at 1, de_items. rewrite iter_N_nat. pose proof (It SList (or_intror eq_refl) (N.to_nat n) m [] 8) as E. cbn [app] in E.
    destruct (iter_nat_m _ (N.to_nat n) 8 []) as [o2 r2] eqn:Ei. cbn [snd] in E. subst r2. reflexivity.
  - intro Ha. exists 2%nat. intros [|[|m]] Hm; [lia..|]. unfold deserialize_bin. cbn [de_bin]. unfold bbind at 1. rewrite Rd. unfold with_capacity. destruct (N.leb_spec n (alloc_max c TUnit)); [|lia]. unfold bbind at 1, bret at 1. cbv beta iota.
    unfold bmap, bbind at 1, de_items. rewrite iter_N_nat. pose proof (It SVec (or_introl eq_refl) (N.to_nat n) m [] 8) as E. cbn [app] in E.
    destruct (iter_nat_m _ (N.to_nat n) 8 []) as [o2 r2] eqn:Ei. cbn [snd] in E. subst r2. reflexivity.
Qed.

(** ** Text: at most a constant times the number of characters, where the constant
    only counts what the defaults of the fields of one struct amount to. *)
Theorem C71_json F c G D t text v : Forall distinct_names G ->
  env_all no_proxy G -> Forall no_proxy_decl G -> Forall no_transparent G -> Forall (spare_at_most D) G -> ty_all no_proxy t ->
  parses F c G Json t text (Ok v) -> cells v <= (D + 1) * lenN text.
Proof.
  intros HG HP HD HT HS Ht P. apply (C66_accepted F c G t text v HG) in P. destruct P as (xs & r & nx & n & H1 & _ & H).
  pose proof (json_cells F c G D HG HP HD HT HS n nx t xs v Ht H). apply width_tokens in H1. nia.
Qed.
Theorem C71_ron F c G D t text v : Forall distinct_ron G -> Forall (spare_at_most D) G ->
  parses F c G Ron t text (Ok v) -> cells v <= (D + 1) * lenN text.
Proof.
  intros HG HS P. apply (C67_accepted F c G t text v HG) in P. destruct P as (xs & r & nx & n & H1 & _ & H).
  pose proof (ron_cells F c G D HG HS n nx t xs v H). apply width_tokens in H1. nia.
Qed.
(** Every program has such a constant. *)
Theorem C71_spare_exists G : exists D, Forall (spare_at_most D) G.
Proof.
  apply (list_bound spare_at_most); [intros a b [? ? fs|? fs|vs|p t] H Hab; cbn [spare_at_most] in *; try exact I; [lia|]; revert H; apply Forall_impl; intros v; destruct (v_body v); lia|].
  apply Forall_forall. intros [? ? fs|? fs|vs|p t] _; cbn [spare_at_most]; try (exists 0; exact I); [exists (spares fs); lia|].
  apply (list_bound (fun D v => match v_body v with BStruct fs => spares fs <= D | _ => True end)); [intros a b v; destruct (v_body v); lia|].
  apply Forall_forall. intros v _. destruct (v_body v) as [|ts|fs]; [exists 0; exact I | exists 0; exact I | exists (spares fs); lia].
Qed.
(** Nothing is left out when nothing has a default: the size is at most the length. *)
Corollary C71_json_plain F c G t text v : Forall distinct_names G ->
  env_all no_proxy G -> Forall no_proxy_decl G -> Forall no_transparent G -> ty_all no_proxy t ->
  Forall (fun d => match d with DTuple _ _ => True | DEnum vs => Forall (fun v => match v_body v with BStruct _ => False | _ => True end) vs | _ => False end) G ->
  parses F c G Json t text (Ok v) -> cells v <= lenN text.
Proof.
  intros HG HP HD HT Ht Hn P. rewrite <- (N.mul_1_l (lenN text)). apply (C71_json F c G 0 t text v HG HP HD HT) with (3 := P); [|exact Ht].
  revert Hn. apply Forall_impl. intros [? ? fs|? fs|vs|p t0] H; try contradiction; [exact I|]. revert H. apply Forall_impl. intros v0. destruct (v_body v0); tauto.
Qed.
(** Every element counts: a list or a map has fewer elements than cells. *)
Lemma cells_pos v : 1 <= cells v.
Proof. induction v as [| | | | | |w IH| | | | |]; cbn [cells]; try lia. Qed.
Theorem C71_elements_counted l : lenN l < cells (VSeq l).
Proof. rewrite vseq_cells. induction l as [|x l IH]; [cbn; lia|]. rewrite tot_cons. unfold lenN in *. cbn [length]. pose proof (cells_pos x). lia. Qed.
Theorem C71_entries_counted l : lenN l < cells (VMap l).
Proof.
  change (cells (VMap l)) with (1 + tot2 cells l). induction l as [|[x y] l IH]; [cbn; lia|]. rewrite tot2_cons. unfold lenN in *. cbn [length]. pose proof (cells_pos x). lia.
Qed.

(** ** Concrete cases *)
(** [enum Tree { Leaf, Node(Box<Tree>, u8), Tagged { name: String } }] and
    [struct Rec { id: u16, #[nserde(skip)] cache: Vec<u8>, trees: Vec<Tree>, m: BTreeMap<(), bool>, u: [(); 3], o: Option<Box<Rec>> }]:
    a recursive program with a skipped field, units and a map with keys of no bytes. *)
Definition Gmem : env :=
  [ DEnum [ {| v_name := chars "Leaf"; v_rename := None; v_body := BUnit |};
            {| v_name := chars "Node"; v_rename := None; v_body := BTuple [TBox (TNamed 0); TInt U8] |};
            {| v_name := chars "Tagged"; v_rename := None; v_body := BStruct [fld (chars "name") false (VStr []) TStr] |} ];
    DStruct false false
      [ fld (chars "id") false (VZ 0) (TInt U16);
        fld (chars "cache") true (VSeq []) (TSeq SVec (TInt U8));
        fld (chars "trees") false (VSeq []) (TSeq SVec (TNamed 0));
        fld (chars "m") false (VMap []) (TMap MBTree TUnit TBool);
        fld (chars "u") false VUnit (TArr 3 TUnit);
        fld (chars "o") false VNone (TOpt (TBox (TNamed 1))) ] ].
Lemma Gmem_fi i : (i < 2)%nat -> finite Gmem (TNamed i).
Proof.
  intro Hi. destruct i as [|[|i]]; [eapply fi_enum; reflexivity| |lia]. eapply fi_struct; [reflexivity|]. repeat constructor; right; repeat constructor.
Qed.
Lemma Gmem_tree : solid Gmem (TNamed 0).
Proof. eapply so_enum. reflexivity. Qed.
Lemma Gmem_linear : env_all (bin_linear Gmem) Gmem /\ Forall no_proxy_decl Gmem /\ ty_all (bin_linear Gmem) (TNamed 1).
Proof.
  pose proof (Gmem_fi 0 ltac:(lia)) as F0. pose proof (Gmem_fi 1 ltac:(lia)) as F1. pose proof Gmem_tree as S0.
  assert (B : forall t, no_proxy t -> finite Gmem t -> solid_elements Gmem t -> bin_linear Gmem t) by (intros; repeat split; assumption).
  split; [|split; [repeat constructor | split; [apply B; [exact I | exact F1 | exact I] | exact I]]].
  unfold env_all. constructor; [|constructor; [|constructor]]; cbn [decl_all v_body]; repeat (apply Forall_cons || apply Forall_nil); unfold field_all; cbn [ty_all f_ty fld v_body]; repeat (apply Forall_cons || apply Forall_nil); unfold field_all; cbn [ty_all f_ty fld];
    repeat split; try exact I; try assumption; try (constructor; try assumption; constructor; try assumption; fail).
  all: right; constructor.
Qed.
Example C71_ex_linear : exists K, forall c d o o' v, cfg_ok c -> slice_fits c (lenN d) -> o <= lenN d ->
  decodes_at c Gmem (TNamed 1) d o o' (Ok v) -> cells v <= K * (o' - o + 1).
Proof. destruct Gmem_linear as (H1 & H2 & H3). apply C71_bin_linear; assumption. Qed.
(** One of its values. *)
Definition bmem : list N := [7; 0;  1; 0; 0; 0; 0; 0; 0; 0;  1; 0; 2; 0; 2; 0; 0; 0; 0; 0; 0; 0; 104; 105; 9;  1; 0; 0; 0; 0; 0; 0; 0; 1;  0].
Definition vmem : val := VSeq [VZ 7; VSeq []; VSeq [VEnum 1 [VEnum 2 [VStr (chars "hi")]; VZ 9]]; VMap [(VUnit, VBool true)]; VSeq [VUnit; VUnit; VUnit]; VNone].
Example C71_ex_contents : decodes_at c64 Gmem (TNamed 1) bmem 0 35 (Ok vmem) /\ contents vmem = 7 /\ cells vmem = 18 /\ contents vmem <= 35 - 0.
Proof.
  assert (H : decodes_at c64 Gmem (TNamed 1) bmem 0 35 (Ok vmem)) by (exists 8%nat; intros m Hm; apply (BinFuel.de_bin_mono c64 Gmem bmem 8 m); [exact Hm | vm_compute; reflexivity | discriminate]).
  split; [exact H|]. split; [reflexivity|]. split; [reflexivity|].
  apply (C71_bin_contents c64 Gmem (TNamed 1) bmem 0 35 vmem); try exact H.
  - right. reflexivity.
  - vm_compute. reflexivity.
  - lia.
  - unfold env_all. repeat (apply Forall_cons || apply Forall_nil || split || exact I).
  - repeat constructor.
  - repeat (apply Forall_cons || apply Forall_nil); intros; try discriminate; reflexivity.
  - split; exact I.
Qed.
Example C71_ex_text : Forall (spare_at_most 8) Gtx /\ Forall no_transparent Gtx /\ env_all no_proxy Gtx /\ Forall no_proxy_decl Gtx /\
  forall F c text v, parses F c Gtx Json (TNamed 1) text (Ok v) \/ parses F c Gtx Ron (TNamed 1) text (Ok v) -> cells v <= 9 * lenN text.
Proof.
  assert (S8 : Forall (spare_at_most 8) Gtx) by (repeat (apply Forall_cons || apply Forall_nil); cbn; try exact I; lia).
  assert (NT : Forall no_transparent Gtx) by (repeat constructor).
  assert (NP : env_all no_proxy Gtx) by (unfold env_all; repeat (apply Forall_cons || apply Forall_nil || split || exact I)).
  assert (ND : Forall no_proxy_decl Gtx) by (repeat constructor).
  split; [exact S8|]. split; [exact NT|]. split; [exact NP|]. split; [exact ND|]. intros F c text v [P|P].
  - apply (C71_json F c Gtx 8 (TNamed 1) text v Gtx_names NP ND NT S8 (conj I I) P).
  - apply (C71_ron F c Gtx 8 (TNamed 1) text v Gtx_ron S8 P).
Qed.
(** Close to the bound: three characters, two cells (the brackets pay for the list). *)
Example C71_ex_close : parses toy c64 [] Json (TSeq SVec (TInt U8)) (chars "[1]") (Ok (VSeq [VZ 1])) /\ cells (VSeq [VZ 1]) = 2.
Proof. split; [apply (de_text_returns _ _ _ _ 14%nat); [vm_compute; reflexivity | discriminate] | reflexivity]. Qed.

Print Assumptions C71_bin_contents.
Print Assumptions C71_bin_linear.
Print Assumptions C71_bin_units.
Print Assumptions C71_json.
Print Assumptions C71_ron.
