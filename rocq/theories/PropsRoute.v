(** C74: values of portable types pass through any sequence of formats. *)
From Verif Require Import Base Utf8 Types TyAll BinModel BinRead BinFuel BinValid BinMore Text TextModel TextSim TextToks TextLex TextRead SpecText SpecValid
  TextFuel TextRun TextMain PropsBin TextEx PropsText PropsValid SpecRoute Route.
Local Open Scope N_scope.

(** Writing and reading in the three formats; the bytes written are a [Vec<u8>]
    in memory. *)
Definition wrote (F : flt) (c : cfg) (G : env) (t : ty) (f : format) (v : val) (doc : list N) : Prop :=
  match f with
  | Bin => encodes G t v doc /\ slice_fits c (lenN doc)
  | Txt fm => writes F c G fm t v doc
  end.
Definition reads_as (F : flt) (c : cfg) (G : env) (t : ty) (f : format) (doc : list N) (v : val) : Prop :=
  match f with
  | Bin => decodes c G t doc (Ok v)
  | Txt fm => parses F c G fm t doc (Ok v)
  end.
(** [v] written and read again in each format of [fs] in turn ends as [w]. *)
Definition sent (F : flt) (c : cfg) (G : env) (t : ty) : list format -> val -> val -> Prop :=
  route (wrote F c G t) (reads_as F c G t).

Lemma portable_text c G t v fm : portable G t -> has_type c G t v -> finite_floats G t v -> text_typed c G fm t v.
Proof. intros (H1 & H2 & H3) [n Hn] Hf. exists n. apply port_text; assumption. Qed.

(** Every value of a portable type, floats finite, small enough for a buffer:
    whatever the sequence of formats, all writes and reads succeed, and what
    comes out at the end is the value, never anything else. *)
Theorem C74_any_route F c G t v fs : flt_ok F -> cfg_ok c -> portable G t -> has_type c G t v -> finite_floats G t v ->
  (forall bs, encodes G t v bs -> slice_fits c (lenN bs)) ->
  sent F c G t fs v v /\ forall w, sent F c G t fs v w -> w = v.
Proof.
  intros HF Hc Hp Hv Hff Hfit.
  assert (Hone : forall f, exists doc, wrote F c G t f v doc /\ reads_as F c G t f doc v).
  { intros [|fm].
    - destruct (C01_bin_roundtrip c G t v Hc Hv) as (bs & He & Hd). exists bs. split; [split; [exact He | apply Hfit; exact He] | apply Hd; apply Hfit; exact He].
    - destruct (portable_text c G t v fm Hp Hv Hff) as [n Hn]. exact (text_round_trip F c G fm HF Hc n t v Hn). }
  assert (Hdet : forall f doc w, wrote F c G t f v doc -> reads_as F c G t f doc w -> w = v).
  { intros f doc w Hw Hr. destruct (Hone f) as (doc' & Hw' & Hr'). destruct f as [|fm].
    - destruct Hw as [Hw _], Hw' as [Hw' _]. pose proof (returns_inj _ _ _ Hw Hw') as E. injection E as ->. pose proof (returns_inj _ _ _ Hr Hr') as E2. congruence.
    - pose proof (returns_inj _ _ _ Hw Hw') as E. injection E as ->. pose proof (returns_inj _ _ _ Hr Hr') as E2. congruence. }
  split.
  - induction fs as [|f fs IH]; [constructor|]. destruct (Hone f) as (doc & Hw & Hr). exact (ro_hop _ _ f fs v doc v v Hw Hr IH).
  - intros w Hs. unfold sent in Hs. remember v as u eqn:E in Hs. revert E. induction Hs as [u|f fs u doc w0 w Hw Hr _ IH]; intro E; [exact E|].
    apply IH. subst u. exact (Hdet f doc w0 Hw Hr).
Qed.
Print Assumptions C74_any_route.

(** The same for whatever was decoded from bytes, however these were made. *)
Theorem C74_from_binary F c G t d o o' v fs : flt_ok F -> cfg_ok c -> portable G t ->
  slice_fits c (lenN d) -> bytes_ok d -> o <= lenN d -> decodes_at c G t d o o' (Ok v) ->
  finite_floats G t v -> (forall bs, encodes G t v bs -> slice_fits c (lenN bs)) ->
  sent F c G t fs v v /\ forall w, sent F c G t fs v w -> w = v.
Proof.
  intros HF Hc Hp Hs Hb Ho [n Hn] Hff Hfit. apply C74_any_route; try assumption.
  destruct Hp as (H1 & H2 & H3). specialize (Hn n (le_n _)). exists n. apply valid_typed.
  - eapply env_all_impl; [|exact H2]. intros [] H; cbn in *; auto; contradiction.
  - eapply Forall_impl; [|exact H3]. intros [] H; cbn in *; auto; contradiction.
  - eapply ty_all_impl; [|exact H1]. intros [] H; cbn in *; auto; contradiction.
  - exact (de_valid c Hc G n t d o o' v Hs Hb Ho Hn).
Qed.
Print Assumptions C74_from_binary.

(** And for whatever was parsed from a text, however it was written. *)
Theorem C74_from_text F c G t fm text v fs : flt_ok F -> flt_bits F -> cfg_ok c -> portable G t -> defaults_ok c G ->
  Forall scalar text -> parses F c G fm t text (Ok v) ->
  in_memory c G t v -> finite_floats G t v -> (forall bs, encodes G t v bs -> slice_fits c (lenN bs)) ->
  sent F c G t fs v v /\ forall w, sent F c G t fs v w -> w = v.
Proof.
  intros HF Hb Hc Hp Hd Ht Hr Hm Hff Hfit. apply C74_any_route; try assumption.
  destruct (C34_text_valid F c G fm t text v Hb Ht Hr) as [n Hn]. destruct (defaults_height c G Hd) as [N0 HN].
  exists (n + N0)%nat. destruct Hp as (H1 & H2 & H3). apply port_fits; assumption.
Qed.
Print Assumptions C74_from_text.

(** Two values of a type have different documents. *)
Theorem C74_distinct F c G fm t v1 v2 text : flt_ok F -> cfg_ok c -> text_typed c G fm t v1 -> text_typed c G fm t v2 ->
  writes F c G fm t v1 text -> writes F c G fm t v2 text -> v1 = v2.
Proof.
  intros HF Hc [n1 H1] [n2 H2] W1 W2.
  destruct (text_round_trip F c G fm HF Hc n1 t v1 H1) as (x1 & X1 & R1). destruct (text_round_trip F c G fm HF Hc n2 t v2 H2) as (x2 & X2 & R2).
  pose proof (returns_inj _ _ _ W1 X1) as E1. pose proof (returns_inj _ _ _ W2 X2) as E2. injection E1 as <-. injection E2 as <-.
  pose proof (returns_inj _ _ _ R1 R2) as E. congruence.
Qed.
Print Assumptions C74_distinct.

(** The condition on floats is needed: values that can be read back from JSON or
    RON meet it. *)
Lemma f2_at2 {A B} (R : A -> B -> Prop) (la : list A) (lb : list B) i a b : Forall2 R la lb -> nth_error la i = Some a -> nth_error lb i = Some b -> R a b.
Proof.
  intros H. revert i. induction H as [|x y la lb Hxy _ IH]; intros [|i] Ha Hb; try discriminate; cbn in *; [congruence|]. exact (IH i Ha Hb).
Qed.
Lemma field_whole c G fm n null f w : field_value (text_value c G fm n) (looks_none G fm n) null f w -> f_skip f = false ->
  (exists m, text_value c G fm m (f_ty f) w) \/ exists p t, f_ty f = TProxy p t.
Proof.
  intros (Hw & Hv) Hs. rewrite Hs in Hv. destruct (f_isopt f) eqn:Eo; [|left; exists n; exact Hv].
  unfold wf_field in Hw. destruct (f_ty f) as [| | | | | |t| | | | | | | |px t|] eqn:Et; try (destruct Hw; congruence); [|right; eauto].
  left. destruct w as [| | | | | |w| | | | |]; try contradiction; [exists 1%nat; exact I|]. exists (S n). exact Hv.
Qed.
Theorem C74_finite_needed c G fm t v : text_typed c G fm t v -> finite_floats G t v.
Proof.
  intros [n Hn] b.
  assert (H : forall t' u, part G t v t' u -> forall n, text_value c G fm n t v -> match t', u with TF64, VF b => finite64 b | TF32, VF b => finite32 b | _, _ => True end).
  { clear n Hn b. intros t' u Hp.
    induction Hp as [t v|t w t' u Hp IH|k t l w t' u Hin Hp IH|k tk tv l a b t' u Hin Hp IH|k tk tv l a b t' u Hin Hp IH|m t l w t' u Hin Hp IH
      |ts l i t w t' u Hi Hj Hp IH|t w t' u Hp IH|n0 a b fs l i f w t' u HG Hi Hj Hs Hp IH|n0 a fs l i f w t' u HG Hi Hj Hp IH
      |n0 vs tag vr ts l i t w t' u HG Hv Hb Hi Hj Hp IH|n0 vs tag vr fs l i f w t' u HG Hv Hb Hi Hj Hp IH]; intros [|n] Hn; try contradiction; cbn [text_value] in Hn.
    - destruct t; destruct v; auto.
    - apply (IH n). apply Hn.
    - apply (IH n). destruct Hn as [Hn _]. rewrite Forall_forall in Hn. exact (Hn _ Hin).
    - apply (IH n). destruct Hn as [Hn _]. rewrite Forall_forall in Hn. exact (proj1 (Hn _ Hin)).
    - apply (IH n). destruct Hn as [Hn _]. rewrite Forall_forall in Hn. exact (proj2 (Hn _ Hin)).
    - apply (IH n). destruct Hn as (_ & Hn & _). rewrite Forall_forall in Hn. exact (Hn _ Hin).
    - apply (IH n). destruct Hn as (_ & Hn). exact (f2_at2 _ _ _ _ _ _ Hn Hi Hj).
    - apply (IH n). exact Hn.
    - rewrite HG in Hn. destruct Hn as (_ & _ & Hn). pose proof (f2_at2 _ _ _ _ _ _ Hn Hi Hj) as Hf.
      destruct (field_whole c G fm n _ f w Hf Hs) as [[m Hm]|(p & t & E)]; [exact (IH m Hm)|]. rewrite E in Hp. inversion Hp; subst. exact I.
    - rewrite HG in Hn. destruct Hn as (Hn & _). apply (IH n). exact (proj2 (f2_at2 _ _ _ _ _ _ Hn Hi Hj)).
    - rewrite HG, Hv, Hb in Hn. destruct Hn as (_ & _ & _ & Hn). apply (IH n). exact (f2_at2 _ _ _ _ _ _ Hn Hi Hj).
    - rewrite HG, Hv, Hb in Hn. destruct Hn as (_ & _ & _ & Hs & Hn). pose proof (f2_at2 _ _ _ _ _ _ Hn Hi Hj) as Hf.
      rewrite Forall_forall in Hs. destruct (Hs _ (nth_error_In _ _ Hi)) as [Hsk _].
      destruct (field_whole c G fm n _ f w Hf Hsk) as [[m Hm]|(p & t & E)]; [exact (IH m Hm)|]. rewrite E in Hp. inversion Hp; subst. exact I. }
  split; intro Hp; exact (H _ _ Hp n Hn).
Qed.
Print Assumptions C74_finite_needed.

(** The declarations of TextEx.v (a recursive enum, a struct with renamed,
    skipped, optional and defaulted fields, a tuple struct) are portable. *)
Lemma Gtx_portable : portable Gtx (TNamed 1).
Proof.
  assert (NM : forall s, s <> [] -> is_alpha (cur s) = true -> forallb (fun c => is_alpha c || is_digit c) s = true ->
     s <> chars "true" -> s <> chars "false" -> forallb (fun c => negb (c =? c_quote) && negb (c =? c_bslash) && negb (c =? 0)) s = true -> portable_name s).
  { intros s H1 H2 H3 H4 H5 H6. split; [|repeat split; assumption]. rewrite forallb_forall in H6. apply Forall_forall. intros x Hx. apply H6 in Hx.
    apply andb_prop in Hx as [Hx Hz]. apply andb_prop in Hx as [Hx Hy]. apply negb_true_iff in Hx, Hy, Hz. apply N.eqb_neq in Hx, Hy, Hz. auto. }
  assert (FD : forall f, f_hasproxy f = false -> (f_isopt f = false \/ ((exists t, f_ty f = TOpt t) /\ omitted_value f = VNone)) -> (f_skip f = true -> f_default f = None) -> portable_field f).
  { intros f H1 H2 H3. split; [exact H1|]. split; [|exact H3]. intro Hi. destruct H2 as [H2|[H2 H4]]; [congruence|]. auto. }
  split; [split; exact I|]. split.
  - repeat (constructor; cbn [decl_all v_body]); try (unfold field_all; cbn [f_ty fld opt_field renamed defaulted ty_all portable_node]); try tauto;
      try (split; [split; discriminate | exact I]); try (split; [apply so_leaf; exact I |]); try (split; [split; discriminate | exact I]); try discriminate.
  - constructor; [|constructor; [|constructor; [|constructor]]]; cbn [portable_decl].
    + split; [discriminate|]. split; [cbn; repeat constructor; cbn; intuition discriminate|]. split; [cbn; repeat constructor; cbn; intuition discriminate|].
      apply Forall_cons; [|apply Forall_cons; [|apply Forall_cons; [|apply Forall_nil]]].
      * split; [|split; [|exact I]]; apply NM; try discriminate; reflexivity.
      * split; [|split; [|discriminate]]; apply NM; try discriminate; reflexivity.
      * split; [|split]; [apply NM; try discriminate; reflexivity .. |]. split; [cbn; repeat constructor; cbn; intuition discriminate|].
        apply Forall_cons; [|apply Forall_cons; [|apply Forall_nil]]; (split; [reflexivity|]; split; [reflexivity|]; split; [apply NM; try discriminate; reflexivity|]).
        -- apply FD; [reflexivity | left; reflexivity | discriminate].
        -- apply FD; [reflexivity | right; split; [eexists; reflexivity | reflexivity] | discriminate].
    + split; [cbn; repeat constructor; cbn; intuition discriminate|]. split.
      * repeat (apply Forall_cons; [intro Hs; try discriminate Hs; apply NM; try discriminate; reflexivity|]). apply Forall_nil.
      * repeat (apply Forall_cons; [apply FD; [reflexivity | first [left; reflexivity | right; split; [eexists; reflexivity | reflexivity]] | first [discriminate | reflexivity]]|]). apply Forall_nil.
    + split; [discriminate|]. split; [reflexivity|].
      repeat (apply Forall_cons; [apply FD; [reflexivity | left; reflexivity | discriminate]|]). apply Forall_nil.
Qed.

(** [vtx] goes from binary to JSON, to RON, to RON and to binary again. *)
Lemma vtx_has_type : has_type c64 Gtx (TNamed 1) vtx.
Proof.
  exists 6%nat. unfold vtx. repeat (fit_step; cbn [f_skip f_ty f_tydefault fld opt_field renamed defaulted fst snd]); auto;
    try reflexivity; try (cbv; intuition congruence).
  cbn. repeat constructor.
Qed.
Example C74_ex : sent toy c64 Gtx (TNamed 1) [Bin; Txt Json; Txt Ron; Txt Ron; Bin] vtx vtx.
Proof.
  apply C74_any_route; [apply toy_ok | apply c64_ok | exact Gtx_portable | exact vtx_has_type | apply (C74_finite_needed c64 Gtx Json); exists 6%nat; apply vtx_typed|].
  intros bs H. assert (E : exists b, serialize_bin Gtx 9 (TNamed 1) vtx = Ok b /\ lenN b < 100) by (eexists; split; [vm_compute; reflexivity | reflexivity]).
  destruct E as (b & E & Hb). assert (H2 := ser_returns Gtx 9 (TNamed 1) vtx [] b E). pose proof (returns_inj _ _ _ H H2) as E2. injection E2 as ->.
  unfold slice_fits. change (2 ^ (usize_bits c64 - 1)) with 9223372036854775808. lia.
Qed.
(** So is the condition on sizes, for binary. *)
Theorem C74_memory_needed c G t v : has_type c G t v -> in_memory c G t v.
Proof.
  intros [n Hn] t' u Hp. revert n Hn.
  induction Hp as [t v|t w t' u Hp IH|k t l w t' u Hin Hp IH|k tk tv l a b t' u Hin Hp IH|k tk tv l a b t' u Hin Hp IH|m t l w t' u Hin Hp IH
      |ts l i t w t' u Hi Hj Hp IH|t w t' u Hp IH|n0 a b fs l i f w t' u HG Hi Hj Hs Hp IH|n0 a fs l i f w t' u HG Hi Hj Hp IH
      |n0 vs tag vr ts l i t w t' u HG Hv Hb Hi Hj Hp IH|n0 vs tag vr fs l i f w t' u HG Hv Hb Hi Hj Hp IH]; intros [|n] Hn; try contradiction; cbn [fits] in Hn.
  - destruct t; destruct v; auto.
    + apply Hn.
    + destruct Hn as (_ & _ & H1 & H2). split; [exact H1|]. intros [-> | ->]; exact H2.
    + destruct Hn as (_ & _ & H1 & H2). split; [exact H1|]. intros ->; exact H2.
  - exact (IH n Hn).
  - apply (IH n). destruct Hn as [Hn _]. rewrite Forall_forall in Hn. exact (Hn _ Hin).
  - apply (IH n). destruct Hn as [Hn _]. rewrite Forall_forall in Hn. exact (proj1 (Hn _ Hin)).
  - apply (IH n). destruct Hn as [Hn _]. rewrite Forall_forall in Hn. exact (proj2 (Hn _ Hin)).
  - apply (IH n). destruct Hn as (_ & Hn). rewrite Forall_forall in Hn. exact (Hn _ Hin).
  - apply (IH n). exact (f2_at2 _ _ _ _ _ _ Hn Hi Hj).
  - exact (IH n Hn).
  - rewrite HG in Hn. pose proof (f2_at2 _ _ _ _ _ _ Hn Hi Hj) as Hf. cbv beta in Hf. rewrite Hs in Hf. exact (IH n Hf).
  - rewrite HG in Hn. destruct Hn as [Hsk Hn]. pose proof (f2_at2 _ _ _ _ _ _ Hn Hi Hj) as Hf. cbv beta in Hf.
    destruct (f_skip f) eqn:Es; [|exact (IH n Hf)]. apply not_true_iff_false in Hsk. contradiction Hsk. apply existsb_exists. exists f. split; [eapply nth_error_In; exact Hi | exact Es].
  - rewrite HG, Hv, Hb in Hn. destruct Hn as (_ & Hn). apply (IH n). exact (f2_at2 _ _ _ _ _ _ Hn Hi Hj).
  - rewrite HG, Hv, Hb in Hn. destruct Hn as (_ & Hn). apply (IH n). exact (f2_at2 _ _ _ _ _ _ Hn Hi Hj).
Qed.
Print Assumptions C74_memory_needed.

(** A text with a comment, another field order and missing fields: its value
    can be sent on. *)
Lemma Gtx_defaults : defaults_ok c64 Gtx.
Proof.
  repeat (constructor; cbn [v_body]); try (intros Hs Hm; cbn in Hs, Hm; try discriminate; try (destruct Hm as [Hm|[Hm|Hm]]; congruence)); try exact I.
  all: try (exists 1%nat; exact I).
  exists 1%nat; cbn; unfold int_ok; cbn; split; [discriminate | reflexivity].
Qed.
Definition tx2 : str := chars "{""at"":{""secs"":5,""nanos"":6}, ""x"":1.0, ""m"":{}, ""Tree"":""Leaf"" /*c*/, ""id"":2}".
Definition vx2 : val := VSeq [VZ 2; VZ 0; VEnum 0 []; VMap []; VNone; VF 1; VZ 7; VTime 5 6].
Example C74_ex_text : sent toyb c64 Gtx (TNamed 1) [Bin; Txt Ron; Txt Json] vx2 vx2.
Proof.
  assert (HT : has_type c64 Gtx (TNamed 1) vx2).
  { exists 6%nat. unfold vx2. repeat (fit_step; cbn [f_skip f_ty f_tydefault fld opt_field renamed defaulted fst snd]); auto;
    try reflexivity; try (cbv; intuition congruence); try exact I. }
  apply (C74_from_text toyb c64 Gtx (TNamed 1) Json tx2).
  - exact toyb_ok.
  - exact toyb_bits.
  - apply c64_ok.
  - exact Gtx_portable.
  - exact Gtx_defaults.
  - repeat constructor.
  - apply (de_text_returns _ _ _ _ 14); [vm_compute; reflexivity | discriminate].
  - apply C74_memory_needed. exact HT.
  - apply (C74_finite_needed c64 Gtx Json). exists 6%nat. unfold vx2.
    repeat tv_step; auto; try reflexivity; try discriminate; try (cbv; intuition congruence).
    all: try (cbn; repeat constructor; cbv; intuition congruence).
    all: try (intros _; cbn; repeat constructor; cbv; intuition congruence).
  - intros bs H. assert (E : exists b, serialize_bin Gtx 9 (TNamed 1) vx2 = Ok b /\ lenN b < 100) by (eexists; split; [vm_compute; reflexivity | reflexivity]).
    destruct E as (b & E & Hb). assert (H2 := ser_returns Gtx 9 (TNamed 1) vx2 [] b E). pose proof (returns_inj _ _ _ H H2) as E2. injection E2 as ->.
    unfold slice_fits. change (2 ^ (usize_bits c64 - 1)) with 9223372036854775808. lia.
Qed.
