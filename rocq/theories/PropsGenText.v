(** C69, C70: the code that the JSON and RON derive macros write does what the
    definition says. *)
From Verif Require Import Base Types Text BinModel BinFuel SpecBin PropsBin DeriveModel SpecDerive DeriveProofs PropsDerive GenModel GenJsonModel GenRonModel SpecGen Gen SpecGenText GenText GenPrint GenTextSer GenTextDe TextModel TextFuel SpecText TextRun TextEx PropsText PropsGen.
Local Open Scope N_scope.

(** The types of the world, as texts. *)
Notation types W := (fun t => w_ty W t None).

(** ** Fuel *)
Section SerBoth.
  Variable W : world.
  Variable conv : ty -> str -> proxy.
  Variable self_conv : str -> proxy.
  Variable d : sdef.
  Hypothesis Hw : world_ok W conv self_conv d.
  Variable F : flt.
  Variable c : cfg.
  Variable G : env.
  Variable i : nat.
  Variable v : val.
  Hypothesis HG : nth_error G i = Some (source_decl W d).
  Hypothesis Hi : instance (shape_of d) v.
  Hypothesis Hok : def_ok d.
  Hypothesis Hru : rust_ok d.
  Hypothesis Hnp : names_plain d.
  Hypothesis Hvc : variants_compile d.

  Lemma wle_up fm n m t w : (n <= m)%nat -> wle (ser_text F c G fm n t w) (ser_text F c G fm m t w).
  Proof.
    induction 1 as [|m _ IH]; [apply wle_refl|]. destruct IH as [E|E]; [left; exact E|]. rewrite E. apply ser_text_mono1.
  Qed.
  Lemma wle_b {A B} (x y : res Empty_set A) (f g : A -> res Empty_set B) : wle x y -> (forall a, wle (f a) (g a)) -> wle (rbind x f) (rbind y g).
  Proof. intros [E|E] H; [left; rewrite E; reflexivity|]. rewrite E. destruct y; try apply wle_refl. apply H. Qed.

  Lemma json_ser_up n : proxy_plain d -> json_tuple_plain d ->
    wle (run_jser Json (types W) conv self_conv (shape_of d) (ser_text F c G Json n) (mk_json_ser d) v) (ser_text F c G Json (S (S (S n))) (TNamed i) v).
  Proof.
    intros Hpp Htp. apply (run_json_ser W conv self_conv d Hw F c G (fun A x y => wle y x)); try assumption.
    - intros A x. apply wle_refl.
    - intros A B x y f g H1 H2. apply wle_b; assumption.
    - intros t w. apply wle_up. lia.
    - intros p t w. change (ser_text F c G Json (S (S n)) (TProxy p t) w) with (ser_text F c G Json (S n) t (p_to p w)). apply wle_up. lia.
    - intros t w. destruct n; [left; reflexivity|]. change (ser_text F c G Json (S n) (TOpt t) (VSome w)) with (ser_text F c G Json n t w). apply wle_up. lia.
    - intros p t w. destruct n; [left; reflexivity|]. change (ser_text F c G Json (S n) (TOpt t) (VSome (p_to p w))) with (ser_text F c G Json n t (p_to p w)).
      change (ser_text F c G Json (S (S (S n))) (TProxy p t) w) with (ser_text F c G Json (S (S n)) t (p_to p w)). apply wle_up. lia.
    - destruct n; [left; reflexivity|right; reflexivity].
  Qed.
  Lemma json_ser_down n : proxy_plain d -> json_tuple_plain d ->
    wle (ser_text F c G Json (S n) (TNamed i) v) (run_jser Json (types W) conv self_conv (shape_of d) (ser_text F c G Json (S (S n))) (mk_json_ser d) v).
  Proof.
    intros Hpp Htp. apply (run_json_ser W conv self_conv d Hw F c G (fun A => wle)); try assumption.
    - intros A x. apply wle_refl.
    - intros A B x y f g H1 H2. apply wle_b; assumption.
    - intros t w. apply wle_up. lia.
    - intros p t w. destruct n; [left; reflexivity|]. change (ser_text F c G Json (S n) (TProxy p t) w) with (ser_text F c G Json n t (p_to p w)). apply wle_up. lia.
    - intros t w. change (ser_text F c G Json (S (S n)) (TOpt t) (VSome w)) with (ser_text F c G Json (S n) t w). apply wle_up. lia.
    - intros p t w. change (ser_text F c G Json (S (S n)) (TOpt t) (VSome (p_to p w))) with (ser_text F c G Json (S n) t (p_to p w)).
      destruct n; [left; reflexivity|]. change (ser_text F c G Json (S n) (TProxy p t) w) with (ser_text F c G Json n t (p_to p w)). apply wle_up. lia.
    - right; reflexivity.
  Qed.
  Lemma ron_ser_up n : ron_plain d ->
    wle (run_jser Ron (types W) conv self_conv (shape_of d) (ser_text F c G Ron n) (mk_ron_ser d) v) (ser_text F c G Ron (S (S n)) (TNamed i) v).
  Proof.
    intros Hr. apply (run_ron_ser W conv self_conv d Hw F c G (fun A x y => wle y x)); try assumption.
    - intros A x. apply wle_refl.
    - intros A B x y f g H1 H2. apply wle_b; assumption.
    - intros t w. apply wle_up. lia.
    - intros t w. destruct n; [left; reflexivity|]. change (ser_text F c G Ron (S n) (TOpt t) (VSome w)) with (ser_text F c G Ron n t w). apply wle_up. lia.
  Qed.
  Lemma ron_ser_down n : ron_plain d ->
    wle (ser_text F c G Ron (S n) (TNamed i) v) (run_jser Ron (types W) conv self_conv (shape_of d) (ser_text F c G Ron (S n)) (mk_ron_ser d) v).
  Proof.
    intros Hr. apply (run_ron_ser W conv self_conv d Hw F c G (fun A => wle)); try assumption.
    - intros A x. apply wle_refl.
    - intros A B x y f g H1 H2. apply wle_b; assumption.
    - intros t w. apply wle_up. lia.
    - intros t w. change (ser_text F c G Ron (S n) (TOpt t) (VSome w)) with (ser_text F c G Ron n t w). apply wle_refl.
  Qed.
End SerBoth.

Section DeBoth.
  Variable W : world.
  Variable conv : ty -> str -> proxy.
  Variable self_conv : str -> proxy.
  Variable d : sdef.
  Hypothesis Hw : world_ok W conv self_conv d.
  Context {S : Type}.
  Variable L : lexer S.
  Variable F : flt.
  Variable c : cfg.
  Variable G : env.
  Variable i : nat.
  Hypothesis HG : nth_error G i = Some (source_decl W d).

  Lemma no_hasproxy fs : Forall no_proxy fs -> existsb f_hasproxy (map (source_field W false) fs) = false.
  Proof. induction 1 as [|f fs Hf _ IH]; [reflexivity|]. cbn [map existsb source_field f_hasproxy]. unfold no_proxy in Hf. rewrite Hf. cbn [is_some orb]. exact IH. Qed.
  Lemma json_decl n : proxy_plain d -> json_tuple_plain d ->
    de_text L F c G Json (Datatypes.S n) (TNamed i) = decl_body L Json (de_text L F c G Json n) n (source_decl W d).
  Proof.
    intros Hpp Htp. cbn [de_text]. rewrite HG. unfold source_decl, json_tuple_plain in *. destruct (value_in (chars "proxy") (items (sd_attrs d))); [reflexivity|].
    destruct (sd_body d) as [fs b|fs b| |vs b]; try reflexivity. rewrite no_hasproxy by exact Htp. destruct (map (source_field W false) fs); reflexivity.
  Qed.
  Lemma ron_decl n : ron_plain d ->
    de_text L F c G Ron (Datatypes.S n) (TNamed i) = decl_body L Ron (de_text L F c G Ron n) n (source_decl W d).
  Proof.
    intros (Hcp & Hrp & Hrt). cbn [de_text]. rewrite HG. unfold source_decl, all_fields in *. rewrite Hcp.
    destruct (sd_body d) as [fs b|fs b| |vs b]; try reflexivity; [|contradiction]. rewrite no_hasproxy by exact Hrp. destruct fs; [contradiction|reflexivity].
  Qed.

  (** Either run ends iff the other does, in the same way. *)
  Lemma de_both fm g : (forall n, de_text L F c G fm (Datatypes.S n) (TNamed i) = decl_body L fm (de_text L F c G fm n) n (source_decl W d)) ->
    (forall D n, peq (run_tde fm (types W) (w_expr W) (w_default W) conv self_conv (shape_of d) L D n g) (decl_body L fm (via D fm) n (source_decl W d))) ->
    forall s x, snd x <> NoFuel ->
      ((exists n, run_tde fm (types W) (w_expr W) (w_default W) conv self_conv (shape_of d) L (de_text L F c G fm n) n g s = x) <->
       (exists n, de_text L F c G fm n (TNamed i) s = x)).
  Proof.
    intros Hd Hg s x Hx. split; intros [n Hn].
    - exists (Datatypes.S (Datatypes.S n)). rewrite Hg in Hn. rewrite Hd.
      destruct (ple_decl L fm _ _ n (source_decl W d) (fun t => via_up L F c G fm n t) s) as [E|E]; [rewrite Hn in E; contradiction|]. rewrite <- E. exact Hn.
    - destruct n as [|n]; [cbn in Hn; subst x; cbn in Hx; congruence|]. exists (Datatypes.S n). rewrite Hg. rewrite Hd in Hn.
      destruct (ple_decl L fm _ _ n (source_decl W d) (fun t => via_down L F c G fm n t) s) as [E|E]; [rewrite Hn in E; contradiction|]. rewrite <- E. exact Hn.
  Qed.
End DeBoth.

(** ** C69: JSON.  The macros write a program [g]; it does what the model does for the
    declaration that the definition describes: the same text, value, error or panic,
    and it ends iff that ends. *)
Theorem C69_ser_partial : forall W conv self_conv d r,
  def_ok d -> reads d r -> no_const d -> rust_ok d -> proxy_plain d -> names_plain d -> json_tuple_plain d -> variants_compile d ->
  world_ok W conv self_conv d ->
  exists g,
    derive_ser_json r = Some (jser_text (crate_of d) (sd_name d) (source_header (chars "SerJson") (crate_of d) d) Json g) /\
    forall F c G i v x, nth_error G i = Some (source_decl W d) -> instance (shape_of d) v -> x <> NoFuel ->
      ((exists n, run_jser Json (types W) conv self_conv (shape_of d) (ser_text F c G Json n) g v = x) <->
       (exists n, ser_text F c G Json n (TNamed i) v = x)).
Proof.
  intros W conv self_conv d r Hok Hr Hc Hru Hpp Hnp Htp Hvc Hw. exists (mk_json_ser d). rewrite (reads_mk d r Hok Hr).
  split; [apply derive_ser_json_text; assumption|]. intros F c G i v x HG Hi Hx. split; intros [n Hn].
  - exists (S (S (S n))). destruct (json_ser_up W conv self_conv d Hw F c G i v HG Hi Hok Hru Hnp Hvc n Hpp Htp) as [E|E]; congruence.
  - destruct n as [|n]; [cbn in Hn; congruence|]. exists (S (S n)).
    destruct (json_ser_down W conv self_conv d Hw F c G i v HG Hi Hok Hru Hnp Hvc n Hpp Htp) as [E|E]; congruence.
Qed.

Theorem C69_de_partial : forall W conv self_conv d r,
  def_ok d -> reads d r -> no_const d -> rust_ok d -> proxy_plain d -> names_plain d -> json_tuple_plain d -> Forall (default_ok Json) (all_fields d) ->
  world_ok W conv self_conv d ->
  exists g,
    derive_de_json r = Some (json_de_text (crate_of d) (sd_name d) (source_header (chars "DeJson") (crate_of d) d) g) /\
    forall F c G i s x, nth_error G i = Some (source_decl W d) -> snd x <> NoFuel ->
      ((exists n, run_tde Json (types W) (w_expr W) (w_default W) conv self_conv (shape_of d) (text_lexer F Json) (de_text (text_lexer F Json) F c G Json n) n g s = x) <->
       (exists n, de_text (text_lexer F Json) F c G Json n (TNamed i) s = x)).
Proof.
  intros W conv self_conv d r Hok Hr Hc Hru Hpp Hnp Htp Hdf Hw. exists (mk_json_de d). rewrite (reads_mk d r Hok Hr).
  split; [apply derive_de_json_text; assumption|]. intros F c G i s x HG Hx.
  apply (de_both W conv self_conv d (text_lexer F Json) F c G i Json); [|intros D n; apply run_json_de; assumption|exact Hx].
  intros n. apply json_decl; assumption.
Qed.

(** ** C70: RON *)
Theorem C70_ser_partial : forall W conv self_conv d r,
  def_ok d -> reads d r -> no_const d -> rust_ok d -> names_plain d -> ron_plain d -> variants_compile d ->
  world_ok W conv self_conv d ->
  exists g,
    derive_ser_ron r = Some (jser_text (crate_of d) (sd_name d) (source_header (chars "SerRon") (crate_of d) d) Ron g) /\
    forall F c G i v x, nth_error G i = Some (source_decl W d) -> instance (shape_of d) v -> x <> NoFuel ->
      ((exists n, run_jser Ron (types W) conv self_conv (shape_of d) (ser_text F c G Ron n) g v = x) <->
       (exists n, ser_text F c G Ron n (TNamed i) v = x)).
Proof.
  intros W conv self_conv d r Hok Hr Hc Hru Hnp Hrp Hvc Hw. exists (mk_ron_ser d). rewrite (reads_mk d r Hok Hr).
  split; [apply derive_ser_ron_text; try assumption; apply Hrp|]. intros F c G i v x HG Hi Hx. split; intros [n Hn].
  - exists (S (S n)). destruct (ron_ser_up W conv self_conv d Hw F c G i v HG Hi Hok Hru Hnp Hvc n Hrp) as [E|E]; congruence.
  - destruct n as [|n]; [cbn in Hn; congruence|]. exists (S n).
    destruct (ron_ser_down W conv self_conv d Hw F c G i v HG Hi Hok Hru Hnp Hvc n Hrp) as [E|E]; congruence.
Qed.

Theorem C70_de_partial : forall W conv self_conv d r,
  def_ok d -> reads d r -> no_const d -> rust_ok d -> names_plain d -> ron_plain d -> container_ok Ron d -> Forall (default_ok Ron) (all_fields d) ->
  world_ok W conv self_conv d ->
  exists g,
    derive_de_ron r = Some (ron_de_text (crate_of d) (sd_name d) (source_header (chars "DeRon") (crate_of d) d) g) /\
    forall F c G i s x, nth_error G i = Some (source_decl W d) -> snd x <> NoFuel ->
      ((exists n, run_tde Ron (types W) (w_expr W) (w_default W) conv self_conv (shape_of d) (text_lexer F Ron) (de_text (text_lexer F Ron) F c G Ron n) n g s = x) <->
       (exists n, de_text (text_lexer F Ron) F c G Ron n (TNamed i) s = x)).
Proof.
  intros W conv self_conv d r Hok Hr Hc Hru Hnp Hrp Hco Hdf Hw. exists (mk_ron_de d). rewrite (reads_mk d r Hok Hr).
  split; [apply derive_de_ron_text; try assumption; [apply Hrp|]; destruct Hrp as (_ & _ & H); destruct (sd_body d); auto|].
  intros F c G i s x HG Hx.
  apply (de_both W conv self_conv d (text_lexer F Ron) F c G i Ron); [|intros D n; apply run_ron_de; assumption|exact Hx].
  intros n. apply ron_decl; assumption.
Qed.

(** What the generated serializer writes, the generated deserializer reads: the
    first token is read, then the reader runs ([deserialize_json], src/serde_json.rs:82-88). *)
Definition generated_reads (fm : fmt) W conv self_conv (d : sdef) F c G (g : tdprog) (text : str) (v : val) : Prop :=
  exists n s', pbind (l_next (text_lexer F fm)) (fun _ =>
    run_tde fm (types W) (w_expr W) (w_default W) conv self_conv (shape_of d) (text_lexer F fm) (de_text (text_lexer F fm) F c G fm n) n g) (start fm text) = (s', Ok v).

Lemma generated_back fm W conv self_conv d F c G i g text v :
  (forall s x, snd x <> NoFuel ->
      ((exists n, run_tde fm (types W) (w_expr W) (w_default W) conv self_conv (shape_of d) (text_lexer F fm) (de_text (text_lexer F fm) F c G fm n) n g s = x) <->
       (exists n, de_text (text_lexer F fm) F c G fm n (TNamed i) s = x))) ->
  parses F c G fm (TNamed i) text (Ok v) -> generated_reads fm W conv self_conv d F c G g text v.
Proof.
  intros Hg [n Hn]. specialize (Hn n (Nat.le_refl n)). unfold deserialize_text, de_first, pbind in Hn. unfold generated_reads, pbind.
  destruct (l_next (text_lexer F fm) (start fm text)) as [s1 r1] eqn:E1. destruct r1 as [[]| | |]; cbn in Hn; try discriminate.
  destruct (de_text (text_lexer F fm) F c G fm n (TNamed i) s1) as [s2 r2] eqn:E2. cbn in Hn. subst r2.
  destruct (proj2 (Hg s1 (s2, Ok v) ltac:(discriminate)) (ex_intro _ n E2)) as [m Hm]. exists m, s2. exact Hm.
Qed.

Corollary C69_roundtrip_partial : forall W conv self_conv d r,
  def_ok d -> reads d r -> no_const d -> rust_ok d -> proxy_plain d -> names_plain d -> json_tuple_plain d -> variants_compile d ->
  Forall (default_ok Json) (all_fields d) -> world_ok W conv self_conv d ->
  exists g g',
    derive_ser_json r = Some (jser_text (crate_of d) (sd_name d) (source_header (chars "SerJson") (crate_of d) d) Json g) /\
    derive_de_json r = Some (json_de_text (crate_of d) (sd_name d) (source_header (chars "DeJson") (crate_of d) d) g') /\
    forall F c G i v, flt_ok F -> cfg_ok c -> nth_error G i = Some (source_decl W d) -> instance (shape_of d) v -> text_typed c G Json (TNamed i) v ->
      exists text, (exists n, run_jser Json (types W) conv self_conv (shape_of d) (ser_text F c G Json n) g v = Ok text) /\
        generated_reads Json W conv self_conv d F c G g' text v.
Proof.
  intros W conv self_conv d r Hok Hr Hc Hru Hpp Hnp Htp Hvc Hdf Hw.
  destruct (C69_ser_partial W conv self_conv d r) as (g & Eg & Hg); auto. destruct (C69_de_partial W conv self_conv d r) as (g' & Eg' & Hg'); auto.
  exists g, g'. split; [exact Eg|]. split; [exact Eg'|]. intros F c G i v HF Hcf HG Hi Ht.
  destruct (C17_json_roundtrip F c G (TNamed i) v HF Hcf Ht) as (text & [n Hn] & Hp). exists text. split.
  - apply (Hg F c G i v (Ok text) HG Hi); [discriminate|]. exists n. apply Hn. lia.
  - apply (generated_back Json W conv self_conv d F c G i g' text v); [|exact Hp]. intros s x. apply Hg'. exact HG.
Qed.
Print Assumptions C69_roundtrip_partial.

Corollary C70_roundtrip_partial : forall W conv self_conv d r,
  def_ok d -> reads d r -> no_const d -> rust_ok d -> names_plain d -> ron_plain d -> variants_compile d -> container_ok Ron d ->
  Forall (default_ok Ron) (all_fields d) -> world_ok W conv self_conv d ->
  exists g g',
    derive_ser_ron r = Some (jser_text (crate_of d) (sd_name d) (source_header (chars "SerRon") (crate_of d) d) Ron g) /\
    derive_de_ron r = Some (ron_de_text (crate_of d) (sd_name d) (source_header (chars "DeRon") (crate_of d) d) g') /\
    forall F c G i v, flt_ok F -> cfg_ok c -> nth_error G i = Some (source_decl W d) -> instance (shape_of d) v -> text_typed c G Ron (TNamed i) v ->
      exists text, (exists n, run_jser Ron (types W) conv self_conv (shape_of d) (ser_text F c G Ron n) g v = Ok text) /\
        generated_reads Ron W conv self_conv d F c G g' text v.
Proof.
  intros W conv self_conv d r Hok Hr Hc Hru Hnp Hrp Hvc Hco Hdf Hw.
  destruct (C70_ser_partial W conv self_conv d r) as (g & Eg & Hg); auto. destruct (C70_de_partial W conv self_conv d r) as (g' & Eg' & Hg'); auto.
  exists g, g'. split; [exact Eg|]. split; [exact Eg'|]. intros F c G i v HF Hcf HG Hi Ht.
  destruct (C35_ron_roundtrip F c G (TNamed i) v HF Hcf Ht) as (text & [n Hn] & Hp). exists text. split.
  - apply (Hg F c G i v (Ok text) HG Hi); [discriminate|]. exists n. apply Hn. lia.
  - apply (generated_back Ron W conv self_conv d F c G i g' text v); [|exact Hp]. intros s x. apply Hg'. exact HG.
Qed.
Print Assumptions C70_roundtrip_partial.

(** ** Outside *)

(** JSON: the attributes of the fields of tuple structs, and with them proxies, are
    ignored: the code is the same without them. *)
Definition strip_tuple (d : sdef) : sdef :=
  {| sd_attrs := sd_attrs d; sd_vis := sd_vis d; sd_name := sd_name d; sd_gens := sd_gens d; sd_where := sd_where d; sd_wtrail := sd_wtrail d;
     sd_body := match sd_body d with KTuple fs b => KTuple (map strip_field fs) b | k => k end |}.
Lemma strip_tuple_ok d : def_ok d -> def_ok (strip_tuple d).
Proof.
  intros (H1 & H2 & H3 & H4 & H5 & H6 & H7 & H8). split; [exact H1|]. split; [exact H2|]. split; [exact H3|]. split; [exact H4|].
  split; [exact H5|]. split; [exact H6|]. unfold strip_tuple. cbn [sd_body sd_where]. destruct (sd_body d) as [|fs b| |]; try (split; [exact H7|exact H8]).
  split; [exact H7|]. destruct H8 as [H8 H9]. split; [|exact H9]. clear -H8.
  rewrite Forall_forall in *. intros f Hf. apply in_map_iff in Hf as (w & <- & Hw). destruct (H8 _ Hw) as (_ & Ht & Hn).
  split; [constructor|]. split; [exact Ht|exact Hn].
Qed.
Theorem C69_refuted_tuple_proxy : forall d r r' fs b, def_ok d -> sd_body d = KTuple fs b -> reads d r -> reads (strip_tuple d) r' ->
  derive_ser_json r = derive_ser_json r' /\ derive_de_json r = derive_de_json r'.
Proof.
  intros d r r' fs b Hok Eb Hr Hr'. rewrite (reads_mk d r Hok Hr), (reads_mk (strip_tuple d) r' (strip_tuple_ok d Hok) Hr').
  unfold derive_ser_json, derive_de_json, derive_target, mk_def, strip_tuple. cbn [sd_body sd_attrs sd_name sd_gens sd_where]. rewrite Eb. 
  cbn [data_attrs st_attrs fst snd]. destruct (attrs_proxy (map attr_of (items (sd_attrs d)))); [split; reflexivity|].
  cbn [st_named]. unfold derive_ser_json_struct_unnamed, derive_de_json_struct_unnamed. cbn [st_fields st_name st_attrs st_generics].
  rewrite (map_map strip_field (mk_field false)). rewrite !enumerate_map, !map_map.
  unfold at_last, lenN. rewrite !map_length. split; reflexivity.
Qed.

(** JSON: a proxied field of a struct-like variant that is not an Option: the code
    does not compile. *)
Lemma never_jsts fm typ conv ser self_ loc s l : (forall st st', run_jst fm typ conv ser self_ loc s st <> Ok st') -> In s l ->
  forall st st', run_jsts fm typ conv ser self_ loc l st <> Ok st'.
Proof.
  intros H. induction l as [|u l IH]; intros Hin st st'; [contradiction|]. cbn [run_jsts].
  destruct (run_jst fm typ conv ser self_ loc u st) as [a| | |] eqn:E; cbn [rbind]; try discriminate.
  destruct Hin as [->|Hin]; [exfalso; exact (H _ _ E)|]. apply IH. exact Hin.
Qed.
Lemma in_vfields f fs : In f fs -> forall s, (forall last, In s (json_vfield last f)) -> In s (json_vfields fs).
Proof.
  induction fs as [|g fs IH]; intros Hin s Hs; [contradiction|]. cbn [json_vfields]. apply in_or_app.
  destruct Hin as [->|Hin]; [left; apply Hs|right; apply IH; assumption].
Qed.
Theorem C69_refuted_variant_proxy : forall W conv self_conv d r, def_ok d -> reads d r -> no_const d -> rust_ok d -> proxy_plain d ->
  forall vs b tag v fs tb f p, sd_body d = KEnum vs b -> nth_error vs (N.to_nat tag) = Some v -> sv_payload v = PStruct fs tb ->
  In f fs -> value_in (chars "proxy") (items (sf_attrs f)) = Some p -> is_option (sf_type f) = false ->
  exists g, derive_ser_json r = Some (jser_text (crate_of d) (sd_name d) (source_header (chars "SerJson") (crate_of d) d) Json g) /\
    forall ser l text, run_jser Json (types W) conv self_conv (shape_of d) ser g (VEnum tag l) <> Ok text.
Proof.
  intros W conv self_conv d r Hok Hr Hc Hru Hpp vs b tag v fs tb f p Eb Ev Ep Hf Hp Ho. exists (mk_json_ser d). rewrite (reads_mk d r Hok Hr).
  split; [apply derive_ser_json_text; assumption|]. intros ser l text. unfold mk_json_ser, shape_of, rust_ok in *. rewrite Eb in *. destruct Hru as (Hnd & _ & _).
  cbn [run_jser]. rewrite nth_error_map, Ev. cbn [option_map]. rewrite (tpick_arm json_arm vs (fun _ => eq_refl) Hnd _ _ Ev).
  destruct (tbind_pat _ _ _ _) as [loc|]; [|discriminate]. cbn [json_arm snd]. rewrite Ep.
  assert (H : forall st st', run_jsts Json (types W) conv ser [] loc
     (map JB [JWs 32; JPush 123; JWs 32; JLabel (key_variant v); JWs 32; JPush 58; JWs 32; JPre; JWs 32] ++ json_vfields fs ++ map JB [JWs 32; JPost; JWs 32; JPush 125; JWs 28]) st <> Ok st').
  { apply (never_jsts _ _ _ _ _ _ (JB (JSer true (JInto p (PVar (sf_name f)))))).
    - intros st st'. cbn [run_jst run_base run_jexp rbind]. discriminate.
    - apply in_or_app. right. apply in_or_app. left. apply (in_vfields f); [exact Hf|]. intros last. unfold json_vfield, opt, guard, px. rewrite Ho, Hp.
      unfold opt. rewrite Ho. cbn [map app In]. right. left. reflexivity. }
  specialize (H (None, [])). destruct (run_jsts _ _ _ _ _ _ _ _) as [st'| | |]; cbn [rmap rbind]; try discriminate. exfalso. exact (H st' eq_refl).
Qed.

(** A field of a struct-like variant called [s] or [d]: the code does not compile. *)
Theorem C69_refuted_s : forall W conv self_conv d r, def_ok d -> reads d r -> no_const d -> rust_ok d -> proxy_plain d ->
  forall vs b tag v fs tb, sd_body d = KEnum vs b -> nth_error vs (N.to_nat tag) = Some v -> sv_payload v = PStruct fs tb ->
  In (chars "s") (map sf_name fs) \/ In (chars "d") (map sf_name fs) ->
  exists g, derive_ser_json r = Some (jser_text (crate_of d) (sd_name d) (source_header (chars "SerJson") (crate_of d) d) Json g) /\
    forall ser l, run_jser Json (types W) conv self_conv (shape_of d) ser g (VEnum tag l) = Panic PNotCompiled.
Proof.
  intros W conv self_conv d r Hok Hr Hc Hru Hpp vs b tag v fs tb Eb Ev Ep Hs. exists (mk_json_ser d). rewrite (reads_mk d r Hok Hr).
  split; [apply derive_ser_json_text; assumption|]. intros ser l. unfold mk_json_ser, shape_of, rust_ok in *. rewrite Eb in *. destruct Hru as (Hnd & _ & _).
  cbn [run_jser]. rewrite nth_error_map, Ev. cbn [option_map]. rewrite (tpick_arm json_arm vs (fun _ => eq_refl) Hnd _ _ Ev). cbn [json_arm fst snd]. rewrite Ep. cbn [tbind_pat].
  destruct Hs as [Hs|Hs]; rewrite (existsb_in _ _ Hs); [|rewrite Bool.orb_true_r]; reflexivity.
Qed.
Theorem C70_refuted_s : forall W conv self_conv d r, def_ok d -> reads d r -> no_const d -> rust_ok d -> ron_plain d ->
  forall vs b tag v fs tb, sd_body d = KEnum vs b -> nth_error vs (N.to_nat tag) = Some v -> sv_payload v = PStruct fs tb ->
  In (chars "s") (map sf_name fs) \/ In (chars "d") (map sf_name fs) ->
  exists g, derive_ser_ron r = Some (jser_text (crate_of d) (sd_name d) (source_header (chars "SerRon") (crate_of d) d) Ron g) /\
    forall ser l, run_jser Ron (types W) conv self_conv (shape_of d) ser g (VEnum tag l) = Panic PNotCompiled.
Proof.
  intros W conv self_conv d r Hok Hr Hc Hru Hrp vs b tag v fs tb Eb Ev Ep Hs. exists (mk_ron_ser d). rewrite (reads_mk d r Hok Hr).
  split; [apply derive_ser_ron_text; try assumption; apply Hrp|]. intros ser l. unfold mk_ron_ser, shape_of, rust_ok in *. rewrite Eb in *. destruct Hru as (Hnd & _ & _).
  cbn [run_jser]. rewrite nth_error_map, Ev. cbn [option_map]. rewrite (tpick_arm ron_arm vs (fun _ => eq_refl) Hnd _ _ Ev). cbn [ron_arm fst snd]. rewrite Ep. cbn [tbind_pat].
  destruct Hs as [Hs|Hs]; rewrite (existsb_in _ _ Hs); [|rewrite Bool.orb_true_r]; reflexivity.
Qed.

(** RON: proxies on fields are ignored: two definitions that differ only in them have
    the same code. *)
Definition not_proxy (i : sitem) : bool := match i with IValue k _ _ => negb (str_eqb k (chars "proxy")) | IWord _ => true end.
Definition but_proxy (f f' : sfield) : Prop :=
  sf_name f = sf_name f' /\ sf_type f = sf_type f' /\ filter not_proxy (items (sf_attrs f)) = filter not_proxy (items (sf_attrs f')).
Definition but_proxy_v (v v' : svariant) : Prop :=
  sv_name v = sv_name v' /\
  match sv_payload v, sv_payload v' with
  | PUnit, PUnit => True
  | PTuple ts _, PTuple ts' _ => ts = ts'
  | PStruct fs _, PStruct fs' _ => Forall2 but_proxy fs fs'
  | _, _ => False
  end.
Definition but_proxies (d d' : sdef) : Prop :=
  sd_name d = sd_name d' /\ sd_attrs d = sd_attrs d' /\ sd_gens d = sd_gens d' /\ sd_where d = sd_where d' /\
  match sd_body d, sd_body d' with
  | KNamed fs _, KNamed fs' _ | KTuple fs _, KTuple fs' _ => Forall2 but_proxy fs fs'
  | KUnit, KUnit => True
  | KEnum vs _, KEnum vs' _ => Forall2 but_proxy_v vs vs'
  | _, _ => False
  end.
Lemma filt_value k l : str_eqb k (chars "proxy") = false -> value_in k (filter not_proxy l) = value_in k l.
Proof.
  intros Hk. induction l as [|[w|x q v] l IH]; [reflexivity|exact IH|]. cbn [filter not_proxy value_in].
  destruct (str_eqb x (chars "proxy")) eqn:E; cbn [negb].
  - apply str_eqb_eq in E. subst x. destruct (str_eqb (chars "proxy") k) eqn:E2; [apply str_eqb_eq in E2; subst k; discriminate|exact IH].
  - cbn [value_in]. rewrite IH. reflexivity.
Qed.
Lemma filt_word w l : word_in w (filter not_proxy l) = word_in w l.
Proof.
  unfold word_in. induction l as [|[x|x q v] l IH]; [reflexivity|cbn [filter not_proxy existsb]; rewrite IH; reflexivity|].
  cbn [filter not_proxy]. destruct (str_eqb x (chars "proxy")); cbn [negb existsb]; exact IH.
Qed.
Lemma filt_default l : default_in (filter not_proxy l) = default_in l.
Proof.
  induction l as [|[x|x q v] l IH]; [reflexivity|cbn [filter not_proxy default_in]; rewrite IH; reflexivity|].
  cbn [filter not_proxy default_in]. destruct (str_eqb x (chars "proxy")) eqn:E; cbn [negb].
  - apply str_eqb_eq in E. subst x. exact IH.
  - cbn [default_in]. rewrite IH. reflexivity.
Qed.
Lemma bp_key f f' : but_proxy f f' -> key_name f = key_name f'.
Proof. intros (Hn & _ & Hi). unfold key_name. rewrite <- (filt_value _ (items (sf_attrs f))), <- (filt_value _ (items (sf_attrs f'))), Hi, Hn by reflexivity. reflexivity. Qed.
Lemma bp_skip f f' : but_proxy f f' -> skipped f = skipped f'.
Proof. intros (_ & _ & Hi). unfold skipped. rewrite <- (filt_word _ (items (sf_attrs f))), <- (filt_word _ (items (sf_attrs f'))), Hi. reflexivity. Qed.
Lemma bp_dflt f f' : but_proxy f f' -> source_default (sf_type f) (items (sf_attrs f)) = source_default (sf_type f') (items (sf_attrs f')).
Proof.
  intros (_ & Ht & Hi). unfold source_default.
  rewrite <- (filt_default (items (sf_attrs f))), <- (filt_default (items (sf_attrs f'))), <- (filt_value (chars "default_with") (items (sf_attrs f))), <- (filt_value (chars "default_with") (items (sf_attrs f'))), Hi, Ht by reflexivity. reflexivity.
Qed.
Lemma bp_dok f f' : but_proxy f f' -> default_ok Ron f -> default_ok Ron f'.
Proof.
  intros (_ & Ht & Hi) H v Hv. rewrite <- Ht. apply (H v). rewrite <- (filt_default (items (sf_attrs f))), Hi, filt_default. exact Hv.
Qed.
Lemma f2_map {A B C} (R : A -> B -> Prop) (g : A -> C) (h : B -> C) l m : Forall2 R l m -> (forall a b, R a b -> g a = h b) -> map g l = map h m.
Proof. intros H Hg. induction H as [|a b l m Hab _ IH]; [reflexivity|]. cbn [map]. rewrite (Hg _ _ Hab), IH. reflexivity. Qed.
Lemma f2_filter {A} (R : A -> A -> Prop) (p : A -> bool) l m : Forall2 R l m -> (forall a b, R a b -> p a = p b) -> Forall2 R (filter p l) (filter p m).
Proof. intros H Hg. induction H as [|a b l m Hab _ IH]; [constructor|]. cbn [filter]. rewrite (Hg _ _ Hab). destruct (p b); [constructor; assumption|exact IH]. Qed.
Lemma bp_arms fs fs' : Forall2 but_proxy fs fs' -> arms_of fs = arms_of fs'.
Proof.
  intros H. unfold arms_of. assert (E : map (fun f => (key_name f, local f)) (filter (fun f => negb (skipped f)) fs) = map (fun f => (key_name f, local f)) (filter (fun f => negb (skipped f)) fs')).
  { eapply f2_map; [apply (f2_filter _ _ _ _ H)|].
    - intros a b Hab. rewrite (bp_skip _ _ Hab). reflexivity.
    - intros a b Hab. rewrite (bp_key _ _ Hab). unfold local. destruct Hab as (-> & _). reflexivity. }
  rewrite E. destruct H; reflexivity.
Qed.
Lemma bp_named dd fs fs' : Forall2 but_proxy fs fs' -> ron_named dd fs = ron_named dd fs'.
Proof.
  intros H. unfold ron_named. rewrite (bp_arms _ _ H). f_equal.
  - eapply f2_map; [exact H|]. intros a b (Hn & Ht & _). unfold local. rewrite Hn, Ht. reflexivity.
  - eapply f2_map; [exact H|]. intros a b Hab. unfold ron_init. rewrite (bp_dflt _ _ Hab), (bp_skip _ _ Hab). destruct Hab as (Hn & Ht & _). unfold local, opt. rewrite Hn, Ht. reflexivity.
Qed.
Lemma bp_items fs fs' : Forall2 but_proxy fs fs' -> forall n, ron_items n fs = ron_items n fs'.
Proof.
  induction 1 as [|a b l m Hab Hlm IH]; intros n; [reflexivity|]. cbn [ron_items]. rewrite (bp_skip _ _ Hab), IH.
  replace (nonempty l) with (nonempty m) by (destruct Hlm; reflexivity). reflexivity.
Qed.
Lemma bp_field f f' : but_proxy f f' -> ron_field f = ron_field f'.
Proof. intros H. unfold ron_field. rewrite (bp_skip _ _ H), (bp_key _ _ H). destruct H as (Hn & Ht & _). unfold opt. rewrite Hn, Ht. reflexivity. Qed.
Lemma bp_vfield f f' : but_proxy f f' -> ron_vfield f = ron_vfield f'.
Proof. intros (Hn & Ht & _). unfold ron_vfield, opt. rewrite Hn, Ht. reflexivity. Qed.

Theorem C70_refuted_proxy : forall d d' r r', def_ok d -> def_ok d' -> no_const d -> value_in (chars "proxy") (items (sd_attrs d)) = None ->
  match sd_body d with KTuple fs _ => fs <> [] | KUnit => False | _ => True end -> Forall (default_ok Ron) (all_fields d) ->
  but_proxies d d' -> reads d r -> reads d' r' ->
  derive_ser_ron r = derive_ser_ron r' /\ derive_de_ron r = derive_de_ron r'.
Proof.
  intros d d' r r' Hok Hok' Hc Hcp Hk Hdf (En & Ea & Eg & Ew & Eb) Hr Hr'. rewrite (reads_mk d r Hok Hr), (reads_mk d' r' Hok' Hr').
  assert (Hc' : no_const d') by (unfold no_const in *; rewrite <- Eg; exact Hc).
  assert (Hcp' : value_in (chars "proxy") (items (sd_attrs d')) = None) by (rewrite <- Ea; exact Hcp).
  assert (Hk' : match sd_body d' with KTuple fs _ => fs <> [] | KUnit => False | _ => True end).
  { destruct (sd_body d) as [fs b|fs b| |vs b], (sd_body d') as [fs' b'|fs' b'| |vs' b']; try contradiction; try exact I. destruct Eb; [congruence|discriminate]. }
  assert (Hdf' : Forall (default_ok Ron) (all_fields d')).
  { assert (HF : forall fs fs', Forall2 but_proxy fs fs' -> Forall (default_ok Ron) fs -> Forall (default_ok Ron) fs').
    { clear. induction 1 as [|a b l m Hab _ IH]; intros H; [constructor|]. inversion H; subst. constructor; [apply (bp_dok a b Hab); assumption|apply IH; assumption]. }
    unfold all_fields in *. destruct (sd_body d) as [fs b|fs b| |vs b], (sd_body d') as [fs' b'|fs' b'| |vs' b']; try contradiction; try (apply (HF fs); assumption).
    clear -Eb Hdf HF. induction Eb as [|v v' vs vs' Hv _ IH]; [constructor|]. cbn [map concat] in *. apply Forall_app in Hdf as [H1 H2]. apply Forall_app. split; [|apply IH; exact H2].
    destruct Hv as [_ Hv]. destruct (sv_payload v), (sv_payload v'); try contradiction; try constructor. apply (HF fs); assumption. }
  assert (Ecr : crate_of d' = crate_of d).
  { unfold crate_of. rewrite <- Ea. destruct (sd_body d), (sd_body d'); try contradiction; reflexivity. }
  assert (Eh : forall t c, source_header t c d' = source_header t c d) by (intros t c; unfold source_header; rewrite Eg, Ew; reflexivity).
  assert (H1 : match sd_body d with KUnit => False | _ => True end) by (destruct (sd_body d); auto).
  assert (H1' : match sd_body d' with KUnit => False | _ => True end) by (destruct (sd_body d'); auto).
  rewrite (derive_ser_ron_text d), (derive_ser_ron_text d'), (derive_de_ron_text d), (derive_de_ron_text d') by assumption.
  rewrite Ecr, !Eh, <- En.
  assert (E1 : mk_ron_ser d' = mk_ron_ser d).
  { unfold mk_ron_ser. destruct (sd_body d) as [fs b|fs b| |vs b], (sd_body d') as [fs' b'|fs' b'| |vs' b']; try contradiction.
    - unfold ron_struct. rewrite (f2_map _ ron_field ron_field _ _ Eb bp_field). reflexivity.
    - rewrite (bp_items _ _ Eb). reflexivity.
    - f_equal. symmetry. eapply f2_map; [exact Eb|]. intros v v' (Ev & Hv). unfold ron_arm. rewrite Ev.
      destruct (sv_payload v) as [|ts tb|fs tb], (sv_payload v') as [|ts' tb'|fs' tb']; try contradiction; [reflexivity|subst ts'; reflexivity|].
      rewrite (f2_map _ ron_vfield ron_vfield _ _ Hv bp_vfield). rewrite (f2_map _ sf_name sf_name _ _ Hv); [reflexivity|]. intros a e (Hn & _). exact Hn. }
  assert (E2 : mk_ron_de d' = mk_ron_de d).
  { unfold mk_ron_de. rewrite <- Ea. destruct (sd_body d) as [fs b|fs b| |vs b], (sd_body d') as [fs' b'|fs' b'| |vs' b']; try contradiction.
    - rewrite (bp_named _ _ _ Eb). reflexivity.
    - f_equal. symmetry. eapply f2_map; [exact Eb|reflexivity].
    - f_equal. symmetry. eapply f2_map; [exact Eb|]. intros v v' (Ev & Hv). unfold ron_darm. rewrite Ev.
      destruct (sv_payload v) as [|ts tb|fs tb], (sv_payload v') as [|ts' tb'|fs' tb']; try contradiction; [reflexivity|subst ts'; reflexivity|].
      rewrite (bp_named _ _ _ Hv). reflexivity. }
  rewrite E1, E2. split; reflexivity.
Qed.

(** RON: the deserializer of a container with a proxy calls a method that does not
    exist on those arguments ([deserialize_ron] takes a string, [i] is a [Chars]), and
    the header has lost the type parameters. *)
Theorem C70_refuted_container_proxy : forall d r p, def_ok d -> reads d r ->
  match sd_body d with KEnum _ _ => False | _ => True end -> value_in (chars "proxy") (items (sd_attrs d)) = Some p ->
  derive_de_ron r = Some (chars "impl " ++ crate_of d ++ chars "::DeRon for " ++ sd_name d ++ chars " {
            fn de_ron(_s: &mut " ++ crate_of d ++ chars "::DeRonState, i: &mut core::str::Chars) -> ::core::result::Result<Self, " ++ crate_of d ++ chars "::DeRonErr> {
                let proxy: " ++ p ++ chars " = " ++ crate_of d ++ chars "::DeRon::deserialize_ron(i)?;
                ::core::result::Result::Ok(Into::into(&proxy))
            }
        }").
Proof.
  intros d r p Hok Hr Hk Hp. rewrite (reads_mk d r Hok Hr). unfold derive_de_ron, derive_target, crate_of, mk_def.
  destruct (sd_body d); try contradiction; cbn [data_attrs st_attrs fst snd]; unfold attrs_proxy, attrs_crate; rewrite !value_items, Hp; cbn [fst snd st_name];
    destruct (value_in (chars "crate") (items (sd_attrs d))); reflexivity.
Qed.

(** RON: the macro for SerRon panics on unit structs and on tuple structs without fields. *)
Theorem C70_refuted_unit : forall d r, def_ok d -> reads d r -> value_in (chars "proxy") (items (sd_attrs d)) = None ->
  match sd_body d with KUnit => True | KTuple fs _ => fs = [] | _ => False end -> derive_ser_ron r = None.
Proof.
  intros d r Hok Hr Hp Hk. rewrite (reads_mk d r Hok Hr). unfold derive_ser_ron, derive_target, mk_def.
  destruct (sd_body d); try contradiction; cbn [data_attrs st_attrs fst snd]; unfold attrs_proxy; rewrite !value_items, Hp; cbn [st_named]; [subst; reflexivity|reflexivity].
Qed.

(** ** Examples *)
(** [struct R { #[nserde(rename = "x")] a: Option<u8>, #[nserde(skip)] c: u16,
    #[nserde(default = 5)] e: u8, #[nserde(proxy = "P")] b: u8 }], with and without [b]. *)
Definition f_a : sfield := {| sf_attrs := [AOurs (IValue (chars "rename") true (chars "x")) []]; sf_vis := VNone_; sf_name := chars "a"; sf_type := SPath (chars "Option") [] [id (chars "u8")] |}.
Definition f_c : sfield := {| sf_attrs := [AOurs (IWord (chars "skip")) []]; sf_vis := VNone_; sf_name := chars "c"; sf_type := id (chars "u16") |}.
Definition f_e : sfield := {| sf_attrs := [AOurs (IValue (chars "default") false (chars "5")) []]; sf_vis := VNone_; sf_name := chars "e"; sf_type := id (chars "u8") |}.
Definition f_b : sfield := {| sf_attrs := [AOurs (IValue (chars "proxy") true (chars "P")) []]; sf_vis := VNone_; sf_name := chars "b"; sf_type := id (chars "u8") |}.
Definition d_rec (fs : list sfield) : sdef := {|
  sd_attrs := []; sd_vis := VNone_; sd_name := chars "R"; sd_gens := []; sd_where := []; sd_wtrail := false; sd_body := KNamed fs true |}.
Definition d_json : sdef := d_rec [f_a; f_c; f_e; f_b].
Definition d_ron : sdef := d_rec [f_a; f_c; f_e].
Lemma d_json_ok : def_ok d_json.
Proof.
  split; [|split; [|split; [|split; [|split; [|split; [|split]]]]]].
  - ok.
  - intros i H. discriminate H.
  - ok.
  - cbn. repeat constructor; cbn; intuition discriminate.
  - constructor.
  - cbn. lia.
  - reflexivity.
  - ok.
Qed.
Lemma d_ron_ok : def_ok d_ron.
Proof.
  split; [|split; [|split; [|split; [|split; [|split; [|split]]]]]].
  - ok.
  - intros i H. discriminate H.
  - ok.
  - cbn. repeat constructor; cbn; intuition discriminate.
  - constructor.
  - cbn. lia.
  - reflexivity.
  - ok.
Qed.
(** The texts. *)
Example C69_ex_struct : exists r, reads d_json r /\ derive_ser_json r = Some (chars
"
        impl nanoserde::SerJson for R {
            fn ser_json(&self, d: usize, s: &mut nanoserde::SerJsonState) {
                s.st_pre();
                let mut first_field_was_serialized = false;
                    if let Some(t) = &self.a {
                        if first_field_was_serialized {
                                                 s.conl();
                                             };
                                             first_field_was_serialized = true;
                                             s.field(d+1, ""x"");
                        t.ser_json(d+1, s);
                    } if first_field_was_serialized {
                        s.conl();
                    };
                    first_field_was_serialized = true;
                    s.field(d+1,""e"");
                    self.e.ser_json(d+1, s);if first_field_was_serialized {
                        s.conl();
                    };
                    first_field_was_serialized = true;
                    s.field(d+1,""b"");
                    {let proxy: P = Into::into(&self.b);proxy}.ser_json(d+1, s);
                s.st_post(d);
            }
        }
    ") /\ derive_de_json r = Some (chars
"impl nanoserde::DeJson for R {
            #[allow(clippy::ignored_unit_patterns)]
            fn de_json(s: &mut nanoserde::DeJsonState, i: &mut core::str::Chars) -> ::core::result::Result<Self,
            nanoserde::DeJsonErr> {
                ::core::result::Result::Ok({ let mut _a = None;let mut _e = None;let mut _b = None;s.curly_open(i) ?;while s.next_str().is_some() {match AsRef::<str>::as_ref(&s.strbuf) {""x"" => {s.next_colon(i) ?;_a = Some(nanoserde::DeJson::de_json(s, i) ?)},""e"" => {s.next_colon(i) ?;_e = Some(nanoserde::DeJson::de_json(s, i) ?)},""b"" => {s.next_colon(i) ?;_b = Some(nanoserde::DeJson::de_json(s, i) ?)},_ => {s.next_colon(i)?; s.whole_field(i)?; }}s.eat_comma_curly(i) ?;}s.curly_close(i) ?;R {a: _a.map(|t| t).unwrap_or_default(),c: Default::default(),e: _e.map_or_else(|| 5, |t| t),b: _b.map(|t| From::<&P>::from(&t)).ok_or_else(|| s.err_nf(""b""))?,} })
            }
        }").
Proof.
  destruct (C53_read_as_written_partial d_json d_json_ok) as (n0 & r & _ & H). exists r. assert (Hr : reads d_json r) by (exists n0; exact H).
  split; [exact Hr|]. rewrite (reads_mk _ _ d_json_ok Hr). split; vm_compute; reflexivity.
Qed.
Example C69_ex_enum : exists r, reads d_kinds r /\ derive_ser_json r = Some (chars
"
        impl nanoserde::SerJson for K {
            fn ser_json(&self, d: usize, s: &mut nanoserde::SerJsonState) {
                match self {
                    Self::A => s.label(""A""),Self::B  (f0,f1) => {
                                s.out.push('{');
                                s.label(""B"");
                                s.out.push(':');
                                s.out.push('[');
                                f0.ser_json(d, s); s.out.push(',');f1.ser_json(d, s);
                                s.out.push(']');
                                s.out.push('}');
                            }Self::C { x,y } => {
                                s.out.push('{');
                                s.label(""C"");
                                s.out.push(':');
                                s.st_pre();
                                s.field(d+1, ""x"");x.ser_json(d+1, s);s.conl();s.field(d+1, ""y"");y.ser_json(d+1, s);
                                s.st_post(d);
                                s.out.push('}');
                            }
                }
            }
        }") /\ derive_de_json r = Some (chars
"impl nanoserde::DeJson for K {
            #[allow(clippy::ignored_unit_patterns)]
            fn de_json(s: &mut nanoserde::DeJsonState, i: &mut core::str::Chars) -> ::core::result::Result<Self, nanoserde::DeJsonErr> {
                match s.tok {
                    nanoserde::DeJsonTok::CurlyOpen => {
                        s.curly_open(i)?;
                        let _ = s.string(i)?;
                        s.colon(i)?;
                        let r = ::core::result::Result::Ok(match s.strbuf.as_ref() {
                            ""B"" => {s.block_open(i)?;let r = Self::B({let r = nanoserde::DeJson::de_json(s,i)?;s.eat_comma_block(i)?;r},{let r = nanoserde::DeJson::de_json(s,i)?;s.eat_comma_block(i)?;r},); s.block_close(i)?;r}""C"" => { let mut _x = None;let mut _y = None;s.curly_open(i) ?;while s.next_str().is_some() {match AsRef::<str>::as_ref(&s.strbuf) {""x"" => {s.next_colon(i) ?;_x = Some(nanoserde::DeJson::de_json(s, i) ?)},""y"" => {s.next_colon(i) ?;_y = Some(nanoserde::DeJson::de_json(s, i) ?)},_ => {s.next_colon(i)?; s.whole_field(i)?; }}s.eat_comma_curly(i) ?;}s.curly_close(i) ?;Self::C {x: _x.map(|t| t).ok_or_else(|| s.err_nf(""x""))?,y: _y.map(|t| t).ok_or_else(|| s.err_nf(""y""))?,} }, 
                            _ => return ::core::result::Result::Err(s.err_enum(&s.strbuf))
                        });
                        s.curly_close(i)?;
                        r
                    },
                    nanoserde::DeJsonTok::Str => {
                        let _ = s.string(i)?;
                        ::core::result::Result::Ok(match s.strbuf.as_ref() {
                            ""A"" => Self::A,
                            _ => return ::core::result::Result::Err(s.err_enum(&s.strbuf))
                        })
                    },
                    _ => ::core::result::Result::Err(s.err_token(""String or {"")),
                }
            }
        }
").
Proof.
  destruct (C53_read_as_written_partial d_kinds d_kinds_ok) as (n0 & r & _ & H). exists r. assert (Hr : reads d_kinds r) by (exists n0; exact H).
  split; [exact Hr|]. rewrite (reads_mk _ _ d_kinds_ok Hr). split; vm_compute; reflexivity.
Qed.
Example C70_ex_struct : exists r, reads d_ron r /\ derive_ser_ron r = Some (chars
"
        impl nanoserde::SerRon for R {
            fn ser_ron(&self, d: usize, s: &mut nanoserde::SerRonState) {
                s.st_pre();
                if let Some(t) = &self.a {
                    s.field(d+1, ""x"");
                    t.ser_ron(d+1, s);
                    s.conl();
                };s.field(d+1,""e"");
                self.e.ser_ron(d+1, s);
                s.conl();
                s.st_post(d);
            }
        }
    ") /\ derive_de_ron r = Some (chars
"impl nanoserde::DeRon for R {
            fn de_ron(s: &mut nanoserde::DeRonState, i: &mut core::str::Chars) -> ::core::result::Result<Self,nanoserde::DeRonErr> {
                ::core::result::Result::Ok({
            let mut _a: Option<Option<u8>> = None;let mut _c: Option<u16> = None;let mut _e: Option<u8> = None;
            s.paren_open(i)?;
            while s.next_ident().is_some() {
                match s.identbuf.as_ref() {
                ""x"" => {
                    s.next_colon(i)?;
                    _a = Some(nanoserde::DeRon::de_ron(s, i)?)
                },""e"" => {
                    s.next_colon(i)?;
                    _e = Some(nanoserde::DeRon::de_ron(s, i)?)
                },
                _ => return ::core::result::Result::Err(s.err_exp(&s.identbuf))
            }
                s.eat_comma_paren(i)?;
            };
            s.paren_close(i)?;
            R {
                a: _a.unwrap_or_else(|| Default::default()),c: _c.unwrap_or_else(|| Default::default()),e: _e.unwrap_or_else(|| 5),
            }
        })
            }
        }").
Proof.
  destruct (C53_read_as_written_partial d_ron d_ron_ok) as (n0 & r & _ & H). exists r. assert (Hr : reads d_ron r) by (exists n0; exact H).
  split; [exact Hr|]. rewrite (reads_mk _ _ d_ron_ok Hr). split; vm_compute; reflexivity.
Qed.
Example C70_ex_enum : exists r, reads d_kinds r /\ derive_ser_ron r = Some (chars
"
        impl nanoserde::SerRon for K {
            fn ser_ron(&self, d: usize, s: &mut nanoserde::SerRonState) {
                match self {
                    Self::A => s.out.push_str(""A""),Self::B (f0,f1) => {
                        s.out.push_str(""B"");
                        s.out.push('(');
                        f0.ser_ron(d, s);s.out.push_str("","");f1.ser_ron(d, s);
                        s.out.push(')');
                    }Self::C { x,y } => {
                        s.out.push_str(""C"");
                        s.st_pre();
                        s.field(d+1, ""x"");
                            x.ser_ron(d+1, s);
                            s.conl();s.field(d+1, ""y"");
                            y.ser_ron(d+1, s);
                            s.conl();
                        s.st_post(d);
                    }
                }
            }
        }") /\ derive_de_ron r = Some (chars
"
        impl nanoserde::DeRon for K {
            fn de_ron(s: &mut nanoserde::DeRonState, i: &mut core::str::Chars) -> ::core::result::Result<Self,nanoserde::DeRonErr> {
                // we are expecting an identifier
                s.ident(i)?;
                ::core::result::Result::Ok(match s.identbuf.as_ref() {
                    ""A"" => Self::A,""B"" => {
                        s.paren_open(i)?;
                        let r = Self::B ({
                            let r = nanoserde::DeRon::de_ron(s, i)?;
                            s.eat_comma_paren(i)?;
                            r
                        }, {
                            let r = nanoserde::DeRon::de_ron(s, i)?;
                            s.eat_comma_paren(i)?;
                            r
                        }, );
                        s.paren_close(i)?;
                        r
                    }, ""C"" => {
            let mut _x: Option<u8> = None;let mut _y: Option<T> = None;
            s.paren_open(i)?;
            while s.next_ident().is_some() {
                match s.identbuf.as_ref() {
                ""x"" => {
                    s.next_colon(i)?;
                    _x = Some(nanoserde::DeRon::de_ron(s, i)?)
                },""y"" => {
                    s.next_colon(i)?;
                    _y = Some(nanoserde::DeRon::de_ron(s, i)?)
                },
                _ => return ::core::result::Result::Err(s.err_exp(&s.identbuf))
            }
                s.eat_comma_paren(i)?;
            };
            s.paren_close(i)?;
            K::C {
                x: _x.ok_or_else(|| s.err_nf(""x""))?,y: _y.ok_or_else(|| s.err_nf(""y""))?,
            }
        }
                    _ => return ::core::result::Result::Err(s.err_enum(&s.identbuf))
                })
            }
        }").
Proof.
  destruct (C53_read_as_written_partial d_kinds d_kinds_ok) as (n0 & r & _ & H). exists r. assert (Hr : reads d_kinds r) by (exists n0; exact H).
  split; [exact Hr|]. rewrite (reads_mk _ _ d_kinds_ok Hr). split; vm_compute; reflexivity.
Qed.
(** A world for them. *)
Definition base_ty2 (t : str) : ty :=
  if str_eqb t (chars "Option<u8>") then TOpt (TInt U8) else if str_eqb t (chars "u8") then TInt U8 else if str_eqb t (chars "T") then TBool else TInt U16.
Definition dflt2 (t : str) : val := if str_eqb t (chars "Option<u8>") then VNone else VZ 0.
Definition W_text : world := {|
  w_ty := fun t p => match p with Some q => TProxy p_inc (base_ty2 q) | None => base_ty2 t end;
  w_default := dflt2; w_expr := fun t e => if str_eqb e (chars "5") then VZ 5 else dflt2 t; w_proxy := fun q => (p_inc, base_ty2 q) |}.
Lemma W_text_ok d : Forall (fun f => is_option (sf_type f) = true -> ty_text (sf_type f) = chars "Option<u8>") (all_fields d) ->
  world_ok W_text (fun _ _ => p_inc) (fun _ => p_inc) d.
Proof.
  intros H. split; [intros t; cbn [W_text w_ty]; unfold base_ty2, plain_ty; destruct (str_eqb t (chars "Option<u8>")), (str_eqb t (chars "u8")), (str_eqb t (chars "T")); exact I|].
  split; [reflexivity|]. rewrite Forall_forall in *. intros f Hf. specialize (H f Hf). split; [reflexivity|].
  destruct (is_option (sf_type f)) eqn:E.
  - exists (TInt U8). rewrite H by reflexivity. split; reflexivity.
  - eexists. split; reflexivity.
Qed.
Example C69_ex_hyps :
  (no_const d_json /\ rust_ok d_json /\ proxy_plain d_json /\ names_plain d_json /\ json_tuple_plain d_json /\ variants_compile d_json /\
   Forall (default_ok Json) (all_fields d_json) /\ world_ok W_text (fun _ _ => p_inc) (fun _ => p_inc) d_json) /\
  (no_const d_kinds /\ rust_ok d_kinds /\ proxy_plain d_kinds /\ names_plain d_kinds /\ json_tuple_plain d_kinds /\ variants_compile d_kinds /\
   Forall (default_ok Json) (all_fields d_kinds) /\ world_ok W_text (fun _ _ => p_inc) (fun _ => p_inc) d_kinds).
Proof.
  assert (Hp : forall d, value_in (chars "proxy") (items (sd_attrs d)) = None -> proxy_plain d) by (intros d E H; congruence).
  split.
  - split; [ok|]. split; [cbn; repeat constructor; cbn; intuition discriminate|]. split; [apply Hp; reflexivity|]. split; [split; [repeat constructor|exact I]|].
    split; [exact I|]. split; [exact I|]. split; [|apply W_text_ok; repeat constructor; cbn; discriminate]. repeat constructor; intros v Hv; cbn in *; congruence.
  - split; [ok|]. split; [split; [cbn; repeat constructor; cbn; intuition discriminate|split; [cbn; lia|repeat constructor; cbn; intuition discriminate]]|].
    split; [apply Hp; reflexivity|]. split; [split; repeat constructor|]. split; [exact I|]. split; [repeat constructor; cbn; discriminate|].
    split; [repeat constructor; intros v Hv; discriminate|apply W_text_ok; repeat constructor; cbn; discriminate].
Qed.
Example C70_ex_hyps :
  (no_const d_ron /\ rust_ok d_ron /\ names_plain d_ron /\ ron_plain d_ron /\ variants_compile d_ron /\ container_ok Ron d_ron /\
   Forall (default_ok Ron) (all_fields d_ron) /\ world_ok W_text (fun _ _ => p_inc) (fun _ => p_inc) d_ron) /\
  (names_plain d_kinds /\ ron_plain d_kinds /\ variants_compile d_kinds /\ container_ok Ron d_kinds /\ Forall (default_ok Ron) (all_fields d_kinds)).
Proof.
  split.
  - split; [ok|]. split; [cbn; repeat constructor; cbn; intuition discriminate|]. split; [split; [repeat constructor|exact I]|].
    split; [split; [reflexivity|split; [repeat constructor|exact I]]|]. split; [exact I|]. split; [split; cbn; auto|].
    split; [|apply W_text_ok; repeat constructor; cbn; discriminate]. repeat constructor; intros v Hv; cbn in *; congruence.
  - split; [split; repeat constructor|]. split; [split; [reflexivity|split; [repeat constructor|exact I]]|]. split; [repeat constructor; cbn; discriminate|].
    split; [split; cbn; auto|]. repeat constructor; intros v Hv; discriminate.
Qed.
(** A run of the generated code, and the hypotheses on the value. *)
Definition v_json : val := VSeq [VSome (VZ 3); VZ 0; VZ 9; VZ 255].
Definition v_ron : val := VSeq [VSome (VZ 3); VZ 0; VZ 9].
Example C69_ex_run : instance (shape_of d_json) v_json /\ text_typed c64 [source_decl W_text d_json] Json (TNamed 0) v_json /\
  run_jser Json (types W_text) (fun _ _ => p_inc) (fun _ => p_inc) (shape_of d_json) (ser_text toy c64 [] Json 2) (mk_json_ser d_json) v_json
    = Ok (chars "{""x"":3,""e"":9,""b"":256}") /\
  generated_reads Json W_text (fun _ _ => p_inc) (fun _ => p_inc) d_json toy c64 [] (mk_json_de d_json) (chars "{""x"":3,""e"":9,""b"":256}") v_json.
Proof.
  split; [reflexivity|]. split.
  - exists 4%nat. change (NoDup (map key_of_field (filter (fun f => negb (f_skip f)) (match source_decl W_text d_json with DStruct _ _ fs => fs | _ => [] end))) /\
        Forall (fun f => f_skip f = false -> good_name Json (key_of_field f)) (match source_decl W_text d_json with DStruct _ _ fs => fs | _ => [] end) /\
        Forall2 (fun f => field_value (text_value c64 [source_decl W_text d_json] Json 3) (looks_none [source_decl W_text d_json] Json 3) (none_as_null Json false f) f)
          (match source_decl W_text d_json with DStruct _ _ fs => fs | _ => [] end) [VSome (VZ 3); VZ 0; VZ 9; VZ 255]).
    split; [repeat constructor; cbv; intuition congruence|]. split; [repeat constructor; cbv; intuition congruence|].
    apply Forall2_cons; [|apply Forall2_cons; [|apply Forall2_cons; [|apply Forall2_cons; [|apply Forall2_nil]]]].
    + split; [cbv; intuition congruence|]. cbv; intuition congruence.
    + split; [cbv; intuition congruence|reflexivity].
    + split; [cbv; intuition congruence|]. cbv; intuition congruence.
    + split; [cbv; intuition congruence|]. cbv; intuition congruence.
  - split; [vm_compute; reflexivity|]. exists 12%nat. eexists. vm_compute. reflexivity.
Qed.
Example C70_ex_run : instance (shape_of d_ron) v_ron /\ text_typed c64 [source_decl W_text d_ron] Ron (TNamed 0) v_ron /\
  run_jser Ron (types W_text) (fun _ _ => p_inc) (fun _ => p_inc) (shape_of d_ron) (ser_text toy c64 [] Ron 2) (mk_ron_ser d_ron) v_ron
    = Ok (chars "(x:3,e:9,)") /\
  generated_reads Ron W_text (fun _ _ => p_inc) (fun _ => p_inc) d_ron toy c64 [] (mk_ron_de d_ron) (chars "(x:3,e:9,)") v_ron.
Proof.
  split; [reflexivity|]. split.
  - exists 4%nat. change (NoDup (map key_of_field (filter (fun f => negb (f_skip f)) (match source_decl W_text d_ron with DStruct _ _ fs => fs | _ => [] end))) /\
        Forall (fun f => f_skip f = false -> good_name Ron (key_of_field f)) (match source_decl W_text d_ron with DStruct _ _ fs => fs | _ => [] end) /\
        Forall2 (fun f => field_value (text_value c64 [source_decl W_text d_ron] Ron 3) (looks_none [source_decl W_text d_ron] Ron 3) (none_as_null Ron false f) f)
          (match source_decl W_text d_ron with DStruct _ _ fs => fs | _ => [] end) [VSome (VZ 3); VZ 0; VZ 9]).
    split; [repeat constructor; cbv; intuition congruence|]. split; [repeat constructor; cbv; intuition congruence|].
    apply Forall2_cons; [|apply Forall2_cons; [|apply Forall2_cons; [|apply Forall2_nil]]].
    + split; [cbv; intuition congruence|]. cbv; intuition congruence.
    + split; [cbv; intuition congruence|reflexivity].
    + split; [cbv; intuition congruence|]. cbv; intuition congruence.
  - split; [vm_compute; reflexivity|]. exists 12%nat. eexists. vm_compute. reflexivity.
Qed.
(** Definitions outside: [struct Q(#[nserde(proxy = "P")] u8);],
    [enum E { V { #[nserde(proxy = "P")] s: u8 } }], [#[nserde(proxy = "P")] struct U;]. *)
Definition def_of (name : str) (attrs : list sattr) (body : sbody) : sdef :=
  {| sd_attrs := attrs; sd_vis := VNone_; sd_name := name; sd_gens := []; sd_where := []; sd_wtrail := false; sd_body := body |}.
Definition d_q := def_of (chars "Q") [] (KTuple [f_b] false).
Definition f_s : sfield := {| sf_attrs := sf_attrs f_b; sf_vis := VNone_; sf_name := chars "s"; sf_type := id (chars "u8") |}.
Definition d_v := def_of (chars "E") [] (KEnum [{| sv_attrs := []; sv_name := chars "V"; sv_payload := PStruct [f_s] false; sv_value := None |}] false).
Definition d_u := def_of (chars "U") [AOurs (IValue (chars "proxy") true (chars "P")) []] KUnit.
Definition d_e := def_of (chars "U") [] KUnit.
Lemma def_of_ok name attrs body : attrs_ok attrs ->
  match body with KNamed fs _ => Forall named_ok fs | KTuple fs _ => Forall unnamed_ok fs | KUnit => True | KEnum vs _ => Forall variant_ok vs end ->
  def_ok (def_of name attrs body).
Proof.
  intros Ha Hb. split; [exact Ha|]. split; [intros i H; discriminate H|]. split; [constructor|]. split; [cbn; repeat constructor; cbn; intuition discriminate|].
  split; [constructor|]. split; [cbn; lia|]. split; [reflexivity|]. cbn [def_of sd_body sd_where]. destruct body; auto.
Qed.
Example C69_ex_refuted :
  (def_ok d_q /\ exists r r', reads d_q r /\ reads (strip_tuple d_q) r') /\
  (def_ok d_v /\ no_const d_v /\ rust_ok d_v /\ proxy_plain d_v /\ exists r, reads d_v r) /\
  (def_ok d_u /\ exists r, reads d_u r) /\ (def_ok d_e /\ exists r, reads d_e r) /\
  but_proxies (d_rec [f_s]) (d_rec [strip_field f_s]).
Proof.
  assert (Hq : def_ok d_q) by (apply def_of_ok; ok).
  assert (Hv : def_ok d_v) by (apply def_of_ok; ok).
  assert (Hu : def_ok d_u) by (apply def_of_ok; ok).
  assert (He : def_ok d_e) by (apply def_of_ok; ok).
  assert (HR : forall d, def_ok d -> exists r, reads d r).
  { intros d Hd. destruct (C53_read_as_written_partial d Hd) as (n0 & r & _ & H). exists r, n0. exact H. }
  split; [split; [exact Hq|]; destruct (HR _ Hq) as [r Hr]; destruct (HR _ (strip_tuple_ok _ Hq)) as [r' Hr']; exists r, r'; split; assumption|].
  split; [split; [exact Hv|]; split; [ok|]; split; [split; [cbn; repeat constructor; cbn; intuition discriminate|split; [cbn; lia|repeat constructor; cbn; intuition discriminate]]|];
    split; [intros H; exfalso; apply H; reflexivity|apply HR; exact Hv]|].
  split; [split; [exact Hu|apply HR; exact Hu]|]. split; [split; [exact He|apply HR; exact He]|].
  split; [reflexivity|]. split; [reflexivity|]. split; [reflexivity|]. split; [reflexivity|]. cbn. constructor; [|constructor]. split; [reflexivity|]. split; reflexivity.
Qed.
