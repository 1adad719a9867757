(** C68: the code that #[derive(SerBin)] and #[derive(DeBin)] write does what the
    definition says. *)
From Verif Require Import Base Types Text TextModel BinModel BinRead BinLocal TyAll BinFuel SpecBin BinRoundtrip PropsBin DeriveModel SpecDerive DeriveProofs PropsDerive GenModel SpecGen Gen.
Local Open Scope N_scope.

Lemma u16_bits k : k < 65536 -> to_bits 2 (Z.of_N k) = k.
Proof. intros H. unfold to_bits. change (8 * Z.of_nat 2)%Z with 16%Z. rewrite Z.mod_small by (change (2 ^ 16)%Z with 65536%Z; lia). apply N2Z.id. Qed.

(** ** Serializing.  The macro writes one program [g]; when it runs (calling the
    serializers of the field types) it does what the model's [ser_bin] does for the
    declaration that the definition describes: same bytes, same panics, and it ends
    iff that ends. *)
Theorem C68_ser_partial : forall W conv d r,
  def_ok d -> reads d r -> no_const d -> rust_ok d -> variants_plain d -> proxy_plain d -> converts W conv (sd_name d) ->
  exists g,
    derive_ser_bin r = Some (ser_text (crate_of d) (sd_name d) (source_header (chars "SerBin") (crate_of d) d) g) /\
    forall G i v out x, nth_error G i = Some (source_decl W d) -> instance (shape_of d) v -> x <> NoFuel ->
      ((exists n, run_ser (fun t => w_ty W t None) conv (sd_name d) (shape_of d) (ser_bin G n) g v out = x) <->
       (exists n, ser_bin G n (TNamed i) v out = x)).
Proof.
  intros W conv d r Hok Hr Hc Hru Hvp Hpp Hconv. exists (mk_ser d). rewrite (reads_mk d r Hok Hr). split; [apply derive_ser_text; assumption|].
  intros G i v out x HG Hi Hx.
  assert (Hflip : forall n, sle (run_ser (fun t => w_ty W t None) conv (sd_name d) (shape_of d) (ser_bin G n) (mk_ser d) v out) (ser_bin G (S (S n)) (TNamed i) v out)).
  { intros n. apply (run_ser_rel W conv d Hconv (fun x y => sle y x)); try assumption.
    - intros a. apply sle_refl.
    - intros a b f g H1 H2. apply sle_bind; auto.
    - intros t w o. apply ser_bin_mono1.
    - intros p t w o. cbn [ser_bin]. apply sle_refl.
    - intros k o Hk. destruct n; [left; reflexivity|]. right. cbn [ser_bin ik_bytes]. rewrite u16_bits by exact Hk. reflexivity. }
  assert (Hfwd : forall n, sle (ser_bin G (S n) (TNamed i) v out) (run_ser (fun t => w_ty W t None) conv (sd_name d) (shape_of d) (ser_bin G (S n)) (mk_ser d) v out)).
  { intros n. apply (run_ser_rel W conv d Hconv sle); try assumption.
    - intros a. apply sle_refl.
    - intros a b f g H1 H2. apply sle_bind; auto.
    - intros t w o. apply ser_bin_mono1.
    - intros p t w o. destruct n; [left; reflexivity|]. cbn [ser_bin].
      assert (H1 := ser_bin_mono1 G n t (p_to p w) o). assert (H2 := ser_bin_mono1 G (S n) t (p_to p w) o).
      destruct H1 as [H1|H1]; [left; exact H1|]. rewrite H1. exact H2.
    - intros k o Hk. right. cbn [ser_bin ik_bytes]. rewrite u16_bits by exact Hk. reflexivity. }
  split; intros [n Hn].
  - exists (S (S n)). destruct (Hflip n) as [E|E]; congruence.
  - destruct n as [|n]; [cbn in Hn; congruence|]. exists (S n). destruct (Hfwd n) as [E|E]; congruence.
Qed.

(** ** Deserializing: the same value, error or panic, and the same offset. *)
Theorem C68_de_partial : forall W conv d r,
  def_ok d -> reads d r -> no_const d -> rust_ok d -> variants_plain d -> proxy_plain d -> tuple_plain d -> converts W conv (sd_name d) ->
  exists g,
    derive_de_bin r = Some (de_text (crate_of d) (sd_name d) (source_header (chars "DeBin") (crate_of d) d) g) /\
    forall c G i bytes o x, nth_error G i = Some (source_decl W d) -> snd x <> NoFuel ->
      ((exists n, run_de (fun t => w_ty W t None) (w_default W) conv (sd_name d) (shape_of d) (de_bin c G bytes n) g o = x) <->
       (exists n, de_bin c G bytes n (TNamed i) o = x)).
Proof.
  intros W conv d r Hok Hr Hc Hru Hvp Hpp Htp Hconv. exists (mk_de d). rewrite (reads_mk d r Hok Hr). split; [apply derive_de_text; assumption|].
  intros c G i bytes o x HG Hx.
  assert (Hflip : forall n, bm_le (run_de (fun t => w_ty W t None) (w_default W) conv (sd_name d) (shape_of d) (de_bin c G bytes n) (mk_de d)) (de_bin c G bytes (S (S n)) (TNamed i))).
  { intros n. apply (run_de_rel W conv d Hconv (fun A x y => bm_le y x)); try assumption.
    - intros A m. apply bm_le_refl.
    - intros A B m1 m2 f g H1 H2. apply bm_le_bind; auto.
    - intros A m1 m2 m1' m2' H E1 E2 q. rewrite <- E1, <- E2. apply H.
    - intros t. apply de_bin_mono1.
    - intros p t. cbn [de_bin]. apply bm_le_refl.
    - destruct n; [intros q; left; reflexivity|]. cbn [de_bin]. apply bm_le_refl. }
  assert (Hfwd : forall n, bm_le (de_bin c G bytes (S n) (TNamed i)) (run_de (fun t => w_ty W t None) (w_default W) conv (sd_name d) (shape_of d) (de_bin c G bytes (S n)) (mk_de d))).
  { intros n. apply (run_de_rel W conv d Hconv (fun A => bm_le)); try assumption.
    - intros A m. apply bm_le_refl.
    - intros A B m1 m2 f g H1 H2. apply bm_le_bind; auto.
    - intros A m1 m2 m1' m2' H E1 E2 q. rewrite <- E1, <- E2. apply H.
    - intros t. apply de_bin_mono1.
    - intros p t. destruct n; [intros q; left; reflexivity|]. cbn [de_bin]. apply bm_le_bind; [|intros v; apply bm_le_refl].
      assert (H1 := de_bin_mono1 c G bytes n t). assert (H2 := de_bin_mono1 c G bytes (S n) t). intros q.
      destruct (H1 q) as [E|E]; [left; exact E|]. rewrite E. apply H2.
    - cbn [de_bin]. apply bm_le_refl. }
  split; intros [n Hn].
  - exists (S (S n)). destruct (Hflip n o) as [E|E]; congruence.
  - destruct n as [|n]; [cbn in Hn; subst x; cbn in Hx; congruence|]. exists (S n). destruct (Hfwd n o) as [E|E]; congruence.
Qed.

(** What the generated serializer writes, the generated deserializer reads. *)
Corollary C68_roundtrip_partial : forall W conv d r,
  def_ok d -> reads d r -> no_const d -> rust_ok d -> variants_plain d -> proxy_plain d -> tuple_plain d -> converts W conv (sd_name d) ->
  exists g g',
    derive_ser_bin r = Some (ser_text (crate_of d) (sd_name d) (source_header (chars "SerBin") (crate_of d) d) g) /\
    derive_de_bin r = Some (de_text (crate_of d) (sd_name d) (source_header (chars "DeBin") (crate_of d) d) g') /\
    forall c G i v, cfg_ok c -> nth_error G i = Some (source_decl W d) -> instance (shape_of d) v -> has_type c G (TNamed i) v ->
      exists bs, (exists n, run_ser (fun t => w_ty W t None) conv (sd_name d) (shape_of d) (ser_bin G n) g v [] = Ok bs) /\
        (slice_fits c (lenN bs) -> exists n, run_de (fun t => w_ty W t None) (w_default W) conv (sd_name d) (shape_of d) (de_bin c G bs n) g' 0 = (lenN bs, Ok v)).
Proof.
  intros W conv d r Hok Hr Hc Hru Hvp Hpp Htp Hconv.
  destruct (C68_ser_partial W conv d r) as (g & Eg & Hg); auto. destruct (C68_de_partial W conv d r) as (g' & Eg' & Hg'); auto.
  exists g, g'. split; [exact Eg|]. split; [exact Eg'|]. intros c G i v Hcfg HG Hi Ht.
  destruct (C01_bin_roundtrip c G (TNamed i) v Hcfg Ht) as (bs & HE & _). exists bs. split.
  - apply (Hg G i v [] (Ok bs) HG Hi); [discriminate|]. destruct HE as [n Hn]. exists n. apply Hn. lia.
  - intros Hf. assert (H := C02_self_delimiting c G (TNamed i) v bs [] [] Hcfg Ht HE). rewrite app_nil_r in H.
    destruct (H Hf) as [n Hn]. apply (Hg' c G i bs 0 (lenN bs, Ok v) HG); [discriminate|]. exists n. apply (Hn n). lia.
Qed.
Print Assumptions C68_roundtrip_partial.

(** ** Outside *)

(** The attributes of the fields of struct-like variants are ignored: the code is
    the same without them. *)
Definition strip_field (f : sfield) : sfield := {| sf_attrs := []; sf_vis := sf_vis f; sf_name := sf_name f; sf_type := sf_type f |}.
Definition strip_variant (v : svariant) : svariant :=
  {| sv_attrs := sv_attrs v; sv_name := sv_name v; sv_value := sv_value v;
     sv_payload := match sv_payload v with PStruct fs b => PStruct (map strip_field fs) b | p => p end |}.
Definition strip (d : sdef) : sdef :=
  {| sd_attrs := sd_attrs d; sd_vis := sd_vis d; sd_name := sd_name d; sd_gens := sd_gens d; sd_where := sd_where d; sd_wtrail := sd_wtrail d;
     sd_body := match sd_body d with KEnum vs b => KEnum (map strip_variant vs) b | k => k end |}.

Lemma strip_ok d : def_ok d -> def_ok (strip d).
Proof.
  intros (H1 & H2 & H3 & H4 & H5 & H6 & H7 & H8). split; [exact H1|]. split; [exact H2|]. split; [exact H3|]. split; [exact H4|].
  split; [exact H5|]. split; [exact H6|]. split; [exact H7|]. unfold strip. cbn [sd_body]. destruct (sd_body d) as [| | |vs b]; try exact H8.
  clear -H8. rewrite Forall_forall in *. intros v Hv. apply in_map_iff in Hv as (u & <- & Hu). destruct (H8 _ Hu) as [Ha Hp].
  split; [exact Ha|]. cbn [strip_variant sv_payload]. destruct (sv_payload u) as [|ts tb|fs tb]; try exact Hp.
  cbn [payload_ok] in *. rewrite Forall_forall in *. intros f Hf. apply in_map_iff in Hf as (w & <- & Hw). destruct (Hp _ Hw) as (_ & Ht & Hn).
  split; [constructor|]. split; [exact Ht|exact Hn].
Qed.

Theorem C68_refuted_variant_attributes : forall d r r', def_ok d -> no_const d -> proxy_plain d ->
  match sd_body d with KEnum _ _ => True | _ => False end -> reads d r -> reads (strip d) r' ->
  derive_ser_bin r = derive_ser_bin r' /\ derive_de_bin r = derive_de_bin r'.
Proof.
  intros d r r' Hok Hc Hp Hk Hr Hr'. rewrite (reads_mk d r Hok Hr), (reads_mk (strip d) r' (strip_ok d Hok) Hr').
  assert (Hp' : proxy_plain (strip d)).
  { intros H. destruct (Hp H) as [H1 H2]. split; [exact H1|]. cbn [strip sd_body]. destruct (sd_body d); auto. }
  assert (Ht : tuple_plain d) by (unfold tuple_plain; destruct (sd_body d); try exact I; contradiction).
  assert (Ht' : tuple_plain (strip d)) by (unfold tuple_plain, strip; cbn [sd_body]; destruct (sd_body d); try exact I; contradiction).
  rewrite (derive_ser_text d), (derive_ser_text (strip d)), (derive_de_text d), (derive_de_text (strip d)) by (try apply strip_ok; assumption).
  assert (E1 : crate_of (strip d) = crate_of d) by (unfold crate_of, strip; cbn [sd_body sd_attrs]; destruct (sd_body d); reflexivity).
  assert (E2 : mk_ser (strip d) = mk_ser d).
  { unfold mk_ser, strip. cbn [sd_body sd_attrs]. destruct (sd_body d) as [| | |vs b]; try reflexivity. f_equal. rewrite enumerate_map, map_map.
    apply map_ext. intros [n v]. cbn [ser_arm fst snd strip_variant sv_name sv_payload]. destruct (sv_payload v); try reflexivity.
    rewrite !map_map. reflexivity. }
  assert (E3 : mk_de (strip d) = mk_de d).
  { unfold mk_de, strip. cbn [sd_body sd_attrs]. destruct (sd_body d) as [| | |vs b]; try reflexivity. f_equal. rewrite enumerate_map, map_map.
    apply map_ext. intros [n v]. cbn [de_arm fst snd strip_variant sv_name sv_payload]. destruct (sv_payload v); try reflexivity.
    rewrite !map_map. reflexivity. }
  rewrite E1, E2, E3. split; reflexivity.
Qed.

(** A field of a struct-like variant called [s]: the code does not compile. *)
Theorem C68_refuted_s : forall W conv d r, def_ok d -> reads d r -> no_const d -> rust_ok d -> proxy_plain d ->
  forall vs b tag v fs tb, sd_body d = KEnum vs b -> nth_error vs (N.to_nat tag) = Some v -> sv_payload v = PStruct fs tb ->
  In (chars "s") (map sf_name fs) ->
  exists g, derive_ser_bin r = Some (ser_text (crate_of d) (sd_name d) (source_header (chars "SerBin") (crate_of d) d) g) /\
    forall ser l out, run_ser (fun t => w_ty W t None) conv (sd_name d) (shape_of d) ser g (VEnum tag l) out = Panic PNotCompiled.
Proof.
  intros W conv d r Hok Hr Hc Hru Hpp vs b tag v fs tb Eb Ev Ep Hs. exists (mk_ser d). rewrite (reads_mk d r Hok Hr).
  split; [apply derive_ser_text; assumption|]. intros ser l out. unfold mk_ser, shape_of, rust_ok in *. rewrite Eb in *. destruct Hru as (Hnd & _ & _).
  cbn [run_ser]. rewrite nth_error_map, Ev. cbn [option_map]. rewrite (pick_enum vs Hnd 0 _ _ Ev). cbn [ser_arm fst snd]. rewrite Ep. cbn [bind_pat].
  rewrite existsb_in by exact Hs. reflexivity.
Qed.

(** A skipped field of a tuple struct: the macro for DeBin panics. *)
Theorem C68_refuted_tuple_skip : forall d r fs b f, def_ok d -> reads d r -> sd_body d = KTuple fs b ->
  value_in (chars "proxy") (items (sd_attrs d)) = None -> In f fs -> word_in (chars "skip") (items (sf_attrs f)) = true ->
  derive_de_bin r = None.
Proof.
  intros d r fs b f Hok Hr Eb Ep Hf Hs. rewrite (reads_mk d r Hok Hr). unfold derive_de_bin, derive_target, mk_def. rewrite Eb.
  cbn [data_attrs st_attrs fst snd]. unfold attrs_proxy. rewrite value_items, Ep. cbn [st_named]. unfold derive_de_bin_struct_unnamed. cbn [st_fields].
  assert (H : forall l, lines (l ++ de_bin_skipped (map (mk_field false) fs)) = None).
  { intros l. induction l as [|[x|] l IH]; [|cbn [app lines]; rewrite IH; reflexivity|reflexivity].
    cbn [app]. unfold de_bin_skipped. rewrite (filter_map_mk false _ skipped) by (intros g; apply skip_mk).
    assert (Hin : In f (filter skipped fs)) by (apply filter_In; split; [exact Hf|exact Hs]).
    destruct (filter skipped fs) as [|g l]; [contradiction|]. reflexivity. }
  rewrite H. reflexivity.
Qed.

(** ** Examples *)
(** [struct G<T> { a: T, #[nserde(proxy = "P")] b: u8, #[nserde(skip)] c: u16 }] *)
Definition d_gen : sdef := {|
  sd_attrs := []; sd_vis := VNone_; sd_name := chars "G";
  sd_gens := [SGType (chars "T") [] None]; sd_where := []; sd_wtrail := false;
  sd_body := KNamed [
    {| sf_attrs := []; sf_vis := VNone_; sf_name := chars "a"; sf_type := id (chars "T") |};
    {| sf_attrs := [AOurs (IWord (chars "skip")) []]; sf_vis := VNone_; sf_name := chars "c"; sf_type := id (chars "u16") |};
    {| sf_attrs := [AOurs (IValue (chars "proxy") true (chars "P")) []]; sf_vis := VNone_; sf_name := chars "b"; sf_type := id (chars "u8") |}] true |}.
Lemma d_gen_ok : def_ok d_gen.
Proof.
  split; [|split; [|split; [|split; [|split; [|split; [|split]]]]]].
  - ok.
  - intros i H. discriminate H.
  - ok.
  - cbn. repeat constructor; cbn; intuition discriminate.
  - constructor.
  - cbn. lia.
  - reflexivity.
  - ok.
Qed.
(** [enum K { A, B(u8, u16), C { x: u8, y: T } }] *)
Definition d_kinds : sdef := {|
  sd_attrs := []; sd_vis := VNone_; sd_name := chars "K"; sd_gens := []; sd_where := []; sd_wtrail := false;
  sd_body := KEnum [
    {| sv_attrs := []; sv_name := chars "A"; sv_payload := PUnit; sv_value := None |};
    {| sv_attrs := []; sv_name := chars "B"; sv_payload := PTuple [id (chars "u8"); id (chars "u16")] false; sv_value := None |};
    {| sv_attrs := []; sv_name := chars "C";
       sv_payload := PStruct [{| sf_attrs := []; sf_vis := VNone_; sf_name := chars "x"; sf_type := id (chars "u8") |};
                              {| sf_attrs := []; sf_vis := VNone_; sf_name := chars "y"; sf_type := id (chars "T") |}] false; sv_value := None |}] false |}.
Lemma d_kinds_ok : def_ok d_kinds.
Proof.
  split; [|split; [|split; [|split; [|split; [|split; [|split]]]]]].
  - ok.
  - intros i H. discriminate H.
  - ok.
  - cbn. repeat constructor; cbn; intuition discriminate.
  - constructor.
  - cbn. lia.
  - reflexivity.
  - ok.
Qed.
Example C68_ex_hyps : no_const d_gen /\ rust_ok d_gen /\ variants_plain d_gen /\ proxy_plain d_gen /\ tuple_plain d_gen /\
  no_const d_kinds /\ rust_ok d_kinds /\ variants_plain d_kinds /\ proxy_plain d_kinds /\ tuple_plain d_kinds.
Proof.
  assert (Hp : forall d, value_in (chars "proxy") (items (sd_attrs d)) = None -> proxy_plain d) by (intros d E H; congruence).
  split; [ok|]. split; [cbn; repeat constructor; cbn; intuition discriminate|]. split; [exact I|]. split; [apply Hp; reflexivity|]. split; [exact I|].
  split; [ok|]. split; [split; [cbn; repeat constructor; cbn; intuition discriminate|split; [cbn; lia|repeat constructor; cbn; intuition discriminate]]|].
  split; [repeat constructor; cbn; discriminate|]. split; [apply Hp; reflexivity|exact I].
Qed.
(** The texts. *)
Example C68_ex_ser : exists r, reads d_gen r /\ derive_ser_bin r = Some (chars
"impl<T: nanoserde::SerBin, > nanoserde::SerBin for G<T, > {
            fn ser_bin(&self, s: &mut Vec<u8>) {
                self.a.ser_bin(s);let proxy: P = Into::into(&self.b);proxy.ser_bin(s);
            }
        }").
Proof.
  destruct (C53_read_as_written_partial d_gen d_gen_ok) as (n0 & r & _ & H). exists r. assert (Hr : reads d_gen r) by (exists n0; exact H).
  split; [exact Hr|]. rewrite (reads_mk _ _ d_gen_ok Hr). vm_compute. reflexivity.
Qed.
Example C68_ex_de : exists r, reads d_gen r /\ derive_de_bin r = Some (chars
"impl<T: nanoserde::DeBin, > nanoserde::DeBin for G<T, > {
            fn de_bin(o:&mut usize, d:&[u8]) -> ::core::result::Result<Self, nanoserde::DeBinErr> {
                ::core::result::Result::Ok(Self {
                    a: nanoserde::DeBin::de_bin(o, d)?,b: {let proxy: P = nanoserde::DeBin::de_bin(o, d)?;Into::into(&proxy)},c: Default::default(),
                })
            }
        }").
Proof.
  destruct (C53_read_as_written_partial d_gen d_gen_ok) as (n0 & r & _ & H). exists r. assert (Hr : reads d_gen r) by (exists n0; exact H).
  split; [exact Hr|]. rewrite (reads_mk _ _ d_gen_ok Hr). vm_compute. reflexivity.
Qed.
Example C68_ex_enum : exists r, reads d_kinds r /\ derive_ser_bin r = Some (chars
"impl nanoserde::SerBin for K {
            fn ser_bin(&self, s: &mut Vec<u8>) {
                match self {
                  Self::A => 0u16.ser_bin(s),Self::B (f0, f1, ) => {1u16.ser_bin(s);f0.ser_bin(s);f1.ser_bin(s);}Self::C {x, y, } => {2u16.ser_bin(s);x.ser_bin(s);y.ser_bin(s);}
                }
            }
        }") /\ derive_de_bin r = Some (chars
"impl nanoserde::DeBin for K {
            fn de_bin(o:&mut usize, d:&[u8]) -> ::core::result::Result<Self, nanoserde::DeBinErr> {
                let id: u16 = nanoserde::DeBin::de_bin(o,d)?;
                Ok(match id {
                    0u16 => Self::A,1u16 => Self::B (nanoserde::DeBin::de_bin(o, d)?,nanoserde::DeBin::de_bin(o, d)?,),2u16 => Self::C {x: nanoserde::DeBin::de_bin(o, d)?,y: nanoserde::DeBin::de_bin(o, d)?,},
                    unknown => return ::core::result::Result::Err(nanoserde::DeBinErr{o: 0, msg: nanoserde::DeBinErrReason::UnknownDiscriminant(unknown as isize)})
                })
            }
        }").
Proof.
  destruct (C53_read_as_written_partial d_kinds d_kinds_ok) as (n0 & r & _ & H). exists r. assert (Hr : reads d_kinds r) by (exists n0; exact H).
  split; [exact Hr|]. rewrite (reads_mk _ _ d_kinds_ok Hr). split; vm_compute; reflexivity.
Qed.
(** A world, and a run of the generated code for a value of [G<bool>]: [P] holds a
    number one greater in a u16. *)
Definition p_inc : proxy := {| p_to := fun v => match v with VZ z => VZ (z + 1) | _ => v end; p_from := fun v => match v with VZ z => VZ (z - 1) | _ => v end |}.
Definition base_ty (t : str) : ty :=
  if str_eqb t (chars "u8") then TInt U8 else if str_eqb t (chars "T") then TBool else TInt U16.
Definition W_ex : world := {|
  w_ty := fun t p => match p with Some q => TProxy p_inc (base_ty q) | None => base_ty t end;
  w_default := fun t => VZ 7; w_expr := fun _ _ => VUnit; w_proxy := fun q => (p_inc, base_ty q) |}.
Example C68_ex_run : converts W_ex (fun _ _ => p_inc) (chars "G") /\ instance (shape_of d_gen) (VSeq [VBool true; VZ 7; VZ 255]) /\
  forall c, cfg_ok c -> has_type c [source_decl W_ex d_gen] (TNamed 0) (VSeq [VBool true; VZ 7; VZ 255]) /\
  run_ser (fun t => w_ty W_ex t None) (fun _ _ => p_inc) (chars "G") (shape_of d_gen) (ser_bin [] 1) (mk_ser d_gen) (VSeq [VBool true; VZ 7; VZ 255]) [] = Ok [1; 0; 1] /\
  snd (run_de (fun t => w_ty W_ex t None) (w_default W_ex) (fun _ _ => p_inc) (chars "G") (shape_of d_gen) (de_bin c64 [] [1; 0; 1] 1) (mk_de d_gen) 0) = Ok (VSeq [VBool true; VZ 7; VZ 255]).
Proof.
  split; [split; reflexivity|]. split; [reflexivity|]. intros c Hc. split; [|split; [vm_compute; reflexivity|vm_compute; reflexivity]].
  exists 4%nat. change (Forall2 (fun f v => if f_skip f then v = f_tydefault f else fits px_inverse c [source_decl W_ex d_gen] 3 (f_ty f) v)
    (match source_decl W_ex d_gen with DStruct _ _ fs => fs | _ => [] end) [VBool true; VZ 7; VZ 255]).
  apply Forall2_cons; [exact I|]. apply Forall2_cons; [reflexivity|]. apply Forall2_cons; [|apply Forall2_nil].
  change (px_inverse p_inc (fits px_inverse c [source_decl W_ex d_gen] 2 (TInt U16)) (VZ 255)).
  split; [change (0 <= 256 < 65536)%Z; lia|reflexivity].
Qed.
