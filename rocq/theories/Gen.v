(** Proofs for C68. *)
From Verif Require Import Base Types Text TextModel BinModel BinRead BinLocal TyAll BinFuel DeriveModel SpecDerive DeriveProofs PropsDerive TextLex GenModel SpecGen.
Local Open Scope N_scope.

(** ** The programs *)
Definition px (f : sfield) := value_in (chars "proxy") (items (sf_attrs f)).
Definition skipped (f : sfield) := word_in (chars "skip") (items (sf_attrs f)).
Definition ser_stmts (name : str) (f : sfield) : list sstmt :=
  match px f with
  | Some p => [SLet p (PSelf name); SSer (PVar (chars "proxy"))]
  | None => [SSer (PSelf name)]
  end.
Definition named_fields (fs : list sfield) : list (str * sfield) := map (fun f => (sf_name f, f)) fs.
Fixpoint numbered_fields (n : N) (fs : list sfield) : list (str * sfield) :=
  match fs with [] => [] | f :: r => (dec n, f) :: numbered_fields (n + 1) r end.
Definition kept (l : list (str * sfield)) := filter (fun nf => negb (skipped (snd nf))) l.
Definition left_out (l : list (str * sfield)) := filter (fun nf => skipped (snd nf)) l.
Definition ser_block (l : list (str * sfield)) : sprog :=
  SBlock (concat (map (fun nf => ser_stmts (fst nf) (snd nf)) (kept l))).
Definition fvar (n : N) : str := chars "f" ++ dec n.
Fixpoint fvars (n : N) {A} (l : list A) : list str :=
  match l with [] => [] | _ :: r => fvar n :: fvars (n + 1) r end.
Definition ser_arm (iv : N * svariant) : str * spat * list sstmt :=
  let '(i, v) := iv in
  (sv_name v,
   match sv_payload v with PUnit => PatUnit | PTuple ts _ => PatTuple (fvars 0 ts) | PStruct fs _ => PatStruct (map sf_name fs) end,
   STag i ::
   match sv_payload v with
   | PUnit => []
   | PTuple ts _ => map (fun x => SSer (PVar x)) (fvars 0 ts)
   | PStruct fs _ => map (fun f => SSer (PVar (sf_name f))) fs
   end).
Definition mk_ser (d : sdef) : sprog :=
  match sd_body d with
  | KEnum vs _ => SMatch (map ser_arm (enumerate 0 vs))
  | KNamed fs _ => match value_in (chars "proxy") (items (sd_attrs d)) with Some p => SProxy p | None => ser_block (named_fields fs) end
  | KTuple fs _ => match value_in (chars "proxy") (items (sd_attrs d)) with Some p => SProxy p | None => ser_block (numbered_fields 0 fs) end
  | KUnit => match value_in (chars "proxy") (items (sd_attrs d)) with Some p => SProxy p | None => SBlock [] end
  end.

Definition dexp_of (f : sfield) : dexp := match px f with Some p => DVia p | None => DRead end.
Definition de_lit (l : list (str * sfield)) : list (str * dexp) :=
  map (fun nf => (fst nf, dexp_of (snd nf))) (kept l) ++ map (fun nf => (fst nf, DDefault)) (left_out l).
Definition de_arm (iv : N * svariant) : N * str * dcons :=
  let '(i, v) := iv in
  (i, sv_name v,
   match sv_payload v with
   | PUnit => CUnit_
   | PTuple ts _ => CTuple_ (map (fun _ => DRead) ts)
   | PStruct fs _ => CStruct_ (map (fun f => (sf_name f, DRead)) fs)
   end).
Definition mk_de (d : sdef) : dprog :=
  match sd_body d with
  | KEnum vs _ => DMatch (map de_arm (enumerate 0 vs))
  | KNamed fs _ => match value_in (chars "proxy") (items (sd_attrs d)) with Some p => DProxy_ p | None => DSelf (de_lit (named_fields fs)) end
  | KTuple fs _ => match value_in (chars "proxy") (items (sd_attrs d)) with Some p => DProxy_ p | None => DSelf (de_lit (numbered_fields 0 fs)) end
  | KUnit => match value_in (chars "proxy") (items (sd_attrs d)) with Some p => DProxy_ p | None => DSelf [] end
  end.

(** ** Their texts *)
Lemma lines_some (l : list str) : lines (map Some l) = Some (concat l).
Proof. induction l as [|a l IH]; [reflexivity|]. cbn [map lines concat]. rewrite IH. reflexivity. Qed.
Lemma lines_map {A} (f : A -> option str) (g : A -> str) l : (forall a, In a l -> f a = Some (g a)) ->
  lines (map f l) = Some (concat (map g l)).
Proof.
  intros H. rewrite <- lines_some, map_map. f_equal. apply map_ext_in. exact H.
Qed.
Lemma lines_app a b x y : lines a = Some x -> lines b = Some y -> lines (a ++ b) = Some (x ++ y).
Proof.
  revert x. induction a as [|[s|] a IH]; intros x Ha Hb; [|cbn in *|discriminate].
  - injection Ha as <-. exact Hb.
  - destruct (lines a) as [z|]; [|discriminate]. injection Ha as <-. rewrite (IH z eq_refl Hb), app_assoc. reflexivity.
Qed.
Lemma skip_mk named f : attrs_skip (fl_attrs (mk_field named f)) = skipped f.
Proof. unfold attrs_skip, mk_field. cbn [fl_attrs]. apply word_items. Qed.
Lemma proxy_mk named f : attrs_proxy (fl_attrs (mk_field named f)) = px f.
Proof. unfold attrs_proxy, mk_field. cbn [fl_attrs]. apply value_items. Qed.

Lemma ser_field_text named nm f : ser_bin_field nm (mk_field named f) = concat (map sstmt_text (ser_stmts nm f)).
Proof.
  unfold ser_bin_field, ser_stmts. rewrite proxy_mk. destruct (px f); cbn [map concat sstmt_text place_text];
  rewrite ?app_nil_r, <- ?app_assoc; reflexivity.
Qed.
Lemma de_field_text c named nm f :
  de_bin_field c nm (mk_field named f) = nm ++ chars ": " ++ dexp_text c (dexp_of f) ++ chars ",".
Proof.
  unfold de_bin_field, dexp_of. rewrite proxy_mk. destruct (px f); cbn [dexp_text].
  - rewrite <- ?app_assoc. reflexivity.
  - rewrite <- ?app_assoc. reflexivity.
Qed.
Lemma concat_map_concat {A} (g : A -> list sstmt) l :
  concat (map (fun a => concat (map sstmt_text (g a))) l) = concat (map sstmt_text (concat (map g l))).
Proof.
  induction l as [|a l IH]; [reflexivity|]. cbn [map concat]. rewrite map_app, concat_app, IH. reflexivity.
Qed.

Lemma filter_map_named (p : sfield -> bool) fs :
  filter (fun nf => p (snd nf)) (named_fields fs) = named_fields (filter p fs).
Proof.
  unfold named_fields. induction fs as [|f fs IH]; [reflexivity|]. cbn [map filter snd]. destruct (p f); cbn [map]; rewrite IH; reflexivity.
Qed.
Lemma filter_map_mk named (p : pfield -> bool) (q : sfield -> bool) fs : (forall f, p (mk_field named f) = q f) ->
  filter p (map (mk_field named) fs) = map (mk_field named) (filter q fs).
Proof.
  intros H. induction fs as [|f fs IH]; [reflexivity|]. cbn [map filter]. rewrite H. destruct (q f); cbn [map]; rewrite IH; reflexivity.
Qed.

Lemma ser_named_lines fs :
  lines (map (fun p => option_map (fun nm => ser_bin_field nm p) (fl_name p))
     (filter (fun p => negb (attrs_skip (fl_attrs p))) (map (mk_field true) fs)))
  = Some (concat (map sstmt_text (concat (map (fun nf => ser_stmts (fst nf) (snd nf)) (kept (named_fields fs)))))).
Proof.
  rewrite (filter_map_mk true _ (fun f => negb (skipped f))) by (intros f; rewrite skip_mk; reflexivity).
  rewrite map_map. unfold kept. rewrite (filter_map_named (fun f => negb (skipped f))).
  rewrite (lines_map _ (fun f => concat (map sstmt_text (ser_stmts (sf_name f) f)))).
  - f_equal. rewrite concat_map_concat. unfold named_fields. rewrite map_map. reflexivity.
  - intros f _. cbn [fl_name mk_field option_map]. f_equal. apply ser_field_text.
Qed.
Lemma ser_numbered_lines fs : forall n,
  lines (map (fun np => Some (ser_bin_field (dec (fst np)) (snd np)))
     (filter (fun np => negb (attrs_skip (fl_attrs (snd np)))) (enumerate n (map (mk_field false) fs))))
  = Some (concat (map sstmt_text (concat (map (fun nf => ser_stmts (fst nf) (snd nf)) (kept (numbered_fields n fs)))))).
Proof.
  induction fs as [|f fs IH]; intros n; [reflexivity|]. cbn [map enumerate filter numbered_fields snd].
  unfold kept. cbn [filter snd]. fold (kept (numbered_fields (n + 1) fs)). rewrite skip_mk. destruct (skipped f); cbn [negb].
  - apply IH.
  - cbn [map lines]. rewrite IH. cbn [fst snd concat]. rewrite map_app, concat_app, ser_field_text. reflexivity.
Qed.

Definition init_text (c : str) (fe : str * dexp) : str := fst fe ++ chars ": " ++ dexp_text c (snd fe) ++ chars ",".
Lemma inits_app c a b : inits_text c (a ++ b) = inits_text c a ++ inits_text c b.
Proof. unfold inits_text. rewrite map_app, concat_app. reflexivity. Qed.

Lemma de_named_lines c fs :
  lines (map (fun p => option_map (fun nm => de_bin_field c nm p) (fl_name p))
     (filter (fun p => negb (attrs_skip (fl_attrs p))) (map (mk_field true) fs)) ++ de_bin_skipped (map (mk_field true) fs))
  = Some (inits_text c (de_lit (named_fields fs))).
Proof.
  unfold de_lit. rewrite inits_app. apply lines_app.
  - rewrite (filter_map_mk true _ (fun f => negb (skipped f))) by (intros f; rewrite skip_mk; reflexivity).
    rewrite map_map. unfold kept. rewrite (filter_map_named (fun f => negb (skipped f))).
    rewrite (lines_map _ (fun f => init_text c (sf_name f, dexp_of f))).
    + unfold inits_text, named_fields. rewrite !map_map. reflexivity.
    + intros f _. cbn [fl_name mk_field option_map]. f_equal. apply de_field_text.
  - unfold de_bin_skipped, left_out. rewrite (filter_map_mk true _ skipped) by (intros f; apply skip_mk).
    rewrite map_map, (filter_map_named skipped).
    rewrite (lines_map _ (fun f => init_text c (sf_name f, DDefault))).
    + unfold inits_text, named_fields. rewrite !map_map. reflexivity.
    + intros f _. reflexivity.
Qed.

Lemma de_numbered_lines c fs : Forall (fun f => skipped f = false) fs -> forall n,
  lines (map (fun np => Some (de_bin_field c (dec (fst np)) (snd np)))
     (filter (fun np => negb (attrs_skip (fl_attrs (snd np)))) (enumerate n (map (mk_field false) fs))) ++ de_bin_skipped (map (mk_field false) fs))
  = Some (inits_text c (de_lit (numbered_fields n fs))).
Proof.
  induction 1 as [|f fs Hf _ IH]; intros n; [reflexivity|].
  specialize (IH (n + 1)). unfold de_bin_skipped, de_lit, kept, left_out in *. cbn [map enumerate filter numbered_fields snd].
  rewrite !skip_mk, Hf. cbn [negb map lines app]. rewrite IH. f_equal. unfold inits_text. cbn [map concat fst snd].
  rewrite de_field_text. reflexivity.
Qed.

Lemma fvars_enum (k : N -> str) {A} (l : list A) : forall n,
  map (fun np : N * A => Some (k (fst np))) (enumerate n l) = map Some (map (fun np : N * A => k (fst np)) (enumerate n l)).
Proof. intros n. rewrite map_map. reflexivity. Qed.
Lemma enum_fvars {A} (g : str -> str) (l : list A) : forall n,
  map (fun np : N * A => g (fvar (fst np))) (enumerate n l) = map g (fvars n l).
Proof. induction l as [|a l IH]; intros n; [reflexivity|]. cbn [enumerate map fvars fst]. rewrite IH. reflexivity. Qed.
Lemma fvars_map {A B} (g : A -> B) l : forall n, fvars n (map g l) = fvars n l.
Proof. induction l as [|a l IH]; intros n; [reflexivity|]. cbn [map fvars]. rewrite IH. reflexivity. Qed.
Lemma enumerate_map {A B} (g : A -> B) l : forall n, enumerate n (map g l) = map (fun na => (fst na, g (snd na))) (enumerate n l).
Proof. induction l as [|a l IH]; intros n; [reflexivity|]. cbn [map enumerate fst snd]. rewrite IH. reflexivity. Qed.

Lemma mk_tuple ts : ts <> [] -> exists w, mk_payload (PTuple ts false) = MkType (CTuple (map mk ts)) w None None.
Proof.
  intros H. cbn [mk_payload mk]. destruct ts as [|t ts]; [congruence|]. eexists. rewrite app_nil_r. reflexivity.
Qed.

Lemma ser_variant_text i v : variant_ok v -> ser_bin_variant (i, mk_variant v) = Some (arm_text (ser_arm (i, v))).
Proof.
  intros [_ Hp]. unfold ser_bin_variant, mk_variant, ser_arm, arm_text. cbn [fst snd fl_name fl_type].
  destruct (sv_payload v) as [|ts b|fs b].
  - cbn [mk_payload no_type t_ident t_wraps]. rewrite <- ?app_assoc. reflexivity.
  - destruct Hp as (Hne & -> & _). destruct (mk_tuple ts Hne) as [w ->]. cbn [t_ident t_wraps].
    rewrite (fvars_enum (fun n => chars "f" ++ dec n ++ chars ", ")), (fvars_enum (fun n => chars "f" ++ dec n ++ chars ".ser_bin(s);")).
    erewrite lines_app; [|reflexivity|]. 2:{ apply lines_app; [apply lines_some|]. apply lines_app; [reflexivity|]. apply lines_app; [apply lines_some|reflexivity]. }
    f_equal. rewrite !app_nil_r.
    assert (E1 : concat (map (fun np : N * type => chars "f" ++ dec (fst np) ++ chars ", ") (enumerate 0 (map mk ts)))
      = concat (map (fun x => x ++ chars ", ") (fvars 0 ts))).
    { rewrite <- (fvars_map mk), <- enum_fvars. f_equal. }
    assert (E2 : concat (map (fun np : N * type => chars "f" ++ dec (fst np) ++ chars ".ser_bin(s);") (enumerate 0 (map mk ts)))
      = concat (map sstmt_text (map (fun x => SSer (PVar x)) (fvars 0 ts)))).
    { rewrite map_map, <- (fvars_map mk), <- enum_fvars. f_equal. }
    unfold str in *. rewrite E1, E2.
    unfold list_text. cbn [map concat sstmt_text]. rewrite <- ?app_assoc. reflexivity.
  - cbn [mk_payload t_ident t_wraps st_fields]. rewrite !map_map. cbn [mk_field fl_name option_map].
    erewrite lines_app; [|reflexivity|]. 2:{ apply lines_app; [apply (lines_map _ (fun f => sf_name f ++ chars ", ")); reflexivity|]. apply lines_app; [reflexivity|].
      apply lines_app; [apply (lines_map _ (fun f => sf_name f ++ chars ".ser_bin(s);")); reflexivity|reflexivity]. }
    f_equal. rewrite !app_nil_r. unfold list_text. cbn [map concat sstmt_text]. rewrite !map_map. cbn [sstmt_text place_text].
    rewrite <- ?app_assoc. reflexivity.
Qed.
Lemma de_variant_text c i v : variant_ok v -> de_bin_variant c (i, mk_variant v) = Some (darm_text c (de_arm (i, v))).
Proof.
  intros [_ Hp]. unfold de_bin_variant, mk_variant, de_arm, darm_text. cbn [fst snd fl_name fl_type].
  destruct (sv_payload v) as [|ts b|fs b].
  - cbn. rewrite <- ?app_assoc. reflexivity.
  - destruct Hp as (Hne & -> & _). destruct (mk_tuple ts Hne) as [w ->]. cbn [t_ident t_wraps].
    rewrite map_map. erewrite lines_app; [|reflexivity|].
    2:{ apply lines_app; [apply (lines_map _ (fun _ => c ++ chars "::DeBin::de_bin(o, d)?,")); reflexivity|reflexivity]. }
    f_equal. rewrite !app_nil_r. rewrite map_map. cbn [dexp_text]. rewrite <- ?app_assoc. reflexivity.
  - cbn [mk_payload t_ident t_wraps st_fields]. rewrite !map_map. cbn [mk_field fl_name option_map].
    erewrite lines_app; [|reflexivity|].
    2:{ apply lines_app; [apply (lines_map _ (fun f => sf_name f ++ chars ": " ++ c ++ chars "::DeBin::de_bin(o, d)?,")); reflexivity|reflexivity]. }
    f_equal. rewrite !app_nil_r. unfold inits_text. rewrite map_map. cbn [fst snd dexp_text]. rewrite <- ?app_assoc. reflexivity.
Qed.
Lemma variants_text {B} (f : N * pfield -> option str) (g : N * svariant -> B) (h : B -> str) vs :
  (forall i v, variant_ok v -> f (i, mk_variant v) = Some (h (g (i, v)))) -> Forall variant_ok vs ->
  forall n, lines (map f (enumerate n (map mk_variant vs))) = Some (concat (map h (map g (enumerate n vs)))).
Proof.
  intros H HF. induction HF as [|v vs Hv _ IH]; intros n; [reflexivity|].
  cbn [map enumerate lines concat]. rewrite (H _ _ Hv), IH. reflexivity.
Qed.

Lemma header_mk d trait crate_ : def_ok d -> no_const d ->
  bounds_strings trait crate_ (mk_gens (sd_gens d) (sd_where d)) = source_header trait crate_ d.
Proof.
  intros Hok Hc. destruct (C53_read_as_written_partial d Hok) as (n0 & r & _ & Hr).
  assert (Hr' : reads d r) by (exists n0; exact Hr).
  rewrite <- (C55_header_partial d r trait crate_ Hok Hr' Hc), (reads_mk d r Hok Hr').
  unfold mk_def. destruct (sd_body d); reflexivity.
Qed.

Lemma derive_ser_text d : def_ok d -> no_const d -> proxy_plain d ->
  derive_ser_bin (mk_def d) = Some (ser_text (crate_of d) (sd_name d) (source_header (chars "SerBin") (crate_of d) d) (mk_ser d)).
Proof.
  intros Hok Hc Hp. unfold derive_ser_bin, derive_target. pose proof Hok as (_ & _ & _ & _ & _ & _ & _ & Hb).
  assert (Hh := header_mk d (chars "SerBin") (crate_of d) Hok Hc).
  unfold mk_def, mk_ser, crate_of, proxy_plain, ser_text in *. destruct (sd_body d) as [fs b|fs b| |vs b];
    cbn [data_attrs st_attrs en_attrs fst snd]; unfold attrs_crate, attrs_proxy in *; rewrite ?value_items in *.
  - set (c := match value_in (chars "crate") _ with Some x => x | None => _ end) in *.
    destruct (value_in (chars "proxy") (items (sd_attrs d))) as [p|]; cbn [st_named st_name].
    + destruct Hp as [Hp _]; [discriminate|]. unfold ser_bin_proxy, source_header. rewrite Hp. cbn [fst snd app].
      rewrite <- ?app_assoc. reflexivity.
    + unfold derive_ser_bin_struct. cbn [st_fields st_name st_generics]. rewrite ser_named_lines. unfold ser_bin_impl. rewrite Hh.
      unfold ser_block. rewrite <- ?app_assoc. reflexivity.
  - set (c := match value_in (chars "crate") _ with Some x => x | None => _ end) in *.
    destruct (value_in (chars "proxy") (items (sd_attrs d))) as [p|]; cbn [st_named st_name].
    + destruct Hp as [Hp _]; [discriminate|]. unfold ser_bin_proxy, source_header. rewrite Hp. cbn [fst snd app].
      rewrite <- ?app_assoc. reflexivity.
    + unfold derive_ser_bin_struct_unnamed. cbn [st_fields st_name st_generics]. rewrite ser_numbered_lines. unfold ser_bin_impl. rewrite Hh.
      unfold ser_block. rewrite <- ?app_assoc. reflexivity.
  - set (c := match value_in (chars "crate") _ with Some x => x | None => _ end) in *.
    destruct (value_in (chars "proxy") (items (sd_attrs d))) as [p|]; cbn [st_named st_name].
    + destruct Hp as [Hp _]; [discriminate|]. unfold ser_bin_proxy, source_header. rewrite Hp. cbn [fst snd app].
      rewrite <- ?app_assoc. reflexivity.
    + unfold derive_ser_bin_struct_unnamed. cbn [st_fields st_name st_generics enumerate filter map lines]. unfold ser_bin_impl. rewrite Hh.
      cbn [map concat]. rewrite <- ?app_assoc. reflexivity.
  - cbn [attr_value find_map]. unfold derive_ser_bin_enum. cbn [en_generics en_variants en_name].
    rewrite (variants_text ser_bin_variant ser_arm arm_text vs ser_variant_text Hb 0). 
    replace (match value_in (chars "crate") (items (sd_attrs d)) with Some _ | _ => chars "nanoserde" end) with (chars "nanoserde") in *
      by (destruct (value_in (chars "crate") (items (sd_attrs d))); reflexivity).
    rewrite Hh. rewrite <- ?app_assoc. reflexivity.
Qed.

Lemma derive_de_text d : def_ok d -> no_const d -> proxy_plain d -> tuple_plain d ->
  derive_de_bin (mk_def d) = Some (de_text (crate_of d) (sd_name d) (source_header (chars "DeBin") (crate_of d) d) (mk_de d)).
Proof.
  intros Hok Hc Hp Ht. unfold derive_de_bin, derive_target. pose proof Hok as (_ & _ & _ & _ & _ & _ & _ & Hb).
  assert (Hh := header_mk d (chars "DeBin") (crate_of d) Hok Hc).
  unfold mk_def, mk_de, crate_of, proxy_plain, tuple_plain, de_text in *. destruct (sd_body d) as [fs b|fs b| |vs b];
    cbn [data_attrs st_attrs en_attrs fst snd]; unfold attrs_crate, attrs_proxy in *; rewrite ?value_items in *.
  - set (c := match value_in (chars "crate") _ with Some x => x | None => _ end) in *.
    destruct (value_in (chars "proxy") (items (sd_attrs d))) as [p|]; cbn [st_named st_name].
    + destruct Hp as [Hp _]; [discriminate|]. unfold de_bin_proxy, source_header. rewrite Hp. cbn [fst snd app].
      rewrite <- ?app_assoc. reflexivity.
    + unfold derive_de_bin_struct. cbn [st_fields st_name st_generics]. rewrite de_named_lines. unfold de_bin_impl. rewrite Hh.
      rewrite <- ?app_assoc. reflexivity.
  - set (c := match value_in (chars "crate") _ with Some x => x | None => _ end) in *.
    destruct (value_in (chars "proxy") (items (sd_attrs d))) as [p|]; cbn [st_named st_name].
    + destruct Hp as [Hp _]; [discriminate|]. unfold de_bin_proxy, source_header. rewrite Hp. cbn [fst snd app].
      rewrite <- ?app_assoc. reflexivity.
    + unfold derive_de_bin_struct_unnamed. cbn [st_fields st_name st_generics]. rewrite de_numbered_lines by exact Ht. unfold de_bin_impl. rewrite Hh.
      rewrite <- ?app_assoc. reflexivity.
  - set (c := match value_in (chars "crate") _ with Some x => x | None => _ end) in *.
    destruct (value_in (chars "proxy") (items (sd_attrs d))) as [p|]; cbn [st_named st_name].
    + destruct Hp as [Hp _]; [discriminate|]. unfold de_bin_proxy, source_header. rewrite Hp. cbn [fst snd app].
      rewrite <- ?app_assoc. reflexivity.
    + unfold derive_de_bin_struct_unnamed. cbn [st_fields st_name st_generics enumerate filter map lines de_bin_skipped app]. unfold de_bin_impl. rewrite Hh.
      cbn [map concat]. rewrite <- ?app_assoc. reflexivity.
  - cbn [attr_value find_map]. unfold derive_de_bin_enum. cbn [en_generics en_variants en_name].
    rewrite (variants_text (de_bin_variant (chars "nanoserde")) de_arm (darm_text (chars "nanoserde")) vs (de_variant_text (chars "nanoserde")) Hb 0). 
    replace (match value_in (chars "crate") (items (sd_attrs d)) with Some _ | _ => chars "nanoserde" end) with (chars "nanoserde") in *
      by (destruct (value_in (chars "crate") (items (sd_attrs d))); reflexivity).
    rewrite Hh. rewrite <- ?app_assoc. reflexivity.
Qed.

(** ** What they do *)
Lemma assoc_here {A} k (a : A) l : assoc k ((k, a) :: l) = Some a.
Proof. cbn [assoc]. rewrite str_eqb_refl. reflexivity. Qed.
Lemma assoc_cons_ne {A} k k' (a : A) l : k' <> k -> assoc k ((k', a) :: l) = assoc k l.
Proof. intros H. cbn [assoc]. apply str_eqb_neq in H. rewrite H. reflexivity. Qed.
Lemma assoc_notin {A} k (l : list (str * A)) : ~ In k (map fst l) -> assoc k l = None.
Proof.
  induction l as [|[k' a] l IH]; intros H; [reflexivity|]. cbn [map fst] in H. rewrite assoc_cons_ne.
  - apply IH. intros Hi. apply H. right. exact Hi.
  - intros ->. apply H. left. reflexivity.
Qed.
Lemma assoc_app_l {A} k (l r : list (str * A)) : ~ In k (map fst l) -> assoc k (l ++ r) = assoc k r.
Proof.
  induction l as [|[k' a] l IH]; intros H; [reflexivity|]. cbn [map fst app] in *. rewrite assoc_cons_ne.
  - apply IH. intros Hi. apply H. right. exact Hi.
  - intros ->. apply H. left. reflexivity.
Qed.
Lemma assoc_app_r {A} k (l r : list (str * A)) : ~ In k (map fst r) -> assoc k (l ++ r) = assoc k l.
Proof.
  intros H. induction l as [|[k' a] l IH]; cbn [app].
  - cbn [assoc]. apply assoc_notin, H.
  - cbn [assoc]. destruct (str_eqb k' k); [reflexivity|exact IH].
Qed.

Section SerSem.
  Variable W : world.
  Variable conv : str -> str -> proxy.
  Hypothesis Hty : forall t p, w_ty W t (Some p) = TProxy (conv t p) (w_ty W p None).
  Notation typ := (fun t => w_ty W t None).
  Variable R : sres -> sres -> Prop.
  Hypothesis R_refl : forall x, R x x.
  Hypothesis R_bind : forall x y f g, R x y -> (forall o, R (f o) (g o)) -> R (rbind x f) (rbind y g).
  Variables a b : ty -> val -> list N -> sres.
  Hypothesis Hab : forall t v o, R (a t v o) (b t v o).
  Hypothesis Hpx : forall p t v o, R (a (TProxy p t) v o) (b t (p_to p v) o).

  Lemma run_block named self_ nfs : forall l loc out,
    Forall2 (fun nf v => assoc (fst nf) self_ = Some (ty_text (sf_type (snd nf)), v)) nfs l ->
    R (ser_fields a true (map (fun nf => source_field W named (snd nf)) nfs) l out)
      (run_stmts typ conv b self_ loc (concat (map (fun nf => ser_stmts (fst nf) (snd nf)) (kept nfs))) out).
  Proof.
    induction nfs as [|[nm f] nfs IH]; intros l loc out H; inversion H as [|? v ? l' H1 H2]; subst; [apply R_refl|].
    cbn [map snd ser_fields]. unfold kept. cbn [filter snd]. fold (kept nfs).
    change (f_skip (source_field W named f)) with (skipped f). cbn [fst snd] in H1. cbn [andb].
    destruct (skipped f); cbn [negb]; [apply IH, H2|]. cbn [map concat fst snd].
    assert (Et : f_ty (source_field W named f) = w_ty W (ty_text (sf_type f)) (px f)) by reflexivity. rewrite Et. clear Et.
    unfold ser_stmts. destruct (px f) as [p|]; cbn [app run_stmts look].
    - rewrite H1. cbv iota beta. rewrite assoc_here, Hty. apply R_bind; [apply Hpx|]. intros o. apply IH, H2.
    - rewrite H1. cbv iota beta. apply R_bind; [apply Hab|]. intros o. apply IH, H2.
  Qed.

  Lemma run_locals xs ts : forall l loc out,
    Forall2 (fun xt v => assoc (fst xt) loc = Some (snd xt, v)) (combine xs ts) l -> length xs = length ts ->
    R (ser_tys a (map (fun t => w_ty W t None) ts) l out)
      (run_stmts typ conv b [] loc (map (fun x => SSer (PVar x)) xs) out).
  Proof.
    revert ts. induction xs as [|x xs IH]; intros [|t ts] l loc out H HL; try discriminate HL; cbn [combine] in H;
      inversion H as [|? v ? l' H1 H2]; subst; [apply R_refl|].
    cbn [map ser_tys run_stmts look]. cbn [fst snd] in H1. rewrite H1. apply R_bind; [apply Hab|]. intros o.
    apply IH; [exact H2|]. injection HL as HL. exact HL.
  Qed.
  Lemma fields_as_tys fs l out : Forall (fun f => px f = None) fs ->
    ser_fields a false (map (source_field W true) fs) l out
    = ser_tys a (map (fun t => w_ty W t None) (map (fun f => ty_text (sf_type f)) fs)) l out.
  Proof.
    intros H. revert l out. induction H as [|f fs Hf _ IH]; intros [|v l] out; try reflexivity.
    cbn [map ser_fields ser_tys andb]. unfold px in Hf. cbn [source_field f_ty]. rewrite Hf.
    destruct (a _ v out) as [o| | |]; cbn [rbind]; [apply IH|reflexivity|reflexivity|reflexivity].
  Qed.
End SerSem.

Lemma f2_combine (xs ts : list str) : NoDup xs -> length xs = length ts -> forall l : list val, length l = length ts ->
  Forall2 (fun xt v => assoc (fst xt) (combine xs (combine ts l)) = Some (snd xt, v)) (combine xs ts) l.
Proof.
  intros Hnd. revert ts. induction Hnd as [|x xs Hx _ IH]; intros [|t ts] HL [|v l] HL'; try discriminate; [constructor|].
  cbn [combine]. apply Forall2_cons; [apply assoc_here|].
  assert (H : Forall2 (fun xt w => assoc (fst xt) (combine xs (combine ts l)) = Some (snd xt, w)) (combine xs ts) l)
    by (apply IH; [injection HL as HL; exact HL|injection HL' as HL'; exact HL']).
  assert (G : forall y, In y (combine xs ts) -> fst y <> x).
  { intros [y u] Hy E. cbn [fst] in E. subst y. apply Hx. apply in_combine_l in Hy. exact Hy. }
  clear IH HL HL' Hx. revert H G. generalize (combine xs ts) as c. generalize (combine xs (combine ts l)) as e. intros e c H G. induction H as [|y w c l H1 _ IH]; [constructor|].
  apply Forall2_cons.
  - rewrite assoc_cons_ne; [exact H1|]. intros E. apply (G y); [left; reflexivity|auto].
  - apply IH. intros z Hz. apply G. right. exact Hz.
Qed.
Lemma combine_fst_snd {A B} (l : list (A * B)) : combine (map fst l) (map snd l) = l.
Proof. induction l as [|[a b] l IH]; [reflexivity|]. cbn [map combine fst snd]. rewrite IH. reflexivity. Qed.

Lemma dec_inj a b : dec a = dec b -> a = b.
Proof. intro H. rewrite <- (dec_val a), <- (dec_val b), H. reflexivity. Qed.

Definition nf_item (nfs : list (str * sfield)) : list (str * str) := map (fun nf => (fst nf, ty_text (sf_type (snd nf)))) nfs.
Lemma nf_numbered fs : forall n, nf_item (numbered_fields n fs) = numbered n (map (fun f => ty_text (sf_type f)) fs).
Proof. induction fs as [|f fs IH]; intros n; [reflexivity|]. cbn [numbered_fields nf_item map numbered fst snd]. unfold nf_item in IH. rewrite IH. reflexivity. Qed.
Lemma nf_named fs : nf_item (named_fields fs) = map (fun f => (sf_name f, ty_text (sf_type f))) fs.
Proof. unfold nf_item, named_fields. rewrite map_map. reflexivity. Qed.
Lemma nf_fields {A} (g : sfield -> A) fs : map (fun nf => g (snd nf)) (named_fields fs) = map g fs.
Proof. unfold named_fields. rewrite map_map. reflexivity. Qed.
Lemma nfn_fields {A} (g : sfield -> A) fs : forall n, map (fun nf => g (snd nf)) (numbered_fields n fs) = map g fs.
Proof. induction fs as [|f fs IH]; intros n; [reflexivity|]. cbn [numbered_fields map snd]. rewrite IH. reflexivity. Qed.
Lemma named_nodup fs : NoDup (map sf_name fs) -> NoDup (map fst (named_fields fs)).
Proof. unfold named_fields. rewrite map_map. auto. Qed.
Lemma numbered_lt fs : forall n k, In k (map fst (numbered_fields n fs)) -> exists m, n <= m /\ k = dec m.
Proof.
  induction fs as [|f fs IH]; intros n k H; [contradiction|]. cbn [numbered_fields map fst] in H. destruct H as [<-|H].
  - exists n. split; [lia|reflexivity].
  - destruct (IH _ _ H) as (m & H1 & H2). exists m. split; [lia|exact H2].
Qed.
Lemma numbered_nodup fs : forall n, NoDup (map fst (numbered_fields n fs)).
Proof.
  induction fs as [|f fs IH]; intros n; [constructor|]. cbn [numbered_fields map fst]. constructor; [|apply IH].
  intros H. destruct (numbered_lt _ _ _ H) as (m & H1 & H2). apply dec_inj in H2. lia.
Qed.
Lemma fvars_nodup {A} (l : list A) : forall n, NoDup (fvars n l) /\ forall x, In x (fvars n l) -> exists m, n <= m /\ x = fvar m.
Proof.
  induction l as [|a l IH]; intros n; [split; [constructor|contradiction]|]. cbn [fvars]. destruct (IH (n + 1)) as [H1 H2]. split.
  - constructor; [|exact H1]. intros H. destruct (H2 _ H) as (m & Hm & E). unfold fvar in E. apply app_inv_head in E. apply dec_inj in E. lia.
  - intros x [<-|H]; [exists n; split; [lia|reflexivity]|]. destruct (H2 _ H) as (m & Hm & E). exists m. split; [lia|exact E].
Qed.
Lemma fvars_length {A} (l : list A) : forall n, length (fvars n l) = length l.
Proof. induction l as [|a l IH]; intros n; [reflexivity|]. cbn [fvars length]. rewrite IH. reflexivity. Qed.

Lemma f2_item nfs (l : list val) : NoDup (map fst nfs) -> length l = length nfs ->
  Forall2 (fun nf v => assoc (fst nf) (combine (map fst (nf_item nfs)) (combine (map snd (nf_item nfs)) l)) = Some (ty_text (sf_type (snd nf)), v)) nfs l.
Proof.
  intros Hnd HL.
  assert (H : Forall2 (fun xt v => assoc (fst xt) (combine (map fst (nf_item nfs)) (combine (map snd (nf_item nfs)) l)) = Some (snd xt, v))
     (combine (map fst (nf_item nfs)) (map snd (nf_item nfs))) l).
  { apply f2_combine; [|rewrite !map_length; reflexivity|].
    - unfold nf_item. rewrite map_map. exact Hnd.
    - unfold nf_item. rewrite !map_length. exact HL. }
  rewrite combine_fst_snd in H. revert H. generalize (combine (map fst (nf_item nfs)) (combine (map snd (nf_item nfs)) l)) as e.
  clear Hnd HL. revert l. induction nfs as [|nf nfs IH]; intros l e H; cbn [nf_item map] in H; inversion H; subst; [constructor|].
  apply Forall2_cons; [assumption|]. apply IH. assumption.
Qed.

Lemma pick_enum (vs : list svariant) : NoDup (map sv_name vs) -> forall n k v, nth_error vs k = Some v ->
  pick (sv_name v) (map ser_arm (enumerate n vs)) = Some (snd (fst (ser_arm (n + N.of_nat k, v))), snd (ser_arm (n + N.of_nat k, v))).
Proof.
  induction vs as [|u vs IH]; intros Hnd n [|k] v Hk; try discriminate; inversion Hnd as [|? ? Hu Hnd']; subst; cbn [nth_error enumerate map] in *.
  - injection Hk as ->. rewrite N.add_0_r. cbn [ser_arm pick fst snd]. rewrite str_eqb_refl. reflexivity.
  - assert (Hne : sv_name u <> sv_name v).
    { intros E. apply Hu. rewrite E. apply in_map. eapply nth_error_In. exact Hk. }
    apply str_eqb_neq in Hne. cbn [ser_arm pick]. rewrite Hne. rewrite (IH Hnd' (n + 1) k v Hk).
    replace (n + 1 + N.of_nat k) with (n + N.of_nat (S k)) by lia. reflexivity.
Qed.

Lemma existsb_in x (l : list str) : In x l -> existsb (str_eqb x) l = true.
Proof. intros H. apply existsb_exists. exists x. split; [exact H|apply str_eqb_refl]. Qed.
Lemma existsb_notin x (l : list str) : ~ In x l -> existsb (str_eqb x) l = false.
Proof.
  intros H. destruct (existsb (str_eqb x) l) eqn:E; [|reflexivity]. apply existsb_exists in E as (y & Hy & E). apply str_eqb_eq in E. subst y. contradiction.
Qed.

Section SerAll.
  Variable W : world.
  Variable conv : str -> str -> proxy.
  Variable d : sdef.
  Hypothesis Hconv : converts W conv (sd_name d).
  Variable R : sres -> sres -> Prop.
  Hypothesis R_refl : forall x, R x x.
  Hypothesis R_bind : forall x y f g, R x y -> (forall o, R (f o) (g o)) -> R (rbind x f) (rbind y g).
  Variable G : env.
  Variable n : nat.
  Variable b : ty -> val -> list N -> sres.
  Hypothesis Hab : forall t v o, R (ser_bin G n t v o) (b t v o).
  Hypothesis Hpx : forall p t v o, R (ser_bin G n (TProxy p t) v o) (b t (p_to p v) o).
  Hypothesis Htag : forall k o, k < 65536 -> R (emit (le_bytes 2 k) o) (b (TInt U16) (VZ (Z.of_N k)) o).

  Lemma run_ser_rel i v out : rust_ok d -> variants_plain d -> proxy_plain d ->
    nth_error G i = Some (source_decl W d) -> instance (shape_of d) v ->
    R (ser_bin G (S n) (TNamed i) v out) (run_ser (fun t => w_ty W t None) conv (sd_name d) (shape_of d) b (mk_ser d) v out).
  Proof.
    intros Hru Hvp Hpp HG Hi. destruct Hconv as [Hty Hpr]. cbn [ser_bin]. rewrite HG.
    assert (Hblock : forall named nfs l, NoDup (map fst nfs) -> length l = length (nf_item nfs) ->
       R (ser_fields (ser_bin G n) true (map (fun nf => source_field W named (snd nf)) nfs) l out)
         (run_stmts (fun t => w_ty W t None) conv b (combine (map fst (nf_item nfs)) (combine (map snd (nf_item nfs)) l)) []
            (concat (map (fun nf => ser_stmts (fst nf) (snd nf)) (kept nfs))) out)).
    { intros named nfs l Hnd HL. apply run_block; auto. apply f2_item; [exact Hnd|].
      unfold nf_item in HL. rewrite map_length in HL. exact HL. }
    unfold source_decl, mk_ser, shape_of, rust_ok, variants_plain, proxy_plain in *. destruct (sd_body d) as [fs bb|fs bb| |vs bb].
    - destruct (value_in (chars "proxy") (items (sd_attrs d))) as [p|].
      + rewrite Hpr. cbn [fst snd run_ser]. apply Hab.
      + destruct v; try contradiction. cbn [run_ser ser_block]. rewrite <- nf_named, <- (nf_fields (source_field W true)).
        apply Hblock; [apply named_nodup, Hru|]. rewrite nf_named. exact Hi.
    - destruct (value_in (chars "proxy") (items (sd_attrs d))) as [p|].
      + rewrite Hpr. cbn [fst snd run_ser]. apply Hab.
      + destruct v; try contradiction. cbn [run_ser ser_block]. rewrite <- nf_numbered, <- (nfn_fields (source_field W false) fs 0).
        apply Hblock; [apply numbered_nodup|]. rewrite nf_numbered. exact Hi.
    - destruct (value_in (chars "proxy") (items (sd_attrs d))) as [p|].
      + rewrite Hpr. cbn [fst snd run_ser]. apply Hab.
      + destruct v; try contradiction. destruct l; [|discriminate]. apply R_refl.
    - destruct (value_in (chars "proxy") (items (sd_attrs d))) as [p|]; [destruct Hpp as [_ []]; discriminate|].
      destruct v as [| | | | | | | | |tag l| |]; try contradiction. cbn [instance] in Hi. destruct Hi as (nm & sh & Hn & HL).
      cbn [run_ser]. rewrite Hn. rewrite nth_error_map in Hn. rewrite nth_error_map.
      destruct (nth_error vs (N.to_nat tag)) as [vr|] eqn:Ev; [|discriminate]. cbn [option_map] in *.
      destruct Hru as (Hnd & Hlen & Hfs).
      assert (Htl : tag < 65536).
      { assert (N.to_nat tag < length vs)%nat by (apply nth_error_Some; congruence). unfold lenN in Hlen. lia. }
      injection Hn as <- <-. rewrite (pick_enum vs Hnd 0 _ _ Ev). rewrite N.add_0_l, N2Nat.id. cbn [ser_arm fst snd source_variant v_body].
      assert (Hvr : In vr vs) by (eapply nth_error_In; exact Ev).
      rewrite Forall_forall in Hfs, Hvp. specialize (Hfs _ Hvr). specialize (Hvp _ Hvr).
      apply N.ltb_lt in Htl. destruct (sv_payload vr) as [|ts tb|fs tb]; cbn [bind_pat v_body].
      + cbn [run_stmts]. rewrite Htl. destruct l; [|discriminate]. apply R_bind; [apply Htag; apply N.ltb_lt; exact Htl|]. intros o. apply R_refl.
      + rewrite fvars_length, map_length, Nat.eqb_refl. cbn [run_stmts]. rewrite Htl.
        apply R_bind; [apply Htag; apply N.ltb_lt; exact Htl|]. intros o.
        rewrite <- (map_map ty_text (fun t => w_ty W t None)).
        apply run_locals; auto; [|rewrite fvars_length, map_length; reflexivity].
        apply f2_combine; [apply fvars_nodup|rewrite fvars_length, map_length; reflexivity|exact HL].
      + assert (Hs : ~ In (chars "s") (map sf_name fs)).
        { intros H. apply in_map_iff in H as (f & E & Hf). rewrite Forall_forall in Hvp. destruct (Hvp _ Hf) as [_ H]. contradiction. }
        rewrite existsb_notin by exact Hs.
        replace (forallb _ _ && forallb _ _) with true.
        2:{ symmetry. apply andb_true_intro. split; apply forallb_forall.
            - intros x Hx. apply in_map_iff in Hx as (f & <- & Hf). cbn [fst]. apply existsb_in. exact (in_map sf_name fs f Hf).
            - intros x Hx. apply existsb_in. rewrite map_map. exact Hx. }
        cbn [run_stmts]. rewrite Htl. apply R_bind; [apply Htag; apply N.ltb_lt; exact Htl|]. intros o.
        rewrite fields_as_tys by (eapply Forall_impl; [|exact Hvp]; intros f [H _]; exact H).
        rewrite !map_map. cbn [fst snd]. rewrite <- (map_map (fun f => ty_text (sf_type f)) (fun t => w_ty W t None)).
        rewrite <- (map_map sf_name (fun x => SSer (PVar x))).
        apply run_locals; auto; [|rewrite !map_length; reflexivity].
        apply f2_combine; [exact Hfs|rewrite !map_length; reflexivity|rewrite map_length in HL |- *; exact HL].
  Qed.
End SerAll.

(** ** Deserializers *)
Lemma bbind_assoc {A B C} (m : bm A) (f : A -> bm B) (g : B -> bm C) o :
  bbind (bbind m f) g o = bbind m (fun a => bbind (f a) g) o.
Proof. unfold bbind. destruct (m o) as [o' [x|e|p|]]; reflexivity. Qed.
Lemma bbind_ext {A B} (m : bm A) (f g : A -> bm B) : (forall a o, f a o = g a o) -> forall o, bbind m f o = bbind m g o.
Proof. intros H o. unfold bbind. destruct (m o) as [o' [x|e|p|]]; auto. Qed.

Section DeSem.
  Variable W : world.
  Variable conv : str -> str -> proxy.
  Hypothesis Hty : forall t p, w_ty W t (Some p) = TProxy (conv t p) (w_ty W p None).
  Notation typ := (fun t => w_ty W t None).
  Variable R : forall A, bm A -> bm A -> Prop.
  Hypothesis R_refl : forall A m, R A m m.
  Hypothesis R_bind : forall A B m1 m2 f g, R A m1 m2 -> (forall a, R B (f a) (g a)) -> R B (bbind m1 f) (bbind m2 g).
  Hypothesis R_ext : forall A m1 m2 m1' m2', R A m1 m2 -> (forall o, m1 o = m1' o) -> (forall o, m2 o = m2' o) -> R A m1' m2'.
  Variables a b : ty -> bm val.
  Hypothesis Hab : forall t, R _ (a t) (b t).
  Hypothesis Hpx : forall p t, R _ (a (TProxy p t)) (bbind (b t) (fun v => bret (p_from p v))).

  (** The values of all fields from those of the fields that are read. *)
  Fixpoint merge (nfs : list (str * sfield)) (ks : list (str * val)) : list val :=
    match nfs with
    | [] => []
    | (_, f) :: r =>
      if skipped f then w_default W (ty_text (sf_type f)) :: merge r ks
      else match ks with (_, v) :: ks' => v :: merge r ks' | [] => [] end
    end.
  Definition defaults (nfs : list (str * sfield)) : list (str * val) :=
    map (fun nf => (fst nf, w_default W (ty_text (sf_type (snd nf))))) (left_out nfs).
  Notation lits nfs := (map (fun nf => (fst nf, dexp_of (snd nf))) (kept nfs)).

  Lemma run_inits_app fs l1 l2 : forall o,
    run_inits typ (w_default W) conv b fs (l1 ++ l2) o
    = bbind (run_inits typ (w_default W) conv b fs l1) (fun x => bbind (run_inits typ (w_default W) conv b fs l2) (fun y => bret (x ++ y))) o.
  Proof.
    induction l1 as [|[f e] l1 IH]; intros o; cbn [app run_inits].
    - unfold bbind, bret. cbn. destruct (run_inits _ _ _ _ _ l2 o) as [o' [x|?|?|]]; reflexivity.
    - destruct (assoc f fs) as [t|]; [|reflexivity]. rewrite bbind_assoc. apply bbind_ext. clear o. intros v o.
      rewrite bbind_assoc.
      transitivity (bbind (bbind (run_inits typ (w_default W) conv b fs l1)
         (fun x => bbind (run_inits typ (w_default W) conv b fs l2) (fun y => bret (x ++ y)))) (fun vs => bret ((f, v) :: vs)) o).
      + unfold bbind at 1 3. rewrite IH. reflexivity.
      + rewrite bbind_assoc. apply bbind_ext. clear o. intros x o. rewrite bbind_assoc. reflexivity.
  Qed.
  Lemma run_defaults fs l : Forall (fun nf => assoc (fst nf) fs = Some (ty_text (sf_type (snd nf)))) l ->
    forall o, run_inits typ (w_default W) conv b fs (map (fun nf => (fst nf, DDefault)) l) o
    = (o, Ok (map (fun nf => (fst nf, w_default W (ty_text (sf_type (snd nf))))) l)).
  Proof.
    induction 1 as [|nf l H _ IH]; intros o; [reflexivity|]. cbn [map run_inits]. rewrite H. cbn [run_exp].
    unfold bbind, bret. rewrite IH. reflexivity.
  Qed.

  Lemma run_kept named fs nfs : Forall (fun nf => assoc (fst nf) fs = Some (ty_text (sf_type (snd nf)))) nfs ->
    R _ (de_fields a true (map (fun nf => source_field W named (snd nf)) nfs))
      (bbind (run_inits typ (w_default W) conv b fs (lits nfs)) (fun ks => bret (merge nfs ks))).
  Proof.
    induction 1 as [|[nm f] nfs H _ IH]; [apply R_refl|].
    cbn [map snd de_fields]. unfold kept. cbn [filter snd]. fold (kept nfs).
    change (f_skip (source_field W named f)) with (skipped f). cbn [fst snd] in H. cbn [andb merge]. destruct (skipped f) eqn:Es; cbn [negb].
    - change (f_tydefault (source_field W named f)) with (w_default W (ty_text (sf_type f))).
      eapply R_ext; [apply (R_bind _ _ _ _ (fun r => bret (w_default W (ty_text (sf_type f)) :: r)) (fun r => bret (w_default W (ty_text (sf_type f)) :: r)) IH); intros r; apply R_refl| |].
      + intros o. reflexivity.
      + intros o. rewrite bbind_assoc. reflexivity.
    - cbn [map fst snd run_inits]. rewrite H.
      assert (Et : f_ty (source_field W named f) = w_ty W (ty_text (sf_type f)) (px f)) by reflexivity. rewrite Et. clear Et.
      assert (He : R _ (a (w_ty W (ty_text (sf_type f)) (px f))) (run_exp typ (w_default W) conv b (dexp_of f) (ty_text (sf_type f)))).
      { unfold dexp_of. destruct (px f) as [p|]; cbn [run_exp]; [rewrite Hty; apply Hpx|apply Hab]. }
      eapply R_ext; [apply (R_bind _ _ _ _ (fun v => bbind (de_fields a true (map (fun nf => source_field W named (snd nf)) nfs)) (fun r => bret (v :: r)))
           (fun v => bbind (bbind (run_inits typ (w_default W) conv b fs (lits nfs)) (fun ks => bret (merge nfs ks))) (fun r => bret (v :: r))) He)| |].
      + intros v. apply R_bind; [exact IH|]. intros r. apply R_refl.
      + reflexivity.
      + intros o. rewrite bbind_assoc. apply bbind_ext. clear o. intros v o. rewrite !bbind_assoc. apply bbind_ext. reflexivity.
  Qed.

  Lemma inits_keys fs l : forall o o' r, run_inits typ (w_default W) conv b fs l o = (o', Ok r) -> map fst r = map fst l.
  Proof.
    induction l as [|[f e] l IH]; intros o o' r H; cbn [run_inits] in H; [injection H as _ <-; reflexivity|].
    destruct (assoc f fs); [|discriminate]. unfold bbind in H. destruct (run_exp _ _ _ _ e _ o) as [o1 [v|?|?|]]; try discriminate.
    destruct (run_inits _ _ _ _ fs l o1) as [o2 [vs|?|?|]] eqn:E; try discriminate. injection H as _ <-. cbn [map fst]. f_equal.
    eapply IH. exact E.
  Qed.

  Lemma collect_ext fs l l' : (forall f t, In (f, t) fs -> assoc f l = assoc f l') -> collect fs l = collect fs l'.
  Proof.
    induction fs as [|[f t] fs IH]; intros H; [reflexivity|]. cbn [collect]. rewrite (H f t (or_introl eq_refl)), IH; [reflexivity|].
    intros f' t' Hi. apply (H f' t'). right. exact Hi.
  Qed.
  Lemma kept_in nf nfs : In nf (kept nfs) -> In nf nfs.
  Proof. unfold kept. intros H. apply filter_In in H. apply H. Qed.
  Lemma left_in nf nfs : In nf (left_out nfs) -> In nf nfs.
  Proof. unfold left_out. intros H. apply filter_In in H. apply H. Qed.
  Lemma collect_merge nfs : NoDup (map fst nfs) -> forall ks, map fst ks = map fst (kept nfs) ->
    collect (nf_item nfs) (ks ++ defaults nfs) = Some (merge nfs ks).
  Proof.
    intros Hnd. induction nfs as [|[nm f] nfs IH]; intros ks Hk; [reflexivity|].
    inversion Hnd as [|? ? Hn Hnd']; subst. cbn [nf_item map fst snd collect merge]. fold (nf_item nfs).
    unfold defaults, left_out, kept in *. cbn [filter snd] in *. fold (kept nfs) in *. fold (left_out nfs). fold (left_out nfs) in IH. fold (defaults nfs). fold (defaults nfs) in IH.
    assert (Hkeys : forall l, (forall x, In x l -> In x nfs) -> ~ In nm (map fst l)).
    { intros l H Hi. apply Hn. apply in_map_iff in Hi as (x & <- & Hx). apply in_map. auto. }
    destruct (skipped f); cbn [negb] in *.
    - cbn [map fst snd]. fold (defaults nfs). rewrite assoc_app_l by (rewrite Hk; apply Hkeys; intros x; apply kept_in).
      rewrite assoc_here.
      rewrite (collect_ext _ _ (ks ++ defaults nfs)); [rewrite IH by auto; reflexivity|].
      intros g t Hg. assert (g <> nm).
      { intros ->. apply Hn. apply in_map_iff in Hg as (x & E & Hx). injection E as <- _. apply in_map. exact Hx. }
      clear -H. induction ks as [|[k v] ks IHk]; cbn [app]; [apply assoc_cons_ne; auto|].
      cbn [assoc]. destruct (str_eqb k g); [reflexivity|exact IHk].
    - destruct ks as [|[k v] ks]; [discriminate|]. cbn [map fst] in Hk. injection Hk as -> Hk. cbn [app]. rewrite assoc_here.
      rewrite (collect_ext _ _ (ks ++ defaults nfs)); [rewrite IH by auto; reflexivity|].
      intros g t Hg. apply assoc_cons_ne. intros <-. apply Hn. apply in_map_iff in Hg as (x & E & Hx). injection E as <- _. apply in_map. exact Hx.
  Qed.

  Lemma assoc_item nfs : NoDup (map fst nfs) -> Forall (fun nf => assoc (fst nf) (nf_item nfs) = Some (ty_text (sf_type (snd nf)))) nfs.
  Proof.
    intros Hnd. induction nfs as [|[nm f] nfs IH]; [constructor|]. inversion Hnd as [|? ? Hn Hnd']; subst. constructor.
    - cbn [fst snd nf_item map]. apply assoc_here.
    - specialize (IH Hnd'). rewrite Forall_forall in *. intros x Hx. cbn [nf_item map fst snd]. rewrite assoc_cons_ne; [apply IH, Hx|].
      intros E. apply Hn. cbn [fst]. rewrite E. apply in_map, Hx.
  Qed.
  Lemma lit_length nfs : length (de_lit nfs) = length (nf_item nfs).
  Proof.
    unfold de_lit, nf_item, kept, left_out. rewrite app_length, !map_length. induction nfs as [|nf nfs IH]; [reflexivity|].
    cbn [filter length]. destruct (skipped (snd nf)); cbn [negb length]; lia.
  Qed.

  Lemma run_literal_rel named nfs : NoDup (map fst nfs) ->
    R _ (de_fields a true (map (fun nf => source_field W named (snd nf)) nfs))
      (run_literal typ (w_default W) conv b (nf_item nfs) (de_lit nfs)).
  Proof.
    intros Hnd. pose proof (assoc_item nfs Hnd) as Has. unfold run_literal. rewrite lit_length, Nat.eqb_refl. cbn [negb].
    eapply R_ext; [apply (run_kept named (nf_item nfs) nfs Has)|reflexivity|]. intros o. unfold de_lit.
    unfold bbind at 2. rewrite run_inits_app. unfold bbind.
    destruct (run_inits _ _ _ _ _ (lits nfs) o) as [o1 [ks|e|p|]] eqn:E; try reflexivity.
    rewrite run_defaults.
    2:{ rewrite Forall_forall in *. intros x Hx. apply Has, left_in, Hx. }
    cbn [bret]. fold (defaults nfs). rewrite collect_merge; [reflexivity|exact Hnd|].
    apply inits_keys in E. rewrite E, map_map. reflexivity.
  Qed.

  Lemma run_args_rel ts : R _ (de_tys a (map (fun t => w_ty W t None) ts)) (run_args typ (w_default W) conv b ts (map (fun _ => DRead) ts)).
  Proof.
    induction ts as [|t ts IH]; [apply R_refl|]. cbn [map de_tys run_args run_exp]. apply R_bind; [apply Hab|]. intros v.
    apply R_bind; [exact IH|]. intros r. apply R_refl.
  Qed.

  (** Struct-like variants: nothing is skipped, no proxies. *)
  Lemma run_variant_inits fs0 fs : Forall (fun f => px f = None) fs -> Forall (fun f => assoc (sf_name f) fs0 = Some (ty_text (sf_type f))) fs ->
    R _ (de_fields a false (map (source_field W true) fs))
      (bbind (run_inits typ (w_default W) conv b fs0 (map (fun f => (sf_name f, DRead)) fs)) (fun ks => bret (map snd ks))).
  Proof.
    intros Hp H. induction H as [|f fs H _ IH]; [apply R_refl|]. inversion Hp as [|? ? Hp1 Hp2]; subst.
    cbn [map de_fields andb run_inits]. rewrite H. cbn [run_exp].
    assert (Et : f_ty (source_field W true f) = w_ty W (ty_text (sf_type f)) None) by (unfold px in Hp1; cbn [source_field f_ty]; rewrite Hp1; reflexivity).
    rewrite Et. eapply R_ext; [apply (R_bind _ _ _ _ (fun v => bbind (de_fields a false (map (source_field W true) fs)) (fun r => bret (v :: r)))
       (fun v => bbind (bbind (run_inits typ (w_default W) conv b fs0 (map (fun f => (sf_name f, DRead)) fs)) (fun ks => bret (map snd ks))) (fun r => bret (v :: r)))
       (Hab (w_ty W (ty_text (sf_type f)) None)))| |].
    - intros v. apply R_bind; [apply IH, Hp2|]. intros r. apply R_refl.
    - reflexivity.
    - intros o. rewrite bbind_assoc. apply bbind_ext. clear o. intros v o. rewrite !bbind_assoc. apply bbind_ext. reflexivity.
  Qed.
  Lemma collect_all fs : NoDup (map sf_name fs) -> forall ks, map fst ks = map sf_name fs ->
    collect (map (fun f => (sf_name f, ty_text (sf_type f))) fs) ks = Some (map snd ks).
  Proof.
    intros Hnd. induction fs as [|f fs IH]; intros [|[k v] ks] Hk; try discriminate; [reflexivity|].
    cbn [map fst] in Hk. injection Hk as -> Hk. inversion Hnd as [|? ? Hn Hnd']; subst. cbn [map collect fst snd]. rewrite assoc_here.
    rewrite (collect_ext _ _ ks); [rewrite IH by auto; reflexivity|].
    intros g t Hg. apply assoc_cons_ne. intros <-. apply Hn. apply in_map_iff in Hg as (x & E & Hx). injection E as E _. rewrite <- E. apply in_map. exact Hx.
  Qed.
  Lemma run_variant_rel fs : NoDup (map sf_name fs) -> Forall (fun f => px f = None) fs ->
    R _ (de_fields a false (map (source_field W true) fs))
      (run_literal typ (w_default W) conv b (map (fun f => (sf_name f, ty_text (sf_type f))) fs) (map (fun f => (sf_name f, DRead)) fs)).
  Proof.
    intros Hnd Hp. unfold run_literal. rewrite !map_length, Nat.eqb_refl. cbn [negb].
    assert (Has : Forall (fun f => assoc (sf_name f) (map (fun f => (sf_name f, ty_text (sf_type f))) fs) = Some (ty_text (sf_type f))) fs).
    { pose proof (assoc_item (named_fields fs) (named_nodup _ Hnd)) as H. rewrite nf_named in H. unfold named_fields in H.
      rewrite Forall_forall in *. intros f Hf. apply (H (sf_name f, f)). apply in_map_iff. exists f. auto. }
    eapply R_ext; [apply (run_variant_inits _ fs Hp Has)|reflexivity|]. intros o. unfold bbind.
    destruct (run_inits _ _ _ _ _ _ o) as [o1 [ks|e|p|]] eqn:E; try reflexivity.
    rewrite collect_all; [reflexivity|exact Hnd|]. apply inits_keys in E. rewrite E, map_map. reflexivity.
  Qed.
End DeSem.

Lemma pick_lit_enum (vs : list svariant) : forall n tag, n <= tag ->
  pick_lit tag (map de_arm (enumerate n vs)) =
  match nth_error vs (N.to_nat (tag - n)) with Some v => Some (snd (fst (de_arm (tag, v))), snd (de_arm (tag, v))) | None => None end.
Proof.
  induction vs as [|u vs IH]; intros n tag Hn; cbn [enumerate map].
  - destruct (N.to_nat (tag - n)); reflexivity.
  - cbn [de_arm pick_lit]. destruct (N.eqb_spec n tag) as [->|Hne].
    + rewrite N.sub_diag. reflexivity.
    + rewrite IH by lia. replace (N.to_nat (tag - n)) with (S (N.to_nat (tag - (n + 1)))) by lia. reflexivity.
Qed.
Lemma find_shape_nth (vs : list (str * vshape)) : NoDup (map fst vs) -> forall n k nm sh, nth_error vs k = Some (nm, sh) ->
  find_shape nm n vs = Some (n + N.of_nat k, sh).
Proof.
  induction vs as [|[nm' sh'] vs IH]; intros Hnd n [|k] nm sh Hk; try discriminate; inversion Hnd as [|? ? Hu Hnd']; subst; cbn [nth_error find_shape] in *.
  - injection Hk as -> ->. rewrite str_eqb_refl, N.add_0_r. reflexivity.
  - assert (Hne : nm' <> nm).
    { intros E. apply Hu. cbn [fst]. rewrite E. change nm with (fst (nm, sh)). apply in_map. eapply nth_error_In. exact Hk. }
    apply str_eqb_neq in Hne. rewrite Hne, (IH Hnd' (n + 1) k nm sh Hk). do 2 f_equal. lia.
Qed.

Section DeAll.
  Variable W : world.
  Variable conv : str -> str -> proxy.
  Variable d : sdef.
  Hypothesis Hconv : converts W conv (sd_name d).
  Variable R : forall A, bm A -> bm A -> Prop.
  Hypothesis R_refl : forall A m, R A m m.
  Hypothesis R_bind : forall A B m1 m2 f g, R A m1 m2 -> (forall a, R B (f a) (g a)) -> R B (bbind m1 f) (bbind m2 g).
  Hypothesis R_ext : forall A m1 m2 m1' m2', R A m1 m2 -> (forall o, m1 o = m1' o) -> (forall o, m2 o = m2' o) -> R A m1' m2'.
  Variable c : cfg.
  Variable G : env.
  Variable bytes : list N.
  Variable n : nat.
  Variable b : ty -> bm val.
  Hypothesis Hab : forall t, R _ (de_bin c G bytes n t) (b t).
  Hypothesis Hpx : forall p t, R _ (de_bin c G bytes n (TProxy p t)) (bbind (b t) (fun v => bret (p_from p v))).
  Hypothesis Htag : R _ (bmap (fun l => VZ (Z.of_N (of_le l))) (rd_fixed c bytes 2)) (b (TInt U16)).

  Lemma run_de_rel i : rust_ok d -> variants_plain d -> proxy_plain d -> tuple_plain d ->
    nth_error G i = Some (source_decl W d) ->
    R _ (de_bin c G bytes (S n) (TNamed i)) (run_de (fun t => w_ty W t None) (w_default W) conv (sd_name d) (shape_of d) b (mk_de d)).
  Proof.
    intros Hru Hvp Hpp Htp HG. destruct Hconv as [Hty Hpr]. rewrite de_bin_named, HG.
    unfold source_decl, mk_de, shape_of, rust_ok, variants_plain, proxy_plain, tuple_plain in *. destruct (sd_body d) as [fs bb|fs bb| |vs bb].
    - destruct (value_in (chars "proxy") (items (sd_attrs d))) as [p|].
      + rewrite Hpr. cbn [fst snd run_de]. apply R_bind; [apply Hab|]. intros v. apply R_refl.
      + cbn [run_de]. rewrite <- nf_named, <- (nf_fields (source_field W true)). apply R_bind; [|intros v; apply R_refl].
        apply run_literal_rel; auto. apply named_nodup, Hru.
    - destruct (value_in (chars "proxy") (items (sd_attrs d))) as [p|].
      + rewrite Hpr. cbn [fst snd run_de]. apply R_bind; [apply Hab|]. intros v. apply R_refl.
      + cbn [run_de].
        replace (existsb f_skip (map (source_field W false) fs)) with false.
        2:{ clear -Htp. induction Htp as [|f fs Hf _ IH]; [reflexivity|]. cbn [map existsb]. rewrite <- IH. cbn [source_field f_skip]. rewrite Hf. reflexivity. }
        rewrite <- nf_numbered, <- (nfn_fields (source_field W false) fs 0). apply R_bind; [|intros v; apply R_refl].
        apply run_literal_rel; auto. apply numbered_nodup.
    - destruct (value_in (chars "proxy") (items (sd_attrs d))) as [p|].
      + rewrite Hpr. cbn [fst snd run_de]. apply R_bind; [apply Hab|]. intros v. apply R_refl.
      + cbn [map existsb run_de]. eapply R_ext; [apply R_refl|reflexivity|]. intros o. reflexivity.
    - destruct (value_in (chars "proxy") (items (sd_attrs d))) as [p|]; [destruct Hpp as [_ []]; discriminate|].
      cbn [run_de]. destruct Hru as (Hnd & Hlen & Hfs).
      match goal with |- R _ _ (bbind _ ?k) => set (K := k) end.
      eapply R_ext; [apply (R_bind _ _ _ _ (fun v => match v with VZ z => let tag := Z.to_N z in
          match nth_error (map (source_variant W) vs) (N.to_nat tag) with
          | None => bfail (Err {| e_o := 0; e_msg := EDiscriminant tag |})
          | Some vr => match v_body vr with
             | BUnit => bret (VEnum tag [])
             | BTuple ts => bmap (VEnum tag) (de_tys (de_bin c G bytes n) ts)
             | BStruct fs => bmap (VEnum tag) (de_fields (de_bin c G bytes n) false fs)
             end end | _ => bfail (Panic PIllTyped) end) K Htag)|intros o|reflexivity].
      + intros v. subst K. destruct v as [z| | | | | | | | | | |]; try apply R_refl. cbv beta iota zeta.
        rewrite (pick_lit_enum vs 0) by lia. rewrite N.sub_0_r, nth_error_map.
        destruct (nth_error vs (N.to_nat (Z.to_N z))) as [vr|] eqn:Ev; [|apply R_refl]. cbn [option_map de_arm fst snd].
        match goal with |- context [find_shape _ 0 ?l] => set (sv := l) end.
        assert (Hsv : NoDup (map fst sv)) by (subst sv; rewrite map_map; exact Hnd).
        assert (Hvr : In vr vs) by (eapply nth_error_In; exact Ev).
        rewrite Forall_forall in Hfs, Hvp. specialize (Hfs _ Hvr). specialize (Hvp _ Hvr).
        erewrite (find_shape_nth sv Hsv 0 (N.to_nat (Z.to_N z)) (sv_name vr)) by (subst sv; rewrite nth_error_map, Ev; reflexivity).
        rewrite N.add_0_l, N2Nat.id. cbn [source_variant v_body]. destruct (sv_payload vr) as [|ts tb|fs tb]; cbn [v_body].
        * apply R_refl.
        * apply R_bind; [|intros x; apply R_refl]. rewrite <- (map_map ty_text (fun t => w_ty W t None)).
          rewrite <- (map_map ty_text (fun _ => DRead)). apply run_args_rel; auto.
        * apply R_bind; [|intros x; apply R_refl]. apply run_variant_rel; auto. eapply Forall_impl; [|exact Hvp]. intros f [H _]. exact H.
      + unfold bmap. rewrite bbind_assoc. apply bbind_ext. clear o. intros l o. unfold bbind, bret. cbv beta iota zeta. rewrite N2Z.id. reflexivity.
  Qed.
End DeAll.
