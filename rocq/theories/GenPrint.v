(** Proofs for C69 and C70, part 2: the texts of the programs. *)
From Verif Require Import Base Types Text TextModel DeriveModel SpecDerive DeriveProofs PropsDerive GenModel GenJsonModel GenRonModel SpecGen Gen SpecGenText GenText.
Local Open Scope N_scope.

Ltac flat := rewrite <- ?app_assoc; reflexivity.

Lemma opt_mk named f : opt_field_ (mk_field named f) = opt f.
Proof. unfold opt_field_, mk_field. cbn [fl_type]. apply base_option. Qed.
Lemma rename_mk named f : attrs_rename (fl_attrs (mk_field named f)) = value_in (chars "rename") (items (sf_attrs f)).
Proof. unfold attrs_rename, mk_field. cbn [fl_attrs]. apply value_items. Qed.
Lemma null_mk named f : attrs_null (fl_attrs (mk_field named f)) = word_in (chars "serialize_none_as_null") (items (sf_attrs f)).
Proof. unfold attrs_null, mk_field. cbn [fl_attrs]. apply word_items. Qed.
Lemma vrename_mk v : attrs_rename (fl_attrs (mk_variant v)) = value_in (chars "rename") (items (sv_attrs v)).
Proof. unfold attrs_rename, mk_variant. cbn [fl_attrs]. apply value_items. Qed.

Lemma jsts_app fm a b : jsts_text fm (a ++ b) = jsts_text fm a ++ jsts_text fm b.
Proof. unfold jsts_text. rewrite map_app, concat_app. reflexivity. Qed.
Lemma jsts_concat {A} fm (g : A -> list jst) l : jsts_text fm (concat (map g l)) = concat (map (fun a => jsts_text fm (g a)) l).
Proof. induction l as [|a l IH]; [reflexivity|]. cbn [map concat]. rewrite jsts_app, IH. reflexivity. Qed.
Lemma jsts_cons fm s l : jsts_text fm (s :: l) = jst_text fm s ++ jsts_text fm l.
Proof. reflexivity. Qed.

Lemma guard_text named pl f : ser_proxy_guard (place_text pl) (mk_field named f) = jexp_text (guard pl f).
Proof.
  unfold ser_proxy_guard, guard. rewrite proxy_mk, opt_mk. destruct (px f); [|reflexivity]. destruct (opt f); reflexivity.
Qed.

Lemma is_some_neg {A} (o : option A) : match o with Some _ => false | None => true end = negb (is_some o).
Proof. destruct o; reflexivity. Qed.
Lemma is_some_neg' {A} (o : option A) : match o with None => true | Some _ => false end = negb (is_some o).
Proof. destruct o; reflexivity. Qed.

Lemma json_field_text cnull f : ser_json_field cnull (mk_field true f) = Some (jsts_text Json (json_field cnull f)).
Proof.
  unfold ser_json_field, json_field. cbn [fl_name mk_field]. fold (mk_field true f). change (chars "self." ++ sf_name f) with (place_text (PSelf (sf_name f))).
  rewrite rename_mk, skip_mk, opt_mk, null_mk, proxy_mk, guard_text, is_some_neg'. fold (json_null cnull f). fold (key_name f).
  destruct (skipped f); [reflexivity|]. destruct (opt f).
  - destruct (json_null cnull f); f_equal; unfold jsts_text; cbn [map concat app jst_text base_text call_text bases_text json_hdr]; unfold quoted; flat.
  - f_equal. unfold jsts_text. cbn [map concat app jst_text base_text call_text bases_text json_hdr]. unfold quoted. flat.
Qed.

(** ** Positions *)
Lemma last_here {A} (a : A) l r : at_last (lenN l) (l ++ a :: r) = negb (nonempty r).
Proof.
  unfold at_last, lenN. rewrite app_length. cbn [length]. destruct r as [|b r]; cbn [nonempty negb length].
  - apply N.eqb_eq. lia.
  - apply N.eqb_neq. lia.
Qed.
Lemma enum_last {A} (g : bool -> N -> A -> str) (l pre : list A) :
  concat (map (fun na => g (at_last (fst na) (pre ++ l)) (fst na) (snd na)) (enumerate (lenN pre) l))
  = (fix go n l := match l with [] => [] | a :: r => g (negb (nonempty r)) n a ++ go (n + 1) r end) (lenN pre) l.
Proof.
  revert pre. induction l as [|a l IH]; intros pre; [reflexivity|]. cbn [enumerate map concat fst snd].
  rewrite last_here. f_equal. specialize (IH (pre ++ [a])). rewrite <- app_assoc in IH. cbn [app] in IH.
  replace (lenN (pre ++ [a])) with (lenN pre + 1) in IH by (unfold lenN; rewrite app_length; cbn [length]; lia). exact IH.
Qed.
Lemma enum_last0 {A} (g : bool -> N -> A -> str) (l : list A) :
  concat (map (fun na => g (at_last (fst na) l) (fst na) (snd na)) (enumerate 0 l))
  = (fix go n l := match l with [] => [] | a :: r => g (negb (nonempty r)) n a ++ go (n + 1) r end) 0 l.
Proof. exact (enum_last g l []). Qed.

Lemma enum_map_last {A B} (h : A -> B) (g : bool -> N -> B -> str) l :
  concat (map (fun na => g (at_last (fst na) (map h l)) (fst na) (snd na)) (enumerate 0 (map h l)))
  = concat (map (fun na => g (at_last (fst na) l) (fst na) (h (snd na))) (enumerate 0 l)).
Proof.
  rewrite enumerate_map, map_map. cbn [fst snd]. unfold at_last, lenN. rewrite map_length. reflexivity.
Qed.

(** ** JSON serializers *)
Lemma json_vfield_text last f : ser_json_variant_field last (mk_field true f) = jsts_text Json (json_vfield last f).
Proof.
  unfold ser_json_variant_field, json_vfield. cbn [fl_name mk_field]. fold (mk_field true f). rewrite opt_mk.
  pose proof (guard_text true (PVar (sf_name f)) f) as E. cbn [place_text] in E. rewrite E.
  destruct last; destruct (opt f); unfold jsts_text; cbn [map concat app jst_text base_text call_text bases_text]; unfold quoted; flat.
Qed.
Lemma json_vfields_text fs :
  concat (map (fun np => ser_json_variant_field (at_last (fst np) (map (mk_field true) fs)) (snd np)) (enumerate 0 (map (mk_field true) fs)))
  = jsts_text Json (json_vfields fs).
Proof.
  rewrite (enum_map_last (mk_field true) (fun b _ p => ser_json_variant_field b p)).
  rewrite (enum_last0 (fun b _ f => ser_json_variant_field b (mk_field true f))). generalize 0.
  induction fs as [|f fs IH]; intros n; [reflexivity|]. cbn [json_vfields]. rewrite jsts_app, <- (IH (n + 1)), json_vfield_text. reflexivity.
Qed.
Lemma json_vitems_text {A} (l : list A) :
  concat (map (fun np : N * A => if at_last (fst np) l then (chars "f" ++ dec (fst np)) ++ chars ".ser_json(d, s);" else (chars "f" ++ dec (fst np)) ++ chars ".ser_json(d, s); s.out.push(',');") (enumerate 0 l))
  = jsts_text Json (json_vitems 0 l).
Proof.
  rewrite (enum_last0 (fun (b : bool) n (_ : A) => if b then (chars "f" ++ dec n) ++ chars ".ser_json(d, s);" else (chars "f" ++ dec n) ++ chars ".ser_json(d, s); s.out.push(',');")).
  generalize 0. induction l as [|a l IH]; intros n; [reflexivity|]. cbn [json_vitems]. rewrite jsts_cons, jsts_app, IH.
  destruct (nonempty l); unfold jsts_text; cbn [negb map concat app jst_text base_text call_text jexp_text place_text ser_name]; unfold fvar; flat.
Qed.
Lemma json_items_text {A} (l : list A) :
  concat (map (fun np : N * A => (chars "self." ++ dec (fst np) ++ chars ".ser_json(d, s);") ++ (if at_last (fst np) l then [] else chars "s.out.push_str("", "");")) (enumerate 0 l))
  = jsts_text Json (json_items 0 l).
Proof.
  rewrite (enum_last0 (fun (b : bool) n (_ : A) => (chars "self." ++ dec n ++ chars ".ser_json(d, s);") ++ (if b then [] else chars "s.out.push_str("", "");"))).
  generalize 0. induction l as [|a l IH]; intros n; [reflexivity|]. cbn [json_items]. rewrite jsts_cons, jsts_app, IH.
  destruct (nonempty l); unfold jsts_text; cbn [negb map concat app jst_text base_text call_text jexp_text place_text ser_name]; unfold quoted; flat.
Qed.
Lemma names_mk fs : concat (map (fun p => match fl_name p with Some nm => [nm] | None => [] end) (map (mk_field true) fs)) = map sf_name fs.
Proof. induction fs as [|f fs IH]; [reflexivity|]. cbn [map concat]. rewrite IH. reflexivity. Qed.
Lemma vars_mk {A} (l : list A) : map (fun np : N * A => chars "f" ++ dec (fst np)) (enumerate 0 l) = fvars 0 l.
Proof. generalize 0. induction l as [|a l IH]; intros n; [reflexivity|]. cbn [enumerate map fvars fst]. rewrite IH. reflexivity. Qed.
Lemma json_vitems_map {A B} (g : A -> B) l : forall n, json_vitems n (map g l) = json_vitems n l.
Proof. induction l as [|a l IH]; intros n; [reflexivity|]. cbn [map json_vitems]. rewrite IH. destruct l; reflexivity. Qed.
Lemma json_items_map {A B} (g : A -> B) l : forall n, json_items n (map g l) = json_items n l.
Proof. induction l as [|a l IH]; intros n; [reflexivity|]. cbn [map json_items]. rewrite IH. destruct l; reflexivity. Qed.
Lemma lenN_0 {A} (l : list A) : l <> [] -> lenN l =? 0 = false.
Proof. destruct l; [congruence|]. intros _. apply N.eqb_neq. unfold lenN. cbn [length]. lia. Qed.

Lemma json_arm_text_ok v : variant_ok v -> ser_json_variant (mk_variant v) = Some (jarm_text Json (json_arm v)).
Proof.
  intros [_ Hp]. unfold ser_json_variant, json_arm, jarm_text, variant_name. rewrite vrename_mk. fold (key_variant v).
  cbn [fl_name fl_type mk_variant]. destruct (sv_payload v) as [|ts b|fs b].
  - cbn [mk_payload no_type t_ident t_wraps]. f_equal. cbn [call_text]. unfold quoted, key_variant. flat.
  - destruct Hp as (Hne & -> & _). destruct (mk_tuple ts Hne) as [w ->]. cbn [t_ident t_wraps].
    rewrite lenN_0 by (destruct ts; [congruence|discriminate]). rewrite (json_vitems_text (map mk ts)), (vars_mk (map mk ts)), json_vitems_map, fvars_map.
    f_equal. rewrite !jsts_app. fold (key_variant v). unfold name_list. cbn [map jsts_text concat app jst_text base_text call_text]. unfold quoted. flat.
  - cbn [mk_payload t_ident t_wraps st_fields]. rewrite json_vfields_text, names_mk. fold (key_variant v). f_equal. rewrite !jsts_app. unfold name_list. cbn [map jsts_text concat app jst_text base_text call_text]. unfold quoted. flat.
Qed.

Lemma lines_variants {B} (f : pfield -> option str) (g : svariant -> B) (h : B -> str) vs :
  (forall v, variant_ok v -> f (mk_variant v) = Some (h (g v))) -> Forall variant_ok vs ->
  lines (map f (map mk_variant vs)) = Some (concat (map h (map g vs))).
Proof.
  intros H HF. induction HF as [|v vs Hv _ IH]; [reflexivity|]. cbn [map lines concat]. rewrite (H _ Hv), IH. reflexivity.
Qed.
Lemma cnull_mk l : attrs_null (map attr_of l) = word_in (chars "serialize_none_as_null") l.
Proof. apply word_items. Qed.
Lemma trans_mk l : attrs_transparent (map attr_of l) = word_in (chars "transparent") l.
Proof. apply word_items. Qed.

Lemma json_struct_text d c : def_ok d -> no_const d -> forall fs b, sd_body d = KNamed fs b ->
  derive_ser_json_struct c (MkStruct (Some (sd_name d)) true (map (mk_field true) fs) (map attr_of (items (sd_attrs d))) (mk_gens (sd_gens d) (sd_where d)))
  = Some (jser_text c (sd_name d) (source_header (chars "SerJson") c d) Json (json_struct (word_in (chars "serialize_none_as_null") (items (sd_attrs d))) fs)).
Proof.
  intros Hok Hc fs b Hb. unfold derive_ser_json_struct. cbn [st_fields st_name st_generics st_attrs]. rewrite cnull_mk, header_mk by assumption.
  set (cn := word_in _ _). cbn [lines].
  rewrite map_map, (lines_map _ (fun f => jsts_text Json (json_field cn f))) by (intros f _; apply json_field_text).
  unfold jser_text, json_struct. rewrite !jsts_app, (jsts_concat Json (json_field cn)). f_equal.
  unfold jsts_text at 1 3. cbn [map concat app jst_text base_text call_text]. flat.
Qed.
Lemma json_unnamed_text d c tr fs : def_ok d -> no_const d -> 
  derive_ser_json_struct_unnamed c (MkStruct (Some (sd_name d)) false (map (mk_field false) fs) (map attr_of (items (sd_attrs d))) (mk_gens (sd_gens d) (sd_where d)))
  = Some (jser_text c (sd_name d) (source_header (chars "SerJson") c d) Json (json_unnamed tr fs)) \/ (tr <> word_in (chars "transparent") (items (sd_attrs d)) /\ fs <> []).
Proof.
  intros Hok Hc. destruct (Bool.bool_dec tr (word_in (chars "transparent") (items (sd_attrs d)))) as [->|Hne].
  2:{ destruct fs; [|right; split; [exact Hne|discriminate]]. left. unfold derive_ser_json_struct_unnamed. cbn [st_fields st_name st_generics st_attrs map]. rewrite header_mk by assumption.
      reflexivity. }
  left. unfold derive_ser_json_struct_unnamed. cbn [st_fields st_name st_generics st_attrs]. rewrite trans_mk, header_mk by assumption. set (tr := word_in (chars "transparent") _).
  f_equal. unfold jser_text, json_unnamed. rewrite (json_items_text (map (mk_field false) fs)), json_items_map.
  destruct fs as [|f [|g fs]].
  - flat.
  - cbn [map]. change (lenN [mk_field false f] =? 0) with false. change (lenN [mk_field false f] =? 1) with true. rewrite Bool.andb_true_r.
    destruct tr; [flat|]. rewrite !jsts_app. unfold jsts_text at 1 3. cbn [map concat app jst_text base_text call_text]. flat.
  - replace (lenN (map (mk_field false) (f :: g :: fs)) =? 0) with false by (symmetry; apply N.eqb_neq; unfold lenN; cbn [map length]; lia).
    replace (lenN (map (mk_field false) (f :: g :: fs)) =? 1) with false by (symmetry; apply N.eqb_neq; unfold lenN; cbn [map length]; lia).
    rewrite Bool.andb_false_r. rewrite !jsts_app. unfold jsts_text at 1 3. cbn [map concat app jst_text base_text call_text]. flat.
Qed.

Lemma derive_ser_json_text d : def_ok d -> no_const d -> proxy_plain d ->
  derive_ser_json (mk_def d) = Some (jser_text (crate_of d) (sd_name d) (source_header (chars "SerJson") (crate_of d) d) Json (mk_json_ser d)).
Proof.
  intros Hok Hc Hp. unfold derive_ser_json, derive_target. pose proof Hok as (_ & _ & _ & _ & _ & _ & _ & Hb).
  assert (Hvia : forall c p, sd_gens d = [] ->
    ser_json_proxy c p (sd_name d) = jser_text c (sd_name d) (source_header (chars "SerJson") c d) Json (JVia p)).
  { intros c p Hg. unfold ser_json_proxy, jser_text, source_header. rewrite Hg. cbn [fst snd app]. flat. }
  assert (Hst := json_struct_text d). assert (Hun := json_unnamed_text d). assert (Hh := header_mk d (chars "SerJson") (chars "nanoserde") Hok Hc).
  unfold mk_def, mk_json_ser, crate_of, proxy_plain, container_proxy in *. destruct (sd_body d) as [fs b|fs b| |vs b];
    cbn [data_attrs st_attrs en_attrs fst snd]; unfold attrs_crate, attrs_proxy in *; rewrite ?value_items in *.
  - destruct (value_in (chars "proxy") (items (sd_attrs d))) as [p|]; cbn [st_named st_name].
    + destruct Hp as [Hg _]; [discriminate|]. rewrite Hvia by exact Hg. reflexivity.
    + apply (Hst _ Hok Hc fs b eq_refl).
  - destruct (value_in (chars "proxy") (items (sd_attrs d))) as [p|]; cbn [st_named st_name].
    + destruct Hp as [Hg _]; [discriminate|]. rewrite Hvia by exact Hg. reflexivity.
    + destruct (Hun (match value_in (chars "crate") (items (sd_attrs d)) with Some x => x | None => chars "nanoserde" end) (word_in (chars "transparent") (items (sd_attrs d))) fs Hok Hc) as [E|[[] _]]; auto.
  - destruct (value_in (chars "proxy") (items (sd_attrs d))) as [p|]; cbn [st_named st_name].
    + destruct Hp as [Hg _]; [discriminate|]. rewrite Hvia by exact Hg. reflexivity.
    + destruct (Hun (match value_in (chars "crate") (items (sd_attrs d)) with Some x => x | None => chars "nanoserde" end) false [] Hok Hc) as [E|[_ []]]; auto.
  - cbn [attr_value find_map]. unfold derive_ser_json_enum. cbn [en_generics en_variants en_name].
    rewrite (lines_variants ser_json_variant json_arm (jarm_text Json) vs json_arm_text_ok Hb).
    replace (match value_in (chars "crate") (items (sd_attrs d)) with Some _ | _ => chars "nanoserde" end) with (chars "nanoserde") in *
      by (destruct (value_in (chars "crate") (items (sd_attrs d))); reflexivity).
    rewrite Hh. f_equal. unfold jser_text. flat.
Qed.

(** ** JSON deserializers *)
Definition np_of (f : sfield) : str * pfield := (sf_name f, mk_field true f).
Lemma some_all_map {A B} (f : A -> option B) g (l : list A) : (forall a, In a l -> f a = Some (g a)) -> some_all (map f l) = Some (map g l).
Proof.
  induction l as [|a l IH]; intros H; [reflexivity|]. cbn [map some_all]. rewrite (H a (or_introl eq_refl)), IH; [reflexivity|].
  intros b Hb. apply H. right. exact Hb.
Qed.
Lemma some_all_mk fs : some_all (map (fun p => option_map (fun nm => (nm, p)) (fl_name p)) (map (mk_field true) fs)) = Some (map np_of fs).
Proof. rewrite map_map. apply some_all_map. reflexivity. Qed.
Lemma filter_np (q : sfield -> bool) (p : str * pfield -> bool) fs : (forall f, p (np_of f) = q f) ->
  filter p (map np_of fs) = map np_of (filter q fs).
Proof. intros H. induction fs as [|f fs IH]; [reflexivity|]. cbn [map filter]. rewrite H. destruct (q f); cbn [map]; rewrite IH; reflexivity. Qed.

Lemma json_init_text dflts f : default_ok Json f ->
  de_json_unwrap dflts (sf_name f) (mk_field true f) = tinit_text (json_init dflts f).
Proof.
  intros Hd. unfold de_json_unwrap, json_init. rewrite (default_same Json true f Hd), skip_mk, proxy_mk, opt_mk.
  assert (E : match px f with Some p => if opt f then chars "Some(From::<&" ++ p ++ chars ">::from(&t))" else chars "From::<&" ++ p ++ chars ">::from(&t)" | None => chars "t" end = tclos_text (clos f)).
  { unfold clos. destruct (px f); [|reflexivity]. destruct (opt f); reflexivity. }
  rewrite E. destruct (skipped f); destruct (source_default _ _); try reflexivity. destruct (opt f || dflts); [reflexivity|].
  cbn [tinit_text]. unfold quoted. flat.
Qed.

Lemma json_named_text_ok c name dflts fs : Forall (default_ok Json) fs ->
  derive_de_json_named c name dflts (map (mk_field true) fs) = Some (json_named_text c name (json_named dflts fs)).
Proof.
  intros Hd. unfold derive_de_json_named. rewrite some_all_mk. rewrite (filter_np (fun f => negb (skipped f))).
  2:{ intros f. unfold np_of. cbn [snd]. rewrite skip_mk. reflexivity. }
  f_equal. unfold json_named_text, json_named. cbn [tn_locals tn_arms tn_inits]. unfold tinits_text. rewrite !map_map. cbn [np_of fst snd local_text].
  assert (E1 : concat (map (fun f => chars "let mut " ++ (chars "_" ++ sf_name f) ++ chars " = None;") (filter (fun f => negb (skipped f)) fs))
    = concat (map (fun f => chars "let mut " ++ local f ++ chars " = None;") (filter (fun f => negb (skipped f)) fs))) by reflexivity.
  rewrite E1.
  assert (E2 : concat (map (fun f => sf_name f ++ chars ": " ++ de_json_unwrap dflts (sf_name f) (mk_field true f) ++ chars ",") fs)
     = concat (map (fun f => sf_name f ++ chars ": " ++ tinit_text (json_init dflts f) ++ chars ",") fs)).
  { f_equal. apply map_ext_in. intros f Hf. rewrite Forall_forall in Hd. rewrite json_init_text by auto. reflexivity. }
  rewrite E2.
  assert (E3 : match map (mk_field true) fs with [] => [] | _ => chars "match AsRef::<str>::as_ref(&s.strbuf) {" ++
       concat (map (fun f => chars """" ++ match attrs_rename (fl_attrs (mk_field true f)) with Some r => r | None => sf_name f end ++ chars """ => {s.next_colon(i) ?;" ++ (chars "_" ++ sf_name f) ++ chars " = Some(" ++ c ++ chars "::DeJson::de_json(s, i) ?)},") (filter (fun f => negb (skipped f)) fs)) ++
       chars "_ => {s.next_colon(i)?; s.whole_field(i)?; }" ++ chars "}" end
    = match arms_of fs with None => [] | Some arms => chars "match AsRef::<str>::as_ref(&s.strbuf) {" ++ concat (map (json_arm_text c) arms) ++ chars "_ => {s.next_colon(i)?; s.whole_field(i)?; }}" end).
  { unfold arms_of. destruct fs as [|f0 fs]; [reflexivity|]. cbn [map]. f_equal. rewrite map_map. unfold json_arm_text. cbn [fst snd].
    f_equal. f_equal. apply map_ext. intros f. rewrite rename_mk. unfold quoted, key_name, local. flat. }
  unfold str in *. rewrite E3. flat.
Qed.

Lemma json_darm_text c v : variant_ok v -> (match sv_payload v with PStruct fs _ => Forall (default_ok Json) fs | _ => True end) ->
  de_json_variant c (mk_variant v) = Some (is_unit_v v, json_pay_text c (json_darm v)).
Proof.
  intros [_ Hp] Hd. unfold de_json_variant, json_darm, json_pay_text, variant_name, is_unit_v. rewrite vrename_mk. fold (key_variant v).
  cbn [fl_name fl_type mk_variant]. destruct (sv_payload v) as [|ts b|fs b].
  - cbn [mk_payload no_type t_ident t_wraps]. f_equal. f_equal. unfold quoted, key_variant. flat.
  - destruct Hp as (Hne & -> & _). destruct (mk_tuple ts Hne) as [w ->]. cbn [t_ident t_wraps]. f_equal. f_equal.
    rewrite map_map. fold (key_variant v).
    assert (E : forall x : str, map (fun _ : sty => x) ts = repeat x (length ts)) by (intros x; clear; induction ts as [|t ts IH]; [reflexivity|]; cbn [map length repeat]; rewrite IH; reflexivity).
    unfold str in *. rewrite (E (chars "{let r = " ++ c ++ chars "::DeJson::de_json(s,i)?;s.eat_comma_block(i)?;r},")). unfold quoted. flat.
  - cbn [mk_payload t_ident t_wraps st_fields]. rewrite json_named_text_ok by exact Hd. fold (key_variant v). f_equal. f_equal. unfold quoted. flat.
Qed.

Definition payload_defaults (fm : fmt) (v : svariant) : Prop := match sv_payload v with PStruct fs _ => Forall (default_ok fm) fs | _ => True end.
Lemma arms_filter {A} (p : A -> bool) (g : A -> str) (q : bool -> bool) l :
  map snd (filter (fun a => q (fst a)) (map (fun v => (p v, g v)) l)) = map g (filter (fun v => q (p v)) l).
Proof. induction l as [|a l IH]; [reflexivity|]. cbn [map filter fst]. destruct (q (p a)); cbn [map snd]; rewrite IH; reflexivity. Qed.
Lemma arms_case {B} (c : str) (l : list svariant) (x y : B) :
  match concat (map (fun v => json_pay_text c (json_darm v)) l) with [] => x | _ => y end
  = match map json_darm l with [] => x | _ => y end.
Proof. destruct l; reflexivity. Qed.

Lemma json_enum_text c d vs : Forall variant_ok vs -> Forall (payload_defaults Json) vs -> def_ok d -> no_const d ->
  derive_de_json_enum c (MkEnum (sd_name d) (map mk_variant vs) [] (mk_gens (sd_gens d) (sd_where d)))
  = Some (json_de_text c (sd_name d) (source_header (chars "DeJson") c d) (TdJson (map json_darm (filter (fun v => negb (is_unit_v v)) vs)) (map json_darm (filter is_unit_v vs)))).
Proof.
  intros Hv Hd Hok Hc. unfold derive_de_json_enum. cbn [en_variants en_generics en_name]. rewrite header_mk by assumption.
  rewrite map_map, (some_all_map _ (fun v => (is_unit_v v, json_pay_text c (json_darm v)))).
  2:{ intros v Hi. rewrite Forall_forall in *. apply json_darm_text; [auto|exact (Hd v Hi)]. }
  rewrite (arms_filter is_unit_v (fun v => json_pay_text c (json_darm v)) (fun b => b)), (arms_filter is_unit_v (fun v => json_pay_text c (json_darm v)) negb).
  f_equal. unfold json_de_text. rewrite !arms_case.
  rewrite <- !(map_map json_darm (json_pay_text c)).
  destruct (map json_darm (filter (fun v => negb (is_unit_v v)) vs)) as [|a1 l1]; destruct (map json_darm (filter is_unit_v vs)) as [|a2 l2]; flat.
Qed.

Lemma json_dstruct_text c d fs b : Forall (default_ok Json) fs -> def_ok d -> no_const d -> sd_body d = KNamed fs b ->
  derive_de_json_struct c (MkStruct (Some (sd_name d)) true (map (mk_field true) fs) (map attr_of (items (sd_attrs d))) (mk_gens (sd_gens d) (sd_where d)))
  = Some (json_de_text c (sd_name d) (source_header (chars "DeJson") c d)
      (TdNamed (json_named (is_some (default_in (items (sd_attrs d))) || is_some (value_in (chars "default_with") (items (sd_attrs d)))) fs))).
Proof.
  intros Hd Hok Hc Hb. unfold derive_de_json_struct. cbn [st_name st_fields st_attrs st_generics]. rewrite header_mk by assumption.
  rewrite default_items. unfold attrs_default_with. rewrite value_items, json_named_text_ok by exact Hd. apply f_equal. unfold json_de_text. flat.
Qed.
Lemma json_dunnamed_text c d tr fs : (fs <> [] -> tr = word_in (chars "transparent") (items (sd_attrs d))) -> def_ok d -> no_const d ->
  derive_de_json_struct_unnamed c (MkStruct (Some (sd_name d)) false (map (mk_field false) fs) (map attr_of (items (sd_attrs d))) (mk_gens (sd_gens d) (sd_where d)))
  = Some (json_de_text c (sd_name d) (source_header (chars "DeJson") c d) (json_dunnamed tr fs)).
Proof.
  intros Htr Hok Hc. unfold derive_de_json_struct_unnamed. cbn [st_name st_fields st_attrs st_generics]. rewrite trans_mk, header_mk by assumption.
  f_equal. destruct fs as [|f [|g fs]].
  - unfold json_de_text, json_dunnamed. flat.
  - rewrite <- Htr by discriminate. cbn [map]. change (lenN [mk_field false f] =? 0) with false. change (lenN [mk_field false f] =? 1) with true. rewrite Bool.andb_true_r.
    unfold json_de_text, json_dunnamed, json_item_text. destruct tr; cbn [negb map concat]; flat.
  - replace (lenN (map (mk_field false) (f :: g :: fs)) =? 0) with false by (symmetry; apply N.eqb_neq; unfold lenN; cbn [map length]; lia).
    replace (lenN (map (mk_field false) (f :: g :: fs)) =? 1) with false by (symmetry; apply N.eqb_neq; unfold lenN; cbn [map length]; lia).
    rewrite Bool.andb_false_r. rewrite map_map. unfold json_dunnamed, json_de_text. rewrite map_map. unfold json_item_text. flat.
Qed.

Lemma derive_de_json_text d : def_ok d -> no_const d -> proxy_plain d -> Forall (default_ok Json) (all_fields d) ->
  derive_de_json (mk_def d) = Some (json_de_text (crate_of d) (sd_name d) (source_header (chars "DeJson") (crate_of d) d) (mk_json_de d)).
Proof.
  intros Hok Hc Hp Hd. unfold derive_de_json, derive_target. pose proof Hok as (_ & _ & _ & _ & _ & _ & _ & Hb).
  assert (Hvia : forall c p, sd_gens d = [] ->
    de_json_proxy c p (sd_name d) = json_de_text c (sd_name d) (source_header (chars "DeJson") c d) (TdVia p)).
  { intros c p Hg. unfold de_json_proxy, json_de_text, source_header. rewrite Hg. cbn [fst snd app]. flat. }
  assert (Hst := json_dstruct_text). assert (Hun := json_dunnamed_text). assert (Hen := json_enum_text).
  unfold mk_def, mk_json_de, crate_of, proxy_plain, container_proxy, all_fields in *. 
  remember (sd_body d) as body eqn:Eb. destruct body as [fs b|fs b| |vs b];
    cbn [data_attrs st_attrs en_attrs fst snd]; unfold attrs_crate, attrs_proxy in *; rewrite ?value_items in *.
  - destruct (value_in (chars "proxy") (items (sd_attrs d))) as [p|]; cbn [st_named st_name].
    + destruct Hp as [Hg _]; [discriminate|]. rewrite Hvia by exact Hg. reflexivity.
    + apply (Hst _ d fs b Hd Hok Hc). symmetry. exact Eb.
  - destruct (value_in (chars "proxy") (items (sd_attrs d))) as [p|]; cbn [st_named st_name].
    + destruct Hp as [Hg _]; [discriminate|]. rewrite Hvia by exact Hg. reflexivity.
    + apply (Hun _ d _ fs); auto.
  - destruct (value_in (chars "proxy") (items (sd_attrs d))) as [p|]; cbn [st_named st_name].
    + destruct Hp as [Hg _]; [discriminate|]. rewrite Hvia by exact Hg. reflexivity.
    + apply (Hun _ d false []); auto. congruence.
  - cbn [attr_value find_map].
    replace (match value_in (chars "crate") (items (sd_attrs d)) with Some _ | _ => chars "nanoserde" end) with (chars "nanoserde") in *
      by (destruct (value_in (chars "crate") (items (sd_attrs d))); reflexivity).
    apply Hen; auto. clear -Hd. induction vs as [|v vs IH]; [constructor|]. cbn [map concat] in Hd. apply Forall_app in Hd as [H1 H2].
    constructor; [|apply IH, H2]. unfold payload_defaults. destruct (sv_payload v); auto.
Qed.

(** ** RON serializers *)
Lemma concat_filter {A} (p : A -> bool) (g : A -> str) l : concat (map g (filter p l)) = concat (map (fun a => if p a then g a else []) l).
Proof. induction l as [|a l IH]; [reflexivity|]. cbn [filter map concat]. destruct (p a); cbn [map concat]; rewrite IH; reflexivity. Qed.
Definition ron_kept (f : sfield) : list jst :=
  if opt f
  then [JIfLet (JPl (PSelf (sf_name f))) [JWs 20; JField true (key_name f); JWs 20; JSer true tvar; JWs 20; JConl; JWs 16] []; JB JSemi]
  else map JB [JField false (key_name f); JWs 16; JSer true (JPl (PSelf (sf_name f))); JWs 16; JConl].
Lemma ron_field_text f : ser_ron_field (mk_field true f) = Some (jsts_text Ron (ron_kept f)).
Proof.
  unfold ser_ron_field, ron_kept. cbn [fl_name mk_field]. fold (mk_field true f). rewrite rename_mk, opt_mk. fold (key_name f).
  destruct (opt f); apply f_equal; unfold jsts_text; cbn [map concat app jst_text base_text call_text bases_text]; unfold quoted; flat.
Qed.
Lemma ron_struct_text d c fs b : def_ok d -> no_const d -> sd_body d = KNamed fs b ->
  derive_ser_ron_struct c (MkStruct (Some (sd_name d)) true (map (mk_field true) fs) (map attr_of (items (sd_attrs d))) (mk_gens (sd_gens d) (sd_where d)))
  = Some (jser_text c (sd_name d) (source_header (chars "SerRon") c d) Ron (ron_struct fs)).
Proof.
  intros Hok Hc Hb. unfold derive_ser_ron_struct. cbn [st_fields st_name st_generics st_attrs]. rewrite header_mk by assumption.
  rewrite (filter_map_mk true _ (fun f => negb (skipped f))) by (intros f; rewrite skip_mk; reflexivity).
  rewrite map_map, (lines_map _ (fun f => jsts_text Ron (ron_kept f))) by (intros f _; apply ron_field_text).
  rewrite concat_filter. replace (concat (map _ fs)) with (jsts_text Ron (concat (map ron_field fs))).
  2:{ rewrite jsts_concat. f_equal. apply map_ext. intros f. unfold ron_field. fold (ron_kept f). destruct (skipped f); reflexivity. }
  apply f_equal. unfold jser_text, ron_struct. rewrite !jsts_app. unfold jsts_text at 2 4. cbn [map concat app jst_text base_text call_text]. flat.
Qed.
Lemma ron_items_text fs :
  concat (map (fun np : N * pfield => (chars "self." ++ dec (fst np) ++ chars ".ser_ron(d, s);") ++ (if at_last (fst np) (map (mk_field false) fs) then [] else chars "s.out.push_str("", "");"))
      (filter (fun np => negb (attrs_skip (fl_attrs (snd np)))) (enumerate 0 (map (mk_field false) fs))))
  = jsts_text Ron (ron_items 0 fs).
Proof.
  rewrite concat_filter.
  rewrite (enum_map_last (mk_field false) (fun (b : bool) n p => if negb (attrs_skip (fl_attrs p)) then (chars "self." ++ dec n ++ chars ".ser_ron(d, s);") ++ (if b then [] else chars "s.out.push_str("", "");") else [])).
  rewrite (enum_last0 (fun (b : bool) n f => if negb (attrs_skip (fl_attrs (mk_field false f))) then (chars "self." ++ dec n ++ chars ".ser_ron(d, s);") ++ (if b then [] else chars "s.out.push_str("", "");") else [])).
  generalize 0. induction fs as [|f fs IH]; intros n; [reflexivity|]. cbn [ron_items]. rewrite jsts_app, <- IH, skip_mk.
  f_equal. destruct (skipped f); [reflexivity|]. cbn [negb].
  destruct (nonempty fs); unfold jsts_text; cbn [negb map concat app jst_text base_text call_text jexp_text place_text ser_name]; unfold quoted; flat.
Qed.
Lemma ron_unnamed_text d c fs : def_ok d -> no_const d -> fs <> [] ->
  derive_ser_ron_struct_unnamed c (MkStruct (Some (sd_name d)) false (map (mk_field false) fs) (map attr_of (items (sd_attrs d))) (mk_gens (sd_gens d) (sd_where d)))
  = Some (jser_text c (sd_name d) (source_header (chars "SerRon") c d) Ron (JBlock false ([JB (JPush 40); JB (JWs 16)] ++ ron_items 0 fs ++ [JB (JWs 16); JB (JPush 41)]))).
Proof.
  intros Hok Hc Hne. unfold derive_ser_ron_struct_unnamed. cbn [st_fields st_name st_generics st_attrs].
  rewrite lenN_0 by (destruct fs; [congruence|discriminate]). rewrite ron_items_text, header_mk by assumption. apply f_equal.
  unfold jser_text. rewrite !jsts_app. unfold jsts_text at 2 4. cbn [map concat app jst_text base_text call_text]. flat.
Qed.
Lemma ron_vfield_text f : ser_ron_variant_field (mk_field true f) = Some (jsts_text Ron (ron_vfield f)).
Proof.
  unfold ser_ron_variant_field, ron_vfield. cbn [fl_name mk_field]. fold (mk_field true f). rewrite opt_mk.
  destruct (opt f); apply f_equal; unfold jsts_text; cbn [map concat app jst_text base_text call_text bases_text]; unfold quoted; flat.
Qed.
Lemma ron_vitems_text {A} (l : list A) :
  concat (map (fun np : N * A => ((chars "f" ++ dec (fst np)) ++ chars ".ser_ron(d, s);") ++ (if at_last (fst np) l then [] else chars "s.out.push_str("","");")) (enumerate 0 l))
  = jsts_text Ron (ron_vitems 0 l).
Proof.
  rewrite (enum_last0 (fun (b : bool) n (_ : A) => ((chars "f" ++ dec n) ++ chars ".ser_ron(d, s);") ++ (if b then [] else chars "s.out.push_str("","");"))).
  generalize 0. induction l as [|a l IH]; intros n; [reflexivity|]. cbn [ron_vitems]. rewrite jsts_cons, jsts_app, IH.
  destruct (nonempty l); unfold jsts_text; cbn [negb map concat app jst_text base_text call_text jexp_text place_text ser_name]; unfold fvar, quoted; flat.
Qed.
Lemma ron_vitems_map {A B} (g : A -> B) l : forall n, ron_vitems n (map g l) = ron_vitems n l.
Proof. induction l as [|a l IH]; intros n; [reflexivity|]. cbn [map ron_vitems]. rewrite IH. destruct l; reflexivity. Qed.
Lemma ron_sarm_text v : variant_ok v -> ser_ron_variant (mk_variant v) = Some (jarm_text Ron (ron_arm v)).
Proof.
  intros [_ Hp]. unfold ser_ron_variant, ron_arm, jarm_text.
  cbn [fl_name fl_type mk_variant]. destruct (sv_payload v) as [|ts b|fs b].
  - cbn [mk_payload no_type t_ident t_wraps]. apply f_equal. cbn [call_text]. unfold quoted. flat.
  - destruct Hp as (Hne & -> & _). destruct (mk_tuple ts Hne) as [w ->]. cbn [t_ident t_wraps].
    rewrite lenN_0 by (destruct ts; [congruence|discriminate]). rewrite (ron_vitems_text (map mk ts)), (vars_mk (map mk ts)), ron_vitems_map, fvars_map.
    apply f_equal. rewrite !jsts_app. unfold name_list. cbn [map jsts_text concat app jst_text base_text call_text]. unfold quoted. flat.
  - cbn [mk_payload t_ident t_wraps st_fields]. rewrite map_map, (some_all_map _ sf_name) by reflexivity.
    rewrite map_map, (lines_map _ (fun f => jsts_text Ron (ron_vfield f))) by (intros f _; apply ron_vfield_text).
    apply f_equal. rewrite !jsts_app, (jsts_concat Ron ron_vfield). unfold name_list. unfold jsts_text at 2 4. cbn [map concat app jst_text base_text call_text]. unfold quoted. flat.
Qed.

(** No container proxy and not a unit struct: in RON those do not compile. *)
Lemma derive_ser_ron_text d : def_ok d -> no_const d -> container_proxy d = None -> (match sd_body d with KTuple fs _ => fs <> [] | KUnit => False | _ => True end) ->
  derive_ser_ron (mk_def d) = Some (jser_text (crate_of d) (sd_name d) (source_header (chars "SerRon") (crate_of d) d) Ron (mk_ron_ser d)).
Proof.
  intros Hok Hc Hp Hk. unfold derive_ser_ron, derive_target. pose proof Hok as (_ & _ & _ & _ & _ & _ & _ & Hb).
  assert (Hst := ron_struct_text d). assert (Hun := ron_unnamed_text d). assert (Hh := header_mk d (chars "SerRon") (chars "nanoserde") Hok Hc).
  unfold mk_def, mk_ron_ser, crate_of, container_proxy in *. destruct (sd_body d) as [fs b|fs b| |vs b];
    cbn [data_attrs st_attrs en_attrs fst snd]; unfold attrs_crate, attrs_proxy in *; rewrite ?value_items in *; rewrite ?Hp; cbn [st_named].
  - apply (Hst _ fs b Hok Hc eq_refl).
  - apply (Hun _ fs Hok Hc Hk).
  - contradiction.
  - cbn [attr_value find_map]. unfold derive_ser_ron_enum. cbn [en_generics en_variants en_name].
    rewrite (lines_variants ser_ron_variant ron_arm (jarm_text Ron) vs ron_sarm_text Hb).
    replace (match value_in (chars "crate") (items (sd_attrs d)) with Some _ | _ => chars "nanoserde" end) with (chars "nanoserde") in *
      by (destruct (value_in (chars "crate") (items (sd_attrs d))); reflexivity).
    rewrite Hh. apply f_equal. unfold jser_text. flat.
Qed.

(** ** RON deserializers *)
Lemma ron_init_text dflts f : default_ok Ron f ->
  de_ron_unwrap dflts (sf_name f) (mk_field true f) = tinit_text (ron_init dflts f).
Proof.
  intros Hd. unfold de_ron_unwrap, ron_init. rewrite (default_same Ron true f Hd), skip_mk, opt_mk.
  destruct (source_default _ _); [reflexivity|]. destruct (dflts || skipped f || opt f); [reflexivity|]. cbn [tinit_text]. unfold quoted. flat.
Qed.
Lemma ron_named_text_ok c name dflts fs : Forall (default_ok Ron) fs -> Forall named_ok fs ->
  derive_de_ron_named c name (map (mk_field true) fs) dflts = Some (ron_named_text c name (ron_named dflts fs)).
Proof.
  intros Hd Hn. unfold derive_de_ron_named. rewrite some_all_mk. rewrite (filter_np (fun f => negb (skipped f))).
  2:{ intros f. unfold np_of. cbn [snd]. rewrite skip_mk. reflexivity. }
  apply f_equal. unfold ron_named_text, ron_named. cbn [tn_locals tn_arms tn_inits]. unfold tinits_text. rewrite !map_map. cbn [np_of fst snd local_text].
  assert (E1 : concat (map (fun f => chars "let mut " ++ (chars "_" ++ sf_name f) ++ chars ": Option<" ++ full (fl_type (mk_field true f)) ++ chars "> = None;") fs)
    = concat (map (fun f => chars "let mut " ++ local f ++ chars ": Option<" ++ ty_text (sf_type f) ++ chars "> = None;") fs)).
  { f_equal. apply map_ext_in. intros f Hf. rewrite Forall_forall in Hn. destruct (Hn _ Hf) as (_ & Ht & _). unfold mk_field. cbn [fl_type]. rewrite full_mk by exact Ht. reflexivity. }
  rewrite E1.
  assert (E2 : concat (map (fun f => sf_name f ++ chars ": " ++ de_ron_unwrap dflts (sf_name f) (mk_field true f) ++ chars ",") fs)
     = concat (map (fun f => sf_name f ++ chars ": " ++ tinit_text (ron_init dflts f) ++ chars ",") fs)).
  { f_equal. apply map_ext_in. intros f Hf. rewrite Forall_forall in Hd. rewrite ron_init_text by auto. reflexivity. }
  rewrite E2.
  assert (E3 : match map (mk_field true) fs with [] => [] | _ => chars "match s.identbuf.as_ref() {
                " ++ concat (map (fun f => chars """" ++ match attrs_rename (fl_attrs (mk_field true f)) with Some r => r | None => sf_name f end ++ chars """ => {
                    s.next_colon(i)?;
                    " ++ (chars "_" ++ sf_name f) ++ chars " = Some(" ++ c ++ chars "::DeRon::de_ron(s, i)?)
                },") (filter (fun f => negb (skipped f)) fs)) ++ chars "
                _ => return ::core::result::Result::Err(s.err_exp(&s.identbuf))
            }" end
    = match arms_of fs with None => [] | Some arms => chars "match s.identbuf.as_ref() {" ++ ws 16 ++ concat (map (ron_arm_text c) arms) ++ ws 16 ++ chars "_ => return ::core::result::Result::Err(s.err_exp(&s.identbuf))" ++ ws 12 ++ chars "}" end).
  { unfold arms_of. destruct fs as [|f0 fs]; [reflexivity|]. cbn [map]. rewrite (map_map _ (ron_arm_text c)).
    rewrite (map_ext _ (fun f => ron_arm_text c (key_name f, local f))); [flat|].
    intros f. unfold ron_arm_text. cbn [fst snd]. rewrite rename_mk. unfold quoted, key_name, local. flat. }
  unfold str in *. rewrite E3. flat.
Qed.
Lemma ron_darm_text c en v : variant_ok v -> payload_defaults Ron v ->
  de_ron_variant c en (mk_variant v) = Some (ron_pay_text c en (ron_darm v)).
Proof.
  intros [_ Hp] Hd. unfold de_ron_variant, ron_darm, ron_pay_text, payload_defaults in *.
  cbn [fl_name fl_type mk_variant]. destruct (sv_payload v) as [|ts b|fs b].
  - cbn [mk_payload no_type t_ident t_wraps]. apply f_equal. unfold quoted. flat.
  - destruct Hp as (Hne & -> & _). destruct (mk_tuple ts Hne) as [w ->]. cbn [t_ident t_wraps]. apply f_equal.
    rewrite map_map.
    assert (E : forall x : str, map (fun _ : sty => x) ts = repeat x (length ts)) by (intros x; clear; induction ts as [|t ts IH]; [reflexivity|]; cbn [map length repeat]; rewrite IH; reflexivity).
    unfold str in *.
    match goal with |- context [map (fun _ : sty => ?x) ts] => rewrite (E x) end. unfold quoted. flat.
  - cbn [mk_payload t_ident t_wraps st_fields]. rewrite ron_named_text_ok by assumption. apply f_equal. unfold quoted. flat.
Qed.
Lemma derive_de_ron_text d : def_ok d -> no_const d -> container_proxy d = None -> Forall (default_ok Ron) (all_fields d) ->
  (match sd_body d with KUnit => False | _ => True end) ->
  derive_de_ron (mk_def d) = Some (ron_de_text (crate_of d) (sd_name d) (source_header (chars "DeRon") (crate_of d) d) (mk_ron_de d)).
Proof.
  intros Hok Hc Hp Hd Hk. unfold derive_de_ron, derive_target. pose proof Hok as (_ & _ & _ & _ & _ & _ & _ & Hb).
  assert (Hh := fun c => header_mk d (chars "DeRon") c Hok Hc).
  unfold mk_def, mk_ron_de, crate_of, container_proxy, all_fields in *. destruct (sd_body d) as [fs b|fs b| |vs b];
    cbn [data_attrs st_attrs en_attrs fst snd]; unfold attrs_crate, attrs_proxy in *; rewrite ?value_items in *; rewrite ?Hp; cbn [st_named].
  - unfold derive_de_ron_struct. cbn [st_name st_fields st_attrs st_generics]. rewrite Hh, default_items, ron_named_text_ok by assumption.
    apply f_equal. unfold ron_de_text. flat.
  - unfold derive_de_ron_struct_unnamed. cbn [st_name st_fields st_attrs st_generics]. rewrite Hh, map_map. apply f_equal. unfold ron_de_text. rewrite map_map. unfold ron_item_text. flat.
  - contradiction.
  - cbn [attr_value find_map]. unfold derive_de_ron_enum. cbn [en_generics en_variants en_name].
    assert (Hd' : Forall (payload_defaults Ron) vs).
    { clear -Hd. induction vs as [|v vs IH]; [constructor|]. cbn [map concat] in Hd. apply Forall_app in Hd as [H1 H2].
      constructor; [|apply IH, H2]. unfold payload_defaults. destruct (sv_payload v); auto. }
    rewrite map_map, (lines_map _ (fun v => ron_pay_text (chars "nanoserde") (sd_name d) (ron_darm v))).
    2:{ intros v Hv. rewrite Forall_forall in *. apply ron_darm_text; auto. }
    replace (match value_in (chars "crate") (items (sd_attrs d)) with Some _ | _ => chars "nanoserde" end) with (chars "nanoserde") in *
      by (destruct (value_in (chars "crate") (items (sd_attrs d))); reflexivity).
    rewrite Hh. apply f_equal. unfold ron_de_text. rewrite map_map. flat.
Qed.
