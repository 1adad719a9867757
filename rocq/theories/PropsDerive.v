(** C51, C53, C54, C55: the derive macros understand definitions as they are
    written. *)
From Verif Require Import Base Types Text TextModel DeriveModel SpecDerive DeriveProofs.
Local Open Scope N_scope.

(** ** C53: every definition (of the forms in SpecDerive) is read, and what is read
    is what was written: name, shape, fields, variants, types, attributes, generic
    parameters with their bounds. *)
Theorem C53_read_as_written_partial : forall d, def_ok d ->
  exists n0 r, def_seen d r /\ forall n, (n0 <= n)%nat -> parse_data n (toks_def d) = Ok r.
Proof.
  intros d Hok. exists (dsz d), (mk_def d). split; [apply mk_def_seen, Hok|].
  intros n Hn. apply def_reads; assumption.
Qed.

(** Any answer at all is that answer, whatever the fuel. *)
Definition reads (d : sdef) (r : data) : Prop :=
  exists n0, forall n, (n0 <= n)%nat -> parse_data n (toks_def d) = Ok r.

Lemma reads_mk d r : def_ok d -> reads d r -> r = mk_def d.
Proof.
  intros Hok (n0 & H). specialize (H (max n0 (dsz d)) (Nat.le_max_l _ _)).
  rewrite def_reads in H by (auto; apply Nat.le_max_r). congruence.
Qed.

(** ** C54: what the generators take from a definition is what its attributes say. *)
Lemma value_items k l : attr_value k (map attr_of l) = value_in k l.
Proof.
  unfold attr_value. induction l as [|[w|x q v] l IH]; [reflexivity| |]; cbn [map attr_of find_map a_tokens value_in].
  - exact IH.
  - destruct (str_eqb x k); [reflexivity|exact IH].
Qed.
Lemma word_items k l : attr_word k (map attr_of l) = word_in k l.
Proof.
  unfold attr_word, word_in. induction l as [|[w|x q v] l IH]; [reflexivity| |]; cbn [map attr_of existsb a_tokens]; rewrite IH; reflexivity.
Qed.
Lemma default_items l : attrs_default (map attr_of l) = default_in l.
Proof.
  unfold attrs_default. induction l as [|[w|x q v] l IH]; [reflexivity| |]; cbn [map attr_of find_map a_tokens default_in].
  - destruct (str_eqb w (chars "default")); [reflexivity|exact IH].
  - destruct (str_eqb x (chars "default")); [reflexivity|exact IH].
Qed.

(** A word no path with two segments and no other type begins with. *)
Definition plain (k : str) : Prop :=
  ~ In 58 k /\ ~ In 60 k /\ ~ In 40 k /\ ~ In 32 k /\ match k with c :: _ => ~ In c [38; 40; 91; 33; 39; 60] | [] => False end.
Lemma str_eqb_has a c k : ~ In c k -> In c a -> str_eqb a k = false.
Proof. intros H H1. apply str_eqb_neq. intros ->. contradiction. Qed.
Lemma str_eqb_first a b c k : match k with c' :: _ => c' <> c | [] => True end -> a = c :: b -> str_eqb a k = false.
Proof. intros H ->. apply str_eqb_neq. destruct k; [discriminate|]. congruence. Qed.

Lemma joins_colon f s m : In 58 (joins (chars "::") (f :: s :: m)).
Proof. rewrite joins_cons2. apply in_or_app. right. apply in_or_app. left. left. reflexivity. Qed.

Lemma base_mk t k : plain k ->
  base_is (mk t) k = match t with SPath n [] _ => str_eqb n k | _ => false end.
Proof.
  intros (H1 & H60 & H40 & H32 & H2). unfold base_is. destruct k as [|c k]; [contradiction|].
  assert (Hc : forall c', In c' [38; 40; 91; 33; 39; 60] -> c <> c') by (intros c' Hi ->; contradiction).
  destruct t as [f m args|ts b|t len|t|lt t|s| |t f m|fk arg ret|d t more|f m tr nm|f m a i]; cbn [mk].
  - unfold base, ref_text. destruct m as [|s m]; [reflexivity|]. apply str_eqb_neq.
    intros E. apply H1. rewrite <- E. apply joins_colon.
  - eapply str_eqb_first; [|reflexivity]. apply Hc. simpl; tauto.
  - eapply str_eqb_first; [|reflexivity]. apply Hc. simpl; tauto.
  - eapply str_eqb_first; [|reflexivity]. apply Hc. simpl; tauto.
  - destruct (mk t) as [i w r a]. cbn [set_ref].
    assert (E : exists l, base (MkType i w (Some lt) a) = 38 :: l).
    { unfold base. destruct i, lt; eexists; reflexivity. }
    destruct E as [l E]. eapply str_eqb_first; [|exact E]. apply Hc. simpl; tauto.
  - eapply str_eqb_first; [|reflexivity]. apply Hc. simpl; tauto.
  - eapply str_eqb_first; [|reflexivity]. apply Hc. simpl; tauto.
  - eapply str_eqb_first; [|reflexivity]. apply Hc. simpl; tauto.
  - apply (str_eqb_has _ 40); [exact H40|]. destruct fk; cbn; tauto.
  - apply (str_eqb_has _ 32); [exact H32|]. destruct d; cbn; tauto.
  - eapply str_eqb_first; [|reflexivity]. apply Hc. simpl; tauto.
  - apply (str_eqb_has _ 60); [exact H60|]. cbn [base full ref_text app]. apply in_or_app. right. left. reflexivity.
Qed.
Lemma plain_option : plain (chars "Option").
Proof. unfold plain. simpl. intuition discriminate. Qed.
Lemma plain_string : plain (chars "String").
Proof. unfold plain. simpl. intuition discriminate. Qed.

Lemma base_option t : base_is (mk t) (chars "Option") = is_option t.
Proof. apply base_mk, plain_option. Qed.
Lemma base_string t : base_is (mk t) (chars "String") = is_string t.
Proof. apply base_mk, plain_string. Qed.

Lemma existsb_map {A B} (g : A -> B) (p : B -> bool) (q : A -> bool) l :
  (forall x, p (g x) = q x) -> existsb p (map g l) = existsb q l.
Proof. intros H. induction l as [|x l IH]; [reflexivity|]. cbn [map existsb]. rewrite H, IH. reflexivity. Qed.

Lemma wraps_string t :
  match t_wraps (mk t) with Some w => existsb (fun u => base_is u (chars "String")) w | None => false end
  = has_string t.
Proof.
  induction t as [f m args IH|ts b IH|t len IH|t IH|lt t IH|lf| |t f m IH|k arg ret IHa IHr|d t more IH IHm|f m tr nm IH|f m a i IHa IHi] using sty_ind2; cbn [mk t_wraps has_string].
  - destruct args as [|a args]; [reflexivity|]. apply existsb_map, base_string.
  - rewrite existsb_app. rewrite (existsb_map mk _ is_string) by apply base_string.
    destruct ts; [reflexivity|]. destruct b; cbn; apply orb_false_r.
  - cbn [existsb]. rewrite base_string. apply orb_false_r.
  - cbn [existsb]. rewrite base_string. apply orb_false_r.
  - rewrite <- IH. destruct (mk t) as [i w r a]. reflexivity.
  - reflexivity.
  - reflexivity.
  - cbn [existsb]. rewrite base_string. apply orb_false_r.
  - set (str_in := existsb (fun u => base_is u (chars "String"))).
    assert (Ea : str_in (opt_wraps (Some (match arg with Some t => mk t | None => no_type end))) = match arg with Some t => has_string t | None => false end).
    { destruct arg as [t|]; [|reflexivity]. rewrite <- (IHa t eq_refl). cbn [opt_wraps]. destruct (t_wraps (mk t)); reflexivity. }
    assert (Er : str_in (opt_wraps (option_map mk ret)) = match ret with Some t => has_string t | None => false end).
    { destruct ret as [t|]; [|reflexivity]. rewrite <- (IHr t eq_refl). cbn [opt_wraps option_map]. destruct (t_wraps (mk t)); reflexivity. }
    assert (E : str_in (opt_wraps (option_map mk ret) ++ opt_wraps (Some (match arg with Some t => mk t | None => no_type end))) = match ret with Some t => has_string t | None => false end || match arg with Some t => has_string t | None => false end)
      by (unfold str_in; rewrite existsb_app; fold str_in; rewrite Ea, Er; reflexivity).
    cbv zeta. destruct k; cbn [t_wraps]; try exact E.
    destruct (t_wraps (match arg with Some t => mk t | None => no_type end)) eqn:Ew; [exact E|].
    destruct ret as [t|]; [exact E|]. cbn [option_map]. rewrite <- Ea. cbn [opt_wraps]. rewrite Ew. reflexivity.
  - exact IH.
  - reflexivity.
  - cbn [existsb]. rewrite base_string. apply orb_false_r.
Qed.

Lemma default_same f named s : default_ok f s ->
  default_text f (mk_field named s) = source_default (sf_type s) (items (sf_attrs s)).
Proof.
  intros Hd. unfold default_text, source_default, mk_field. cbn [fl_attrs fl_type].
  rewrite default_items. unfold attrs_default_with. rewrite value_items, base_option, base_string, wraps_string.
  unfold default_ok in Hd. destruct (default_in (items (sf_attrs s))) as [[v|]|]; [|reflexivity|reflexivity].
  specialize (Hd v eq_refl). unfold default_expr, quoted_string, string_expr.
  destruct f.
  - destruct (is_option (sf_type s)) eqn:Eo.
    + assert (is_string (sf_type s) = false) as ->.
      { destruct (sf_type s) as [n [|] a| | | | | | | | | | |]; try reflexivity. cbn [is_option is_string] in *.
        apply str_eqb_eq in Eo. subst n. reflexivity. }
      reflexivity.
    + destruct (has_string (sf_type s)); [specialize (Hd eq_refl); discriminate|].
      rewrite orb_false_r. reflexivity.
  - destruct (is_option (sf_type s)) eqn:Eo.
    + rewrite (Hd eq_refl).
      assert (is_string (sf_type s) = false) as ->.
      { destruct (sf_type s) as [n [|] a| | | | | | | | | | |]; try reflexivity. cbn [is_option is_string] in *.
        apply str_eqb_eq in Eo. subst n. reflexivity. }
      reflexivity.
    + reflexivity.
Qed.

Lemma field_same W f named s : ty_ok (sf_type s) -> default_ok f s ->
  field_of W f (mk_field named s) = source_field W named s.
Proof.
  intros Ht Hd. unfold field_of. rewrite (default_same f named s Hd).
  unfold mk_field. cbn [fl_attrs fl_name fl_type].
  unfold attrs_rename, attrs_proxy, attrs_skip, attrs_null. rewrite !value_items, !word_items, base_option, full_mk by exact Ht.
  unfold source_field. destruct named; reflexivity.
Qed.
Lemma fields_same W f named l : Forall (sfield_ok named) l -> Forall (default_ok f) l ->
  map (field_of W f) (map (mk_field named) l) = map (source_field W named) l.
Proof.
  intros H1 H2. rewrite map_map. apply map_ext_in. intros s Hs. rewrite Forall_forall in *.
  apply field_same; [|auto]. specialize (H1 s Hs). destruct named; apply H1.
Qed.

Lemma variants_same W f vs : Forall variant_ok vs ->
  Forall (default_ok f) (concat (map (fun v => match sv_payload v with PStruct fs _ => fs | _ => [] end) vs)) ->
  variants_of W f (map mk_variant vs) = Some (map (source_variant W) vs).
Proof.
  induction vs as [|v vs IH]; intros Hok Hd; [reflexivity|].
  inversion Hok as [|? ? [_ Hp] Hok']; subst. cbn [map concat] in Hd. apply Forall_app in Hd as [Hd1 Hd2].
  cbn [map variants_of]. rewrite (IH Hok' Hd2).
  assert (E : body_of W f (fl_type (mk_variant v)) = Some (v_body (source_variant W v))).
  { unfold mk_variant, source_variant. cbn [fl_type v_body].
    destruct (sv_payload v) as [|ts b|fs b]; cbn [mk_payload].
    - reflexivity.
    - destruct Hp as (H1 & -> & H3). cbn [mk body_of t_ident t_wraps].
      destruct ts as [|t ts]; [congruence|]. rewrite app_nil_r. unfold body_of. cbn [t_ident t_wraps].
      do 2 f_equal. rewrite map_map. apply map_ext_in. intros u Hu. rewrite Forall_forall in H3. rewrite full_mk by auto. reflexivity.
    - cbn [body_of t_ident t_wraps]. unfold body_of. cbn [t_ident t_wraps st_fields]. do 2 f_equal.
      apply (fields_same W f true); [exact Hp|exact Hd1]. }
  rewrite E. unfold mk_variant at 1 2. cbn [fl_name fl_attrs]. unfold attrs_rename. rewrite value_items. reflexivity.
Qed.

(** For every world (what rustc makes of the pasted types and expressions), every
    format and every definition: the declaration that the generated code implements
    is the one that the definition's attributes describe. *)
Theorem C54_attributes_partial : forall W f d r, def_ok d -> reads d r ->
  container_ok f d -> Forall (default_ok f) (all_fields d) ->
  decl_of W f r = Some (source_decl W d).
Proof.
  intros W f d r Hok Hr [Hc1 Hc2] Hd. rewrite (reads_mk d r Hok Hr).
  destruct Hok as (_ & _ & _ & _ & _ & _ & _ & Hb).
  unfold decl_of, derive_target, source_decl, mk_def, data_attrs, attrs_proxy. cbn [snd].
  unfold all_fields in Hd.
  destruct (sd_body d) as [fs b|fs b| |vs b]; cbn [st_attrs en_attrs].
  - rewrite value_items. destruct (value_in (chars "proxy") _) as [p|]; [reflexivity|].
    cbn [st_named st_attrs st_fields]. unfold attrs_null, attrs_default_with.
    rewrite default_items, word_items, value_items, (fields_same W f true) by assumption.
    destruct f; [reflexivity|]. rewrite (Hc1 eq_refl). reflexivity.
  - rewrite value_items. destruct (value_in (chars "proxy") _) as [p|]; [reflexivity|].
    cbn [st_named st_attrs st_fields]. unfold attrs_transparent.
    rewrite word_items, (fields_same W f false) by tauto. reflexivity.
  - rewrite value_items. destruct (value_in (chars "proxy") _) as [p|]; [reflexivity|].
    cbn [st_named st_attrs st_fields map]. unfold attrs_transparent. rewrite word_items. reflexivity.
  - rewrite Hc2. cbn [attr_value find_map en_variants]. rewrite variants_same by assumption. reflexivity.
Qed.

(** A whole program. *)
Corollary C54_program_partial : forall W f ds rs,
  Forall2 (fun d r => def_ok d /\ reads d r /\ container_ok f d /\ Forall (default_ok f) (all_fields d)) ds rs ->
  map (decl_of W f) rs = map Some (map (source_decl W) ds).
Proof.
  intros W f ds rs H. induction H as [|d r ds rs (H1 & H2 & H3 & H4) _ IH]; [reflexivity|].
  cbn [map]. rewrite IH, (C54_attributes_partial W f d r) by assumption. reflexivity.
Qed.

(** ** C51: attributes of the container.  Kept by structs ... *)
Theorem C51_struct_container_partial : forall d r, def_ok d -> reads d r ->
  match sd_body d with KEnum _ _ => False | _ => True end ->
  fst (derive_target r) =
    match value_in (chars "crate") (items (sd_attrs d)) with Some c => c | None => chars "nanoserde" end /\
  (forall p, value_in (chars "proxy") (items (sd_attrs d)) = Some p ->
     snd (derive_target r) = ViaProxy p (sd_name d)) /\
  (value_in (chars "proxy") (items (sd_attrs d)) = None -> exists s, snd (derive_target r) = ForStruct s).
Proof.
  intros d r Hok Hr Hk. rewrite (reads_mk d r Hok Hr). unfold derive_target, mk_def.
  destruct (sd_body d); [| | |contradiction]; cbn [data_attrs st_attrs st_name fst snd]; unfold attrs_crate, attrs_proxy;
    rewrite !value_items; (split; [reflexivity|]); (split; [intros p ->; reflexivity|intros ->; eexists; reflexivity]).
Qed.

(** ... and dropped by every enum that has any. *)
Theorem C51_refuted_enum : forall d r, def_ok d -> reads d r ->
  match sd_body d with KEnum _ _ => True | _ => False end ->
  fst (derive_target r) = chars "nanoserde" /\ exists e, snd (derive_target r) = ForEnum e.
Proof.
  intros d r Hok Hr Hk. rewrite (reads_mk d r Hok Hr). unfold derive_target, mk_def.
  destruct (sd_body d); try contradiction. split; [reflexivity|]. eexists. reflexivity.
Qed.

(** ** C55: the header of the generated impl. *)
Lemma ty_text_ne t : ty_ok t -> ty_text t <> [].
Proof.
  destruct t as [f m args|ts b|t len|t|lt t|lf| |t f m|fk arg ret|d t more|f m tr nm|f m a i]; cbn [ty_text ty_ok]; try discriminate.
  - intros (H & _) E. apply app_eq_nil in E as [E _]. apply (joins_nonempty f m H E).
  - destruct lt; discriminate.
  - destruct fk; discriminate.
  - destruct d; discriminate.
  - intros ([H _] & _) E. apply app_eq_nil in E as [E _]. apply (joins_nonempty f m H E).
Qed.
Lemma joins_ne sep a l : a <> [] -> joins sep (a :: l) <> [].
Proof. destruct a; [congruence|]. intros _. destruct l; discriminate. Qed.

Lemma bounds_nonempty l (b : str) : l <> [] -> Forall (fun x : str => x <> []) l -> b <> [] ->
  match joins (chars " + ") l with [] => b | _ => joins (chars " + ") l ++ chars " + " ++ b end
  = joins (chars " + ") (l ++ [b]).
Proof.
  intros Hne HF Hb. destruct l as [|a l]; [congruence|]. inversion HF as [|? ? Ha _]; subst.
  pose proof (joins_ne (chars " + ") a l Ha) as H. rewrite joins_snoc. unfold str in *.
  destruct (joins (chars " + ") (a :: l)); [congruence|reflexivity].
Qed.

Lemma header_param trait crate_ ws g : gen_ok g -> (forall n, Forall ty_ok (where_types n ws)) ->
  match g with SGConst _ _ _ => False | _ => True end -> 
  full_with_const (crate_ ++ chars "::" ++ trait) (mk_genw ws g) = source_param trait crate_ ws g.
Proof.
  intros Hg Hw Hc. destruct g as [n bs|n bs d|n t d]; [| |contradiction];
    unfold full_with_const, source_param; cbn [mk_genw g_bounds g_prefix g_full app].
  - cbn [app]. rewrite <- ?app_assoc. do 3 f_equal. unfold bounds_text.
    destruct (bs ++ where_lifes n ws) as [|b l]; [reflexivity|]. cbn [map].
    pose proof (joins_ne (chars " + ") (chars "'" ++ b) (map (fun b => chars "'" ++ b) l) ltac:(discriminate)) as H.
    unfold str in *. destruct (joins _ _); [congruence|reflexivity].
  - destruct Hg as (_ & _ & _ & Hb0 & _).
    assert (Hb : Forall ty_ok bs) by (eapply Forall_impl; [|exact Hb0]; intros t [H _]; exact H). do 2 f_equal.
    set (e := crate_ ++ chars "::" ++ trait).
    assert (He : e <> []) by (subst e; destruct crate_; discriminate).
    assert (HF : Forall ty_ok (bs ++ where_types n ws)) by (apply Forall_app; auto).
    rewrite map_full by exact HF. unfold bounds_text.
    destruct (bs ++ where_types n ws) as [|b l] eqn:El.
    + cbn [map joins app]. unfold str in *. destruct e; [congruence|reflexivity].
    + rewrite bounds_nonempty; [|discriminate| |exact He].
      2:{ rewrite Forall_forall in *. intros x Hx. apply in_map_iff in Hx as (u & <- & Hu). apply ty_text_ne. auto. }
      cbn [map app].
      inversion HF as [|? ? Hb1 _]; subst.
      pose proof (joins_ne (chars " + ") (ty_text b) (map ty_text l ++ [e]) (ty_text_ne _ Hb1)) as H.
      unfold str in *. destruct (joins _ _); [congruence|reflexivity].
Qed.

Lemma where_types_ok gs ws n : Forall (where_ok gs) ws -> Forall ty_ok (where_types n ws).
Proof.
  intros Hws. unfold where_types. rewrite Forall_forall in *. intros t Ht.
  apply in_concat in Ht as (l & Hl & Ht). apply in_map_iff in Hl as (w & <- & Hin).
  destruct w as [m bs|m bs]; [|contradiction]. destruct (str_eqb m n); [|contradiction].
  apply Hws in Hin. destruct Hin as (_ & Hbs & _). rewrite Forall_forall in Hbs. apply Hbs. exact Ht.
Qed.

Lemma shown_gens gs ws : NoDup (self :: map gen_name gs) ->
  filter (fun g => negb (str_eqb (ident_only g) (chars "Self"))) (mk_gens gs ws) = map (mk_genw ws) gs.
Proof.
  intros Hnd. inversion Hnd as [|? ? Hn _]; subst. unfold mk_gens. rewrite filter_app.
  replace (filter _ (mk_self ws)) with (@nil generic).
  2:{ unfold mk_self. destruct (where_types self ws); reflexivity. }
  rewrite app_nil_r. clear Hnd. induction gs as [|g gs IH]; [reflexivity|]. cbn [map filter] in *.
  rewrite IH by (intros H; apply Hn; right; exact H).
  replace (str_eqb (ident_only (mk_genw ws g)) (chars "Self")) with false; [reflexivity|].
  symmetry. apply str_eqb_neq. intros E. apply Hn. left. unfold ident_only in E. destruct g; [discriminate E|exact E|exact E].
Qed.

Theorem C55_header_partial : forall d r trait crate_, def_ok d -> reads d r -> no_const d ->
  bounds_strings trait crate_ (data_generics r) = source_header trait crate_ d.
Proof.
  intros d r trait crate_ Hok Hr Hc. rewrite (reads_mk d r Hok Hr).
  destruct Hok as (_ & _ & Hg & Hnd & Hw & _ & Hne & _).
  assert (E : data_generics (mk_def d) = mk_gens (sd_gens d) (sd_where d)).
  { unfold mk_def. destruct (sd_body d); reflexivity. }
  rewrite E. unfold source_header, no_const in *. destruct (sd_gens d) as [|g gs] eqn:Eg.
  - rewrite (Hne eq_refl). reflexivity.
  - pose proof (shown_gens (g :: gs) (sd_where d) Hnd) as Hs. unfold bounds_strings.
    destruct (mk_gens (g :: gs) (sd_where d)) as [|x xs] eqn:Em; [discriminate|]. rewrite Hs. clear Hs Em E x xs.
    f_equal; do 3 f_equal; rewrite map_map; apply map_ext_in; intros y Hy.
    + f_equal. rewrite Forall_forall in *. apply header_param; [auto| |apply Hc; exact Hy].
      intros n. apply (where_types_ok (g :: gs)). apply Forall_forall. exact Hw.
    + f_equal. destruct y; reflexivity.
Qed.

(** A constant parameter gets the trait as a bound: not Rust. *)
Theorem C55_refuted_const : forall trait crate_ n t d,
  ty_ok t ->
  full_with_const (crate_ ++ chars "::" ++ trait) (mk_gen (SGConst n t d))
  = chars "const " ++ n ++ chars ": " ++ ty_text t ++ chars " + " ++ crate_ ++ chars "::" ++ trait.
Proof.
  intros trait crate_ n t d Ht. unfold full_with_const. cbn [mk_gen g_bounds g_prefix g_full app joins].
  rewrite full_mk by exact Ht. pose proof (ty_text_ne t Ht) as H. do 2 f_equal. unfold str in *.
  destruct (ty_text t) as [|c l]; [congruence|]. reflexivity.
Qed.

(** ** Examples *)
Definition id (s : str) := SPath s [] [].
(** [#[derive(..)] #[nserde(crate = "mine", default)] pub struct A<'a, T: Clone + 'a = u8>
     where T: Copy, Self: 'a { #[nserde(rename = "x", skip)] pub f: Option<String>, g: &'a [T; 3], } *)
Definition d_named : sdef := {|
  sd_attrs := [AOther (chars "doc") [TPunct 61; TLit (chars """hello""")];
               AOurs (IValue (chars "crate") true (chars "mine")) [IWord (chars "default")]];
  sd_vis := VPub; sd_name := chars "A";
  sd_gens := [SGLife (chars "a") []; SGType (chars "T") [id (chars "Clone"); SLife (chars "a")] (Some (id (chars "u8")))];
  sd_where := [WType (chars "T") [id (chars "Copy")]; WType (chars "Self") [SLife (chars "a")]];
  sd_wtrail := true;
  sd_body := KNamed [
    {| sf_attrs := [AOurs (IValue (chars "rename") true (chars "x")) [IValue (chars "default") true (chars "abc")]]; sf_vis := VPub;
       sf_name := chars "f"; sf_type := SPath (chars "Option") [] [id (chars "String")] |};
    {| sf_attrs := [AOurs (IWord (chars "skip")) []]; sf_vis := VNone_; sf_name := chars "g";
       sf_type := SRef (Some (chars "a")) (SArray (id (chars "T")) 3) |}] true |}.
Ltac ok := repeat (first [split | constructor]; cbn); auto; try discriminate; try (intros; discriminate).
Lemma d_named_ok : def_ok d_named.
Proof.
  split; [|split; [|split; [|split; [|split; [|split; [|split]]]]]].
  - ok.
  - intros i H. discriminate H.
  - ok.
  - cbn. repeat constructor; cbn; intuition discriminate.
  - constructor; [|constructor; [|constructor]].
    + split; [discriminate|]. split; [ok|]. right. do 2 eexists. right. left. reflexivity.
    + split; [discriminate|]. split; [ok|]. left. reflexivity.
  - cbn. lia.
  - discriminate.
  - ok.
Qed.
(** [enum E { A, #[nserde(rename = "bee")] B(u8, std::vec::Vec<(i32,)>), C { x: u8 }, D = 4 }] *)
Definition d_enum : sdef := {|
  sd_attrs := [AOurs (IValue (chars "proxy") true (chars "P")) []];
  sd_vis := VNone_; sd_name := chars "E"; sd_gens := []; sd_where := []; sd_wtrail := false;
  sd_body := KEnum [
    {| sv_attrs := []; sv_name := chars "A"; sv_payload := PUnit; sv_value := None |};
    {| sv_attrs := [AOurs (IValue (chars "rename") true (chars "bee")) []]; sv_name := chars "B";
       sv_payload := PTuple [id (chars "u8"); SPath (chars "std") [chars "vec"; chars "Vec"] [STuple [id (chars "i32")] true]] false; sv_value := None |};
    {| sv_attrs := []; sv_name := chars "C";
       sv_payload := PStruct [{| sf_attrs := []; sf_vis := VNone_; sf_name := chars "x"; sf_type := id (chars "u8") |}] false; sv_value := None |};
    {| sv_attrs := []; sv_name := chars "D"; sv_payload := PUnit; sv_value := Some (TLit (chars "4")) |}] false |}.
Lemma d_enum_ok : def_ok d_enum.
Proof.
  split; [|split; [|split; [|split; [|split; [|split; [|split]]]]]].
  - ok.
  - intros i H. discriminate H.
  - ok.
  - cbn. repeat constructor; cbn; intuition discriminate.
  - constructor.
  - cbn. lia.
  - reflexivity.
  - ok.
Qed.

Example C53_ex_named : exists r, reads d_named r /\ def_seen d_named r.
Proof. destruct (C53_read_as_written_partial d_named d_named_ok) as (n0 & r & H1 & H2). exists r. split; [exists n0|]; assumption. Qed.
Example C53_ex_enum : exists r, reads d_enum r /\ def_seen d_enum r.
Proof. destruct (C53_read_as_written_partial d_enum d_enum_ok) as (n0 & r & H1 & H2). exists r. split; [exists n0|]; assumption. Qed.
Example C53_ex_run : parse_data 40 (toks_def d_enum) =
  Ok (DataEnum (MkEnum (chars "E") (map mk_variant match sd_body d_enum with KEnum vs _ => vs | _ => [] end) [] [])).
Proof. vm_compute. reflexivity. Qed.
Example C54_ex : container_ok Json d_named /\ Forall (default_ok Json) (all_fields d_named).
Proof.
  split; [split; [discriminate|exact I]|]. repeat constructor; intros v H; vm_compute in H |- *; try discriminate; auto.
Qed.
Example C55_ex : source_header (chars "SerBin") (chars "mine") d_named =
  (chars "<'a:, T: Clone + 'a + Copy + mine::SerBin, >", chars "<'a, T, >") /\ no_const d_named.
Proof. split; [vm_compute; reflexivity|]. repeat constructor. Qed.
(** The enum asks for a proxy and another crate in vain. *)
Example C51_ex : exists r, reads d_enum r /\ value_in (chars "proxy") (items (sd_attrs d_enum)) = Some (chars "P") /\
  exists e, derive_target r = (chars "nanoserde", ForEnum e).
Proof.
  destruct C53_ex_enum as (r & Hr & _). exists r. split; [exact Hr|]. split; [reflexivity|].
  destruct (C51_refuted_enum d_enum r d_enum_ok Hr I) as (H1 & e & H2). exists e.
  rewrite <- H1, <- H2. apply surjective_pairing.
Qed.

(** ** C53 refutations: definitions that are misread. *)
Definition bare (nm : str) (b : sbody) : sdef :=
  {| sd_attrs := []; sd_vis := VNone_; sd_name := nm; sd_gens := []; sd_where := []; sd_wtrail := false; sd_body := b |}.
Definition fld (v : svis) (t : sty) : sfield := {| sf_attrs := []; sf_vis := v; sf_name := []; sf_type := t |}.

(** [enum E { B(u8,) }] has a variant with one field; the macros see two. *)
Theorem C53_refuted_trailing : forall n,
  parse_data (20 + n) (toks_def (bare (chars "E") (KEnum [{| sv_attrs := []; sv_name := chars "B";
    sv_payload := PTuple [id (chars "u8")] true; sv_value := None |}] false)))
  = Ok (DataEnum (MkEnum (chars "E") [MkField [] (Some (chars "B"))
      (MkType (CTuple [MkType (CNamed (chars "u8")) None None None; no_type])
              (Some [MkType (CNamed (chars "u8")) None None None; no_type]) None None)] [] [])).
Proof. intros n. vm_compute. reflexivity. Qed.

(** [struct S(&'a str);] has one field; the macros see two: one of the type ['a]
    and one of type [str]. *)
Theorem C53_refuted_ref : forall n,
  parse_data (20 + n) (toks_def (bare (chars "S") (KTuple [fld VNone_ (SRef (Some (chars "a")) (id (chars "str")))] false)))
  = Ok (DataStruct (MkStruct (Some (chars "S")) false
      [MkField [] None (MkType (CLifetime (chars "a")) None None None);
       MkField [] None (MkType (CNamed (chars "str")) None None None)] [] [])).
Proof. intros n. vm_compute. reflexivity. Qed.

(** [struct S(pub (u8, u16), u8);]: the tuple is taken for a restriction of [pub]. *)
Theorem C53_refuted_pub_tuple : forall n,
  parse_data (20 + n) (toks_def (bare (chars "S") (KTuple [fld VPub (STuple [id (chars "u8"); id (chars "u16")] false);
                                          fld VNone_ (id (chars "u8"))] false)))
  = Panic PUnwrap.
Proof. intros n. vm_compute. reflexivity. Qed.

(** [pub(crate) struct S;] *)
Theorem C53_refuted_pub_crate : forall n,
  parse_data (20 + n) (toks_def {| sd_attrs := []; sd_vis := VPubIn [TIdent (chars "crate")]; sd_name := chars "S";
    sd_gens := []; sd_where := []; sd_wtrail := false; sd_body := KUnit |}) = Panic PUnwrap.
Proof. intros n. vm_compute. reflexivity. Qed.

(** ** C54 refutations *)
(** [#[nserde(default = "vec![]")] f: Vec<String>] in JSON: a string. *)
Theorem C54_refuted_vec_string : forall v,
  default_text Json (mk_field true {| sf_attrs := [AOurs (IValue (chars "default") true v) []]; sf_vis := VNone_;
    sf_name := chars "f"; sf_type := SPath (chars "Vec") [] [id (chars "String")] |})
  = Some (string_expr v) /\
  source_default (SPath (chars "Vec") [] [id (chars "String")]) [IValue (chars "default") true v] = Some v.
Proof. intros v. split; reflexivity. Qed.
(** [#[nserde(default = "abc")] f: Option<String>] in RON: no string. *)
Theorem C54_refuted_ron_option : forall v,
  default_text Ron (mk_field true {| sf_attrs := [AOurs (IValue (chars "default") true v) []]; sf_vis := VNone_;
    sf_name := chars "f"; sf_type := SPath (chars "Option") [] [id (chars "String")] |})
  = Some (chars "Some(" ++ v ++ chars ")") /\
  source_default (SPath (chars "Option") [] [id (chars "String")]) [IValue (chars "default") true v]
  = Some (chars "Some(" ++ string_expr v ++ chars ")").
Proof. intros v. split; reflexivity. Qed.
(** [#[nserde(default_with = "f")]] on a struct: honoured by JSON, not by RON. *)
Theorem C54_refuted_ron_default_with : forall W n,
  parse_data (20 + n) (toks_def {| sd_attrs := [AOurs (IValue (chars "default_with") true (chars "f")) []];
    sd_vis := VNone_; sd_name := chars "S"; sd_gens := []; sd_where := []; sd_wtrail := false; sd_body := KNamed [] false |})
  = Ok (DataStruct (MkStruct (Some (chars "S")) true [] [{| a_name := nserde; a_tokens := [chars "default_with"; chars "f"] |}] [])) /\
  decl_of W Ron (DataStruct (MkStruct (Some (chars "S")) true [] [{| a_name := nserde; a_tokens := [chars "default_with"; chars "f"] |}] []))
  = Some (DStruct false false []) /\
  decl_of W Json (DataStruct (MkStruct (Some (chars "S")) true [] [{| a_name := nserde; a_tokens := [chars "default_with"; chars "f"] |}] []))
  = Some (DStruct true false []).
Proof. intros W n. split; [vm_compute; reflexivity|]. split; reflexivity. Qed.

(** ** More of Rust's types *)
(** [struct M<'a, T: Iterator<Item = u8> + Send, const N: usize> {
       f: PhantomData<fn(&'a T) -> dyn A + 'a>, g: [T; limits::N], h: <T as Iterator>::Item,
       i: Box<dyn FnMut(T) -> u8> }] *)
Definition d_types : sdef := {|
  sd_attrs := []; sd_vis := VNone_; sd_name := chars "M";
  sd_gens := [SGLife (chars "a") []; SGType (chars "T") [SBound (chars "Iterator") [] (id (chars "Item")) (id (chars "u8")); id (chars "Send")] None];
  sd_where := []; sd_wtrail := false;
  sd_body := KNamed [
    {| sf_attrs := []; sf_vis := VNone_; sf_name := chars "f";
       sf_type := SPath (chars "PhantomData") [] [SFn FnPointer (Some (SRef (Some (chars "a")) (id (chars "T")))) (Some (SObj true (id (chars "A")) [SLife (chars "a")]))] |};
    {| sf_attrs := []; sf_vis := VNone_; sf_name := chars "g"; sf_type := SArrayN (id (chars "T")) (chars "limits") [chars "N"] |};
    {| sf_attrs := []; sf_vis := VNone_; sf_name := chars "h"; sf_type := SAssoc (chars "T") [] (id (chars "Iterator")) (chars "Item") |};
    {| sf_attrs := []; sf_vis := VNone_; sf_name := chars "i"; sf_type := SPath (chars "Box") [] [SObj true (SFn FnMutable (Some (id (chars "T"))) (Some (id (chars "u8")))) []] |}] true |}.
Lemma d_types_ok : def_ok d_types.
Proof.
  split; [|split; [|split; [|split; [|split; [|split; [|split]]]]]].
  - ok.
  - intros i H. discriminate H.
  - ok.
  - cbn. repeat constructor; cbn; intuition discriminate.
  - constructor.
  - cbn. lia.
  - reflexivity.
  - ok.
Qed.
Example C53_ex_types : exists r, reads d_types r /\ def_seen d_types r /\
  map (fun f => ty_text (sf_type f)) (match sd_body d_types with KNamed fs _ => fs | _ => [] end) =
  [chars "PhantomData<fn(&'a T) -> dyn A + 'a>"; chars "[T;limits::N]"; chars "<T as Iterator>::Item"; chars "Box<dyn FnMut(T) -> u8>"].
Proof.
  destruct (C53_read_as_written_partial d_types d_types_ok) as (n0 & r & H1 & H2). exists r.
  split; [exists n0; exact H2|]. split; [exact H1|]. vm_compute. reflexivity.
Qed.

(** What lies outside: the tokens of one field [f : ..] of a struct, and the text of
    the type that the macros have understood. *)
Definition one_field (ty : list ttree) : list ttree :=
  [TIdent (chars "struct"); TIdent (chars "S"); TGroup DBrace (TIdent (chars "f") :: TPunct 58 :: ty)].
Definition understood (n : nat) (ty : list ttree) : option (list str) :=
  match parse_data n (one_field ty) with Ok (DataStruct s) => Some (map (fun f => full (fl_type f)) (st_fields s)) | _ => None end.
Definition arrow : list ttree := [TPunct 45; TPunct 62].

(** [fn(u8, u16) -> T]: only the first argument is kept. *)
Theorem C53_refuted_fn_args : forall n,
  understood (30 + n) (TIdent (chars "fn") :: TGroup DParen [TIdent (chars "u8"); pc; TIdent (chars "u16")] :: arrow ++ [TIdent (chars "T")])
  = Some [chars "fn(u8) -> T"].
Proof. intros n. vm_compute. reflexivity. Qed.
(** [[u8; 0x10]], [[u8; 16usize]]: the length is lost. *)
Theorem C53_refuted_length : forall n,
  understood (30 + n) [TGroup DBracket [TIdent (chars "u8"); TPunct 59; TLit (chars "0x10")]] = Some [chars "[u8;]"] /\
  understood (30 + n) [TGroup DBracket [TIdent (chars "u8"); TPunct 59; TLit (chars "16usize")]] = Some [chars "[u8;]"].
Proof. intros n. split; vm_compute; reflexivity. Qed.
(** [[u8; N + 1]] is taken for [[u8; N]]. *)
Theorem C53_refuted_length_sum : forall n,
  understood (30 + n) [TGroup DBracket [TIdent (chars "u8"); TPunct 59; TIdent (chars "N"); TPunct 43; TLit (chars "1")]] = Some [chars "[u8;N]"].
Proof. intros n. vm_compute. reflexivity. Qed.
(** [Foo<A, B = C>] is taken for [Foo<A= C>]. *)
Theorem C53_refuted_bound_args : forall n,
  understood (30 + n) [TIdent (chars "Foo"); TPunct 60; TIdent (chars "A"); pc; TIdent (chars "B"); TPunct 61; TIdent (chars "C"); TPunct 62]
  = Some [chars "Foo<A= C>"].
Proof. intros n. vm_compute. reflexivity. Qed.
(** [<Vec<T> as Tr>::X] *)
Theorem C53_refuted_assoc : forall n,
  parse_data (30 + n) (one_field [TPunct 60; TIdent (chars "Vec"); TPunct 60; TIdent (chars "T"); TPunct 62; TIdent (chars "as");
    TIdent (chars "Tr"); TPunct 62; TPunct 58; TPunct 58; TIdent (chars "X")]) = Panic PUnwrap.
Proof. intros n. vm_compute. reflexivity. Qed.
(** [&mut T], [&&T], [*const T]: the macros stop with a panic. *)
Theorem C53_refuted_pointer : forall n,
  parse_data (30 + n) (one_field [TPunct 38; TIdent (chars "mut"); TIdent (chars "T")]) = Panic PUnwrap /\
  parse_data (30 + n) (one_field [TPunct 38; TPunct 38; TIdent (chars "T")]) = Panic PUnwrap /\
  parse_data (30 + n) (one_field [TPunct 42; TIdent (chars "const"); TIdent (chars "T")]) = Panic PUnwrap.
Proof. intros n. repeat split; vm_compute; reflexivity. Qed.
(** [#[nserde(skip,)]]: a comma after the last word. *)
Theorem C53_refuted_attribute_comma : forall n,
  parse_data (30 + n) [TIdent (chars "struct"); TIdent (chars "S");
    TGroup DBrace [TPunct 35; TGroup DBracket [TIdent nserde; TGroup DParen [TIdent (chars "skip"); pc]];
                   TIdent (chars "f"); TPunct 58; TIdent (chars "u8")]] = Panic PUnwrap.
Proof. intros n. vm_compute. reflexivity. Qed.
(** [enum E { A = -1 }] *)
Theorem C53_refuted_negative : forall n,
  parse_data (30 + n) [TIdent (chars "enum"); TIdent (chars "E"); TGroup DBrace [TIdent (chars "A"); TPunct 61; TPunct 45; TLit (chars "1")]]
  = Panic PUnwrap.
Proof. intros n. vm_compute. reflexivity. Qed.
(** [struct S<T: ?Sized> {}] *)
Theorem C53_refuted_maybe_sized : forall n,
  parse_data (30 + n) [TIdent (chars "struct"); TIdent (chars "S"); TPunct 60; TIdent (chars "T"); TPunct 58; TPunct 63; TIdent (chars "Sized"); TPunct 62; TGroup DBrace []]
  = Panic PUnwrap.
Proof. intros n. vm_compute. reflexivity. Qed.
(** [struct S<T>(T) where T: Copy;] and [struct S where u8: Copy {}] *)
Theorem C53_refuted_where : forall n,
  parse_data (30 + n) [TIdent (chars "struct"); TIdent (chars "S"); TPunct 60; TIdent (chars "T"); TPunct 62; TGroup DParen [TIdent (chars "T")];
     TIdent (chars "where"); TIdent (chars "T"); TPunct 58; TIdent (chars "Copy"); TPunct 59] = Panic PUnwrap /\
  parse_data (30 + n) [TIdent (chars "struct"); TIdent (chars "S"); TIdent (chars "where"); TIdent (chars "u8"); TPunct 58; TIdent (chars "Copy"); TGroup DBrace []]
  = Panic PUnwrap.
Proof. intros n. split; vm_compute; reflexivity. Qed.
(** [enum E { A(#[nserde(skip)] u8) }]: the attribute is taken for a type without
    a name, and the field is lost. *)
Theorem C53_refuted_payload_attribute : forall n,
  parse_data (30 + n) [TIdent (chars "enum"); TIdent (chars "E"); TGroup DBrace [TIdent (chars "A");
     TGroup DParen [TPunct 35; TGroup DBracket [TIdent nserde; TGroup DParen [TIdent (chars "skip")]]; TIdent (chars "u8")]]]
  = Ok (DataEnum (MkEnum (chars "E") [MkField [] (Some (chars "A")) (MkType (CTuple [no_type]) (Some [no_type]) None None)] [] [])).
Proof. intros n. vm_compute. reflexivity. Qed.
(** A raw string is taken as it is written: [rename = r"x"] gives the name r"x". *)
Theorem C54_refuted_raw : forall n,
  parse_data (30 + n) [TIdent (chars "struct"); TIdent (chars "S"); TGroup DBrace [TPunct 35;
     TGroup DBracket [TIdent nserde; TGroup DParen [TIdent (chars "rename"); TPunct 61; TLit (chars "r""x""")]]; TIdent (chars "f"); TPunct 58; TIdent (chars "u8")]]
  = Ok (DataStruct (MkStruct (Some (chars "S")) true [MkField [{| a_name := nserde; a_tokens := [chars "rename"; chars "r""x"""] |}] (Some (chars "f"))
      (MkType (CNamed (chars "u8")) None None None)] [] [])).
Proof. intros n. vm_compute. reflexivity. Qed.
