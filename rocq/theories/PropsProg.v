(** C75: whole programs.  The macros' code for a set of definitions that use each
    other, together with the library's code for the built-in types, writes and reads
    what the definitions say; what it writes it reads back. *)
From Verif Require Import Base Utf8 Types Text BinModel BinRead BinFuel SpecBin PropsBin DeriveModel SpecDerive DeriveProofs PropsDerive GenModel GenJsonModel GenRonModel
  SpecGen Gen SpecGenText GenText GenPrint GenTextSer GenTextDe TextModel TextFuel SpecText TextRun TextEx PropsText PropsGen PropsGenText SpecProg Prog.
Local Open Scope N_scope.

(** ** Binary *)

(** The conditions of C68 on a definition. *)
Definition bin_source (a : source str) : Prop :=
  let d := it_def a in
  def_ok d /\ no_const d /\ rust_ok d /\ variants_plain d /\ proxy_plain d /\ tuple_plain d /\ converts (it_world a) (it_conv a) (sd_name d).
(** The code of an item is what the macros write: reading the definition gives [r],
    from which they print the two impls. *)
Definition bin_written (a : item str sprog dprog) : Prop :=
  let d := it_def a in exists r, reads d r /\
    derive_ser_bin r = Some (SpecGen.ser_text (crate_of d) (sd_name d) (source_header (chars "SerBin") (crate_of d) d) (it_ser a)) /\
    derive_de_bin r = Some (SpecGen.de_text (crate_of d) (sd_name d) (source_header (chars "DeBin") (crate_of d) d) (it_de a)).

Definition mk_bin (a : source str) : item str sprog dprog :=
  {| it_world := it_world a; it_self := it_self a; it_conv := it_conv a; it_def := it_def a; it_ser := mk_ser (it_def a); it_de := mk_de (it_def a) |}.

Lemma source_mk {C S D} (mk : source C -> item C S D) l : (forall a, source_of (mk a) = a) -> map source_of (map mk l) = l.
Proof. intro H. induction l as [|a l IH]; cbn [map]; [reflexivity|]. rewrite H, IH. reflexivity. Qed.
Lemma decls_mk {C S D} (mk : source C -> item C S D) l : (forall a, it_world (mk a) = it_world a /\ it_def (mk a) = it_def a) -> decls (map mk l) = decls l.
Proof. intro H. unfold decls. rewrite map_map. apply map_ext. intro a. destruct (H a) as [-> ->]. reflexivity. Qed.
Lemma mk_bin_src a : source_of (mk_bin a) = a.
Proof. destruct a as [w s k d [] []]. reflexivity. Qed.

(** [returns f r]: for every large enough bound on the depth of calls the outcome is [r]. *)
Theorem C75_binary : forall srcs : list (source str), Forall bin_source srcs ->
  exists prog, map source_of prog = srcs /\ Forall bin_written prog /\
    (forall c t v out, cfg_ok c -> has_type c (decls srcs) t v ->
      exists bs, encodes (decls srcs) t v bs /\ returns (fun n => prog_ser prog n t v out) (Ok (out ++ bs)) /\
        forall pre post, slice_fits c (lenN (pre ++ bs ++ post)) ->
          returns (fun n => prog_de prog c (pre ++ bs ++ post) n t (lenN pre)) (lenN pre + lenN bs, Ok v)) /\
    (forall c t bytes o o' r, r <> NoFuel ->
      (returns (fun n => prog_de prog c bytes n t o) (o', r) <-> decodes_at c (decls srcs) t bytes o o' r)).
Proof.
  intros srcs Hs. set (prog := map mk_bin srcs). exists prog. split; [apply source_mk, mk_bin_src|].
  assert (HG : decls prog = decls srcs) by (apply decls_mk; intro; split; reflexivity).
  assert (Hb : Forall bin_item prog).
  { unfold prog. rewrite Forall_map. eapply Forall_impl; [|exact Hs]. intros a (H1 & H2 & H3 & H4 & H5 & H6 & H7). repeat (split; [assumption|]). split; reflexivity. }
  assert (Hd : forall c t bytes o o' r, r <> NoFuel -> (returns (fun n => prog_de prog c bytes n t o) (o', r) <-> decodes_at c (decls srcs) t bytes o o' r)).
  { intros c t bytes o o' r Hr. rewrite <- HG. split; intros [k Hk].
    - exists (2 * k)%nat. intros m Hm. destruct (prog_de_le prog Hb c bytes k m t Hm o) as [E|E]; rewrite (Hk k (Nat.le_refl k)) in E; [contradiction|]. symmetry. exact E.
    - exists (S k). intros m Hm. destruct (prog_de_ge prog Hb c bytes k m t Hm o) as [E|E]; rewrite (Hk k (Nat.le_refl k)) in E; [contradiction|]. symmetry. exact E. }
  split; [|split; [|exact Hd]].
  - unfold prog. rewrite Forall_map. eapply Forall_impl; [|exact Hs]. intros a (Hok & Hc & Hru & Hvp & Hpp & Htp & _). cbn [mk_bin it_def it_ser it_de].
    destruct (C53_read_as_written_partial (it_def a) Hok) as (n0 & r & _ & Hr). assert (Hrd : reads (it_def a) r) by (exists n0; exact Hr).
    exists r. split; [exact Hrd|]. rewrite (reads_mk _ _ Hok Hrd). split; [apply derive_ser_text | apply derive_de_text]; assumption.
  - intros c t v out Hc Ht. destruct (C01_bin_roundtrip c (decls srcs) t v Hc Ht) as (bs & He & _). exists bs. split; [exact He|]. split.
    + destruct (C03_append_only c (decls srcs) t v bs out Hc Ht He) as [k Hk]. rewrite <- HG in Hk. exists (S k). intros m Hm.
      apply (prog_ser_ge prog Hb k m t v out Hm). apply Hk. lia.
    + intros pre post Hf. apply Hd; [discriminate|]. apply (C02_self_delimiting c (decls srcs) t v bs pre post Hc Ht He Hf).
Qed.
Print Assumptions C75_binary.

(** ** JSON and RON *)
Definition json_source (a : source ty) : Prop :=
  let d := it_def a in
  def_ok d /\ no_const d /\ rust_ok d /\ proxy_plain d /\ names_plain d /\ json_tuple_plain d /\ variants_compile d /\
  Forall (default_ok Json) (all_fields d) /\ world_ok (it_world a) (it_conv a) (it_self a) d.
Definition ron_source (a : source ty) : Prop :=
  let d := it_def a in
  def_ok d /\ no_const d /\ rust_ok d /\ names_plain d /\ ron_plain d /\ variants_compile d /\ container_ok Ron d /\
  Forall (default_ok Ron) (all_fields d) /\ world_ok (it_world a) (it_conv a) (it_self a) d.
Definition text_source (fm : fmt) : source ty -> Prop := match fm with Json => json_source | Ron => ron_source end.
Definition text_written (fm : fmt) (a : item ty jprog tdprog) : Prop :=
  let d := it_def a in exists r, reads d r /\
    match fm with
    | Json =>
      derive_ser_json r = Some (jser_text (crate_of d) (sd_name d) (source_header (chars "SerJson") (crate_of d) d) Json (it_ser a)) /\
      derive_de_json r = Some (json_de_text (crate_of d) (sd_name d) (source_header (chars "DeJson") (crate_of d) d) (it_de a))
    | Ron =>
      derive_ser_ron r = Some (jser_text (crate_of d) (sd_name d) (source_header (chars "SerRon") (crate_of d) d) Ron (it_ser a)) /\
      derive_de_ron r = Some (ron_de_text (crate_of d) (sd_name d) (source_header (chars "DeRon") (crate_of d) d) (it_de a))
    end.
Definition mk_text (fm : fmt) (a : source ty) : item ty jprog tdprog :=
  {| it_world := it_world a; it_self := it_self a; it_conv := it_conv a; it_def := it_def a;
     it_ser := match fm with Json => mk_json_ser (it_def a) | Ron => mk_ron_ser (it_def a) end;
     it_de := match fm with Json => mk_json_de (it_def a) | Ron => mk_ron_de (it_def a) end |}.
Lemma mk_text_src fm a : source_of (mk_text fm a) = a.
Proof. destruct a as [w s k d [] []]. reflexivity. Qed.

Theorem C75_text : forall fm (srcs : list (source ty)), Forall (text_source fm) srcs ->
  exists prog, map source_of prog = srcs /\ Forall (text_written fm) prog /\
    (forall F c t v, flt_ok F -> cfg_ok c -> text_typed c (decls srcs) fm t v ->
      exists text, writes F c (decls srcs) fm t v text /\
        returns (fun n => prog_write F c fm prog n t v) (Ok text) /\ returns (fun n => prog_parse F c fm prog n t text) (Ok v)) /\
    (forall F c t text r, r <> NoFuel -> (returns (fun n => prog_parse F c fm prog n t text) r <-> parses F c (decls srcs) fm t text r)).
Proof.
  intros fm srcs Hs. set (prog := map (mk_text fm) srcs). exists prog. split; [apply source_mk, mk_text_src|].
  assert (HG : decls prog = decls srcs) by (apply decls_mk; intro; split; reflexivity).
  assert (Hj : match fm with Json => Forall json_item prog | Ron => Forall ron_item prog end).
  { unfold prog. destruct fm; rewrite Forall_map; (eapply Forall_impl; [|exact Hs]).
    - intros a (H1 & H2 & H3 & H4 & H5 & H6 & H7 & H8 & H9). repeat (split; [assumption|]). split; reflexivity.
    - intros a (H1 & H2 & H3 & H4 & H5 & H6 & H7 & H8 & H9). repeat (split; [assumption|]). split; reflexivity. }
  assert (Hrun : forall F i a, nth_error prog i = Some a -> forall D n,
    peq (run_tde fm (fun t => w_ty (it_world a) t None) (w_expr (it_world a)) (w_default (it_world a)) (it_conv a) (it_self a) (shape_of (it_def a)) (text_lexer F fm) D n (it_de a))
        (decl_body (text_lexer F fm) fm (via D fm) n (source_decl (it_world a) (it_def a)))).
  { intros F i a Ha D n. destruct fm; pose proof (proj1 (Forall_forall _ _) Hj _ (nth_error_In _ _ Ha)) as Hi.
    - destruct Hi as (H1 & H2 & H3 & H4 & H5 & H6 & H7 & H8 & _ & Ed). rewrite Ed. apply run_json_de; assumption.
    - destruct Hi as (H1 & H2 & H3 & H4 & H5 & H6 & H7 & H8 & _ & Ed). rewrite Ed. apply run_ron_de; assumption. }
  assert (Hdecl : forall F c i a, nth_error prog i = Some a -> forall n,
    TextModel.de_text (text_lexer F fm) F c (decls prog) fm (S n) (TNamed i) =
    decl_body (text_lexer F fm) fm (TextModel.de_text (text_lexer F fm) F c (decls prog) fm n) n (source_decl (it_world a) (it_def a))).
  { intros F c i a Ha n. pose proof (decls_nth _ _ _ Ha) as HGi. destruct fm; pose proof (proj1 (Forall_forall _ _) Hj _ (nth_error_In _ _ Ha)) as Hi.
    - destruct Hi as (H1 & H2 & H3 & H4 & H5 & H6 & H7 & H8 & _ & Ed). apply json_decl; assumption.
    - destruct Hi as (H1 & H2 & H3 & H4 & H5 & H6 & H7 & H8 & _ & Ed). apply ron_decl; assumption. }
  assert (Hp : forall F c t text r, r <> NoFuel -> (returns (fun n => prog_parse F c fm prog n t text) r <-> parses F c (decls srcs) fm t text r)).
  { intros F c t text r Hr. rewrite <- HG. unfold parses, prog_parse, deserialize_text, de_first.
    split; intros [k Hk]; specialize (Hk k (Nat.le_refl k)); (exists (2 * k)%nat); intros m Hm; unfold pbind in Hk |- *;
      destruct (l_next (text_lexer F fm) (start fm text)) as [s1 [[]|e|p|]]; cbn [snd] in Hk |- *; try exact Hk.
    - destruct (prog_read_le F c fm prog (Hrun F) (Hdecl F c) k m t Hm s1) as [E|E]; [congruence|]. rewrite <- E. exact Hk.
    - destruct (prog_read_ge F c fm prog (Hrun F) (Hdecl F c) k m t Hm s1) as [E|E]; [congruence|]. rewrite <- E. exact Hk. }
  split; [|split; [|exact Hp]].
  - unfold prog. rewrite Forall_map. eapply Forall_impl; [|exact Hs]. intros a Ha.
    assert (Hok : def_ok (it_def a)) by (destruct fm; apply Ha).
    destruct (C53_read_as_written_partial (it_def a) Hok) as (n0 & r & _ & Hr). assert (Hrd : reads (it_def a) r) by (exists n0; exact Hr).
    exists r. cbn [mk_text it_def it_ser it_de]. split; [exact Hrd|]. rewrite (reads_mk _ _ Hok Hrd). destruct fm.
    + destruct Ha as (H1 & H2 & H3 & H4 & H5 & H6 & H7 & H8 & H9). split; [apply derive_ser_json_text | apply derive_de_json_text]; assumption.
    + destruct Ha as (H1 & H2 & H3 & H4 & H5 & H6 & H7 & H8 & H9). split; [apply derive_ser_ron_text; try assumption; apply H5|].
      apply derive_de_ron_text; try assumption; [apply H5|]. destruct H5 as (_ & _ & H5). destruct (sd_body (it_def a)); auto.
  - intros F c t v HF Hc Ht. destruct Ht as [k0 Ht].
    destruct (TextMain.text_round_trip F c (decls srcs) fm HF Hc k0 t v Ht) as (text & Hw & Hpa). exists text. split; [exact Hw|]. split.
    + destruct Hw as [k Hk]. rewrite <- HG in Hk. exists (2 * k + 1)%nat. intros m Hm. specialize (Hk k (Nat.le_refl k)). unfold serialize_text in Hk.
      destruct fm; [apply (prog_write_json F c prog Hj k m t v Hm) | apply (prog_write_ron F c prog Hj k m t v Hm)]; exact Hk.
    + apply Hp; [discriminate|exact Hpa].
Qed.
Print Assumptions C75_text.

(** ** An example: two definitions that use each other,
    [struct Tree { name: String, kids: Vec<Node> }] and
    [enum Node { Leaf(u8), Sub { tree: Tree } }]. *)
Definition plain_field (n : str) (t : sty) : sfield := {| sf_attrs := []; sf_vis := VNone_; sf_name := n; sf_type := t |}.
Definition d_tree : sdef := def_of (chars "Tree") [] (KNamed [
  plain_field (chars "name") (id (chars "String"));
  plain_field (chars "kids") (SPath (chars "Vec") [] [id (chars "Node")])] true).
Definition d_node : sdef := def_of (chars "Node") [] (KEnum [
  {| sv_attrs := []; sv_name := chars "Leaf"; sv_payload := PTuple [id (chars "u8")] false; sv_value := None |};
  {| sv_attrs := []; sv_name := chars "Sub"; sv_payload := PStruct [plain_field (chars "tree") (id (chars "Tree"))] false; sv_value := None |}] false).
(** What the type names mean. *)
Definition tree_ty (t : str) : ty :=
  if str_eqb t (chars "String") then TStr else if str_eqb t (chars "Vec<Node>") then TSeq SVec (TNamed 1)
  else if str_eqb t (chars "Tree") then TNamed 0 else TInt U8.
Definition W_tree : world := {|
  w_ty := fun t p => match p with Some q => TProxy p_inc (tree_ty q) | None => tree_ty t end;
  w_default := fun t => VZ 0; w_expr := fun t e => VZ 0; w_proxy := fun q => (p_inc, tree_ty q) |}.
Definition srcs_ex {C} : list (source C) :=
  map (fun d => {| it_world := W_tree; it_self := fun _ => p_inc; it_conv := fun _ _ => p_inc; it_def := d; it_ser := tt; it_de := tt |}) [d_tree; d_node].
Definition v_tree : val := VSeq [VStr (chars "r"); VSeq [VEnum 0 [VZ 7]; VEnum 1 [VSeq [VStr (chars "s"); VSeq []]]]].

Lemma d_tree_ok : def_ok d_tree.
Proof.
  split; [|split; [|split; [|split; [|split; [|split; [|split]]]]]].
  - ok.
  - intros i H. discriminate H.
  - ok.
  - cbn. repeat constructor; cbn; intuition discriminate.
  - constructor.
  - cbn. lia.
  - reflexivity.
  - ok.
Qed.
Lemma d_node_ok : def_ok d_node.
Proof.
  split; [|split; [|split; [|split; [|split; [|split; [|split]]]]]].
  - ok.
  - intros i H. discriminate H.
  - ok.
  - cbn. repeat constructor; cbn; intuition discriminate.
  - constructor.
  - cbn. lia.
  - reflexivity.
  - ok.
Qed.
Lemma W_tree_ok d : Forall (fun f => is_option (sf_type f) = false) (all_fields d) -> world_ok W_tree (fun _ _ => p_inc) (fun _ => p_inc) d.
Proof.
  intros H. split; [intros t; cbn [W_tree w_ty]; unfold tree_ty, plain_ty; destruct (str_eqb t (chars "String")), (str_eqb t (chars "Vec<Node>")), (str_eqb t (chars "Tree")); exact I|].
  split; [reflexivity|]. rewrite Forall_forall in *. intros f Hf. specialize (H f Hf). split; [reflexivity|]. rewrite H. eexists. split; reflexivity.
Qed.
(** The model's environment for [Tree] and [Node]. *)
Definition G_tree : env :=
  [DStruct false false [PropsBin.fld (chars "name") false (VZ 0) TStr; PropsBin.fld (chars "kids") false (VZ 0) (TSeq SVec (TNamed 1))];
   DEnum [{| v_name := chars "Leaf"; v_rename := None; v_body := BTuple [TInt U8] |};
          {| v_name := chars "Sub"; v_rename := None; v_body := BStruct [PropsBin.fld (chars "tree") false (VZ 0) (TNamed 0)] |}]].
Lemma decls_tree C : decls (srcs_ex (C := C)) = G_tree.
Proof. vm_compute. reflexivity. Qed.
(** The depths are variables here, so that the kernel unfolds one level at a time. *)
Ltac unfold_depth :=
  match goal with
  | H : ?a = S ?b |- fits _ _ _ ?a _ _ => rewrite H
  | H : ?a = S ?b |- text_value _ _ _ ?a _ _ => rewrite H
  end.
Lemma tree_fits a b c d e f g h : a = S b -> b = S c -> c = S d -> d = S e -> e = S f -> f = S g -> g = S h ->
  fits px_inverse c64 G_tree a (TNamed 0) v_tree.
Proof.
  intros Ha Hb Hc Hd He Hf Hg. unfold v_tree.
  repeat (first [unfold_depth | fit_step]; cbn [f_skip f_ty f_tydefault PropsBin.fld]).
  all: vm_compute; intuition congruence.
Qed.
Lemma tree_typed : has_type c64 G_tree (TNamed 0) v_tree.
Proof. exists 8%nat. exact (tree_fits 8 7 6 5 4 3 2 1 eq_refl eq_refl eq_refl eq_refl eq_refl eq_refl eq_refl). Qed.
Lemma tree_text fm a b c d e f g h : a = S b -> b = S c -> c = S d -> d = S e -> e = S f -> f = S g -> g = S h ->
  text_value c64 G_tree fm a (TNamed 0) v_tree.
Proof.
  intros Ha Hb Hc Hd He Hf Hg. unfold v_tree.
  repeat (first [unfold_depth | tv_step]; cbn [f_skip f_ty f_tydefault PropsBin.fld]).
  all: try (destruct fm; vm_compute; intuition congruence).
  all: try (intros _); destruct fm; vm_compute; intuition (repeat constructor; congruence).
Qed.
Lemma tree_text_typed fm : text_typed c64 G_tree fm (TNamed 0) v_tree.
Proof. exists 8%nat. exact (tree_text fm 8 7 6 5 4 3 2 1 eq_refl eq_refl eq_refl eq_refl eq_refl eq_refl eq_refl). Qed.
Example C75_ex_binary : Forall bin_source srcs_ex /\ cfg_ok c64 /\ has_type c64 (decls (srcs_ex (C := str))) (TNamed 0) v_tree /\
  let prog := map mk_bin srcs_ex in
  let bytes := [1; 0; 0; 0; 0; 0; 0; 0; 114; 2; 0; 0; 0; 0; 0; 0; 0; 0; 0; 7; 1; 0; 1; 0; 0; 0; 0; 0; 0; 0; 115; 0; 0; 0; 0; 0; 0; 0; 0] in
  prog_ser prog 12 (TNamed 0) v_tree [] = Ok bytes /\ prog_de prog c64 bytes 12 (TNamed 0) 0 = (lenN bytes, Ok v_tree).
Proof.
  assert (Hp : forall d, value_in (chars "proxy") (items (sd_attrs d)) = None -> proxy_plain d) by (intros d E H; congruence).
  split; [|split; [apply c64_ok|split]].
  - apply Forall_cons; [|apply Forall_cons; [|apply Forall_nil]].
    + split; [exact d_tree_ok|]. split; [ok|]. split; [cbn; repeat constructor; cbn; intuition discriminate|]. split; [exact I|]. split; [apply Hp; reflexivity|].
      split; [exact I|]. split; reflexivity.
    + split; [exact d_node_ok|]. split; [ok|].
      split; [split; [cbn; repeat constructor; cbn; intuition discriminate|split; [cbn; lia|repeat constructor; cbn; intuition discriminate]]|].
      split; [repeat constructor; cbn; discriminate|]. split; [apply Hp; reflexivity|]. split; [exact I|]. split; reflexivity.
  - rewrite (decls_tree str). exact tree_typed.
  - split; vm_compute; reflexivity.
Qed.
Lemma tree_sources fm : Forall (text_source fm) srcs_ex.
Proof.
  assert (Hp : forall d, value_in (chars "proxy") (items (sd_attrs d)) = None -> proxy_plain d) by (intros d E H; congruence).
  assert (Hr : rust_ok d_node) by (split; [cbn; repeat constructor; cbn; intuition discriminate|split; [cbn; lia|repeat constructor; cbn; intuition discriminate]]).
  assert (Hr' : rust_ok d_tree) by (cbn; repeat constructor; cbn; intuition discriminate).
  assert (Hn : names_plain d_node) by (split; repeat constructor).
  assert (Hn' : names_plain d_tree) by (split; [repeat constructor|exact I]).
  assert (Hv : variants_compile d_node) by (repeat constructor; cbn; intuition discriminate).
  assert (Hw : world_ok W_tree (fun _ _ => p_inc) (fun _ => p_inc) d_node) by (apply W_tree_ok; repeat constructor).
  assert (Hw' : world_ok W_tree (fun _ _ => p_inc) (fun _ => p_inc) d_tree) by (apply W_tree_ok; repeat constructor).
  assert (Hc : no_const d_node) by ok. assert (Hc' : no_const d_tree) by ok.
  assert (Hd : Forall (default_ok fm) (all_fields d_node)) by (repeat constructor; intros v Hx; discriminate).
  assert (Hd' : Forall (default_ok fm) (all_fields d_tree)) by (repeat constructor; intros v Hx; discriminate).
  destruct fm; (apply Forall_cons; [|apply Forall_cons; [|apply Forall_nil]]); cbn [text_source].
  - split; [exact d_tree_ok|]. repeat (split; [first [assumption | exact I | apply Hp; reflexivity]|]). exact Hw'.
  - split; [exact d_node_ok|]. repeat (split; [first [assumption | exact I | apply Hp; reflexivity]|]). exact Hw.
  - split; [exact d_tree_ok|]. repeat (split; [first [assumption | exact I | split; [reflexivity|split; [repeat constructor|exact I]] | split; cbn; auto]|]). exact Hw'.
  - split; [exact d_node_ok|]. repeat (split; [first [assumption | exact I | split; [reflexivity|split; [repeat constructor|exact I]] | split; cbn; auto]|]). exact Hw.
Qed.
Example C75_ex_text : (forall fm, Forall (text_source fm) srcs_ex /\ text_typed c64 (decls (srcs_ex (C := ty))) fm (TNamed 0) v_tree) /\ flt_ok toy /\
  let json := chars "{""name"":""r"",""kids"":[{""Leaf"":[7]},{""Sub"":{""tree"":{""name"":""s"",""kids"":[]}}}]}" in
  let ron := chars "(name:""r"",kids:[Leaf(7),Sub(tree:(name:""s"",kids:[],),),],)" in
  let jp := map (mk_text Json) srcs_ex in let rp := map (mk_text Ron) srcs_ex in
  prog_write toy c64 Json jp 16 (TNamed 0) v_tree = Ok json /\ prog_parse toy c64 Json jp 16 (TNamed 0) json = Ok v_tree /\
  prog_write toy c64 Ron rp 16 (TNamed 0) v_tree = Ok ron /\ prog_parse toy c64 Ron rp 16 (TNamed 0) ron = Ok v_tree.
Proof.
  split; [|split; [apply toy_ok|]].
  - intro fm. split; [apply tree_sources|]. rewrite (decls_tree ty). apply tree_text_typed.
  - split; [vm_compute; reflexivity|]. split; [vm_compute; reflexivity|]. split; vm_compute; reflexivity.
Qed.
