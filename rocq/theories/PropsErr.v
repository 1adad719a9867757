(** C58: what the printed error messages say.  C59: the accessors of [Toml]. *)
From Verif Require Import Base Utf8 Types TyAll BinModel BinRead BinValid BinPanic BinMore Text TextModel TextFuel TextRun TextLex TextGram SpecText SpecGram SpecObj SpecList SpecPos PropsPos SpecErr ErrorModel TextEx PropsObj PropsList TomlModel SpecToml TomlTerm PropsToml PropsBin.
Local Open Scope N_scope.

Lemma dec_numeral n : numeral (dec n) n.
Proof.
  split; [|split].
  - split; [apply dec_nonempty|]. pose proof (dec_digits n) as H. rewrite forallb_forall in H. apply Forall_forall. intros x Hx. specialize (H x Hx).
    unfold is_digit in H. lia.
  - rewrite decimal_val. apply dec_val.
  - pose proof (dec_nozero n) as [H|H]; [left; exact H|]. right. pose proof (dec_nonempty n). destruct (dec n) as [|x r]; [congruence|]. cbn [cur] in H. eauto.
Qed.
(** Numerals are unique. *)
Lemma dec_inj a b : dec a = dec b -> a = b.
Proof. intro H. rewrite <- (dec_val a), <- (dec_val b), H. reflexivity. Qed.
Definition fm_name (fm : fmt) : str := match fm with Json => chars "Json" | Ron => chars "Ron" end.

(** The position in the message is the place where reading stopped, line and column
    counted from 1. *)
Theorem C58_json_position F c G showt t text e : parses F c G Json t text (Err e) ->
  exists q m r k what, text = q ++ m ++ r /\ column q k /\ (tuple_free G t -> m = []) /\
    (r <> [] -> forall r', parses F c G Json t (q ++ m ++ r') (Err e)) /\
    reports (show_terr showt Json e) (chars "Json") what (line_ends q) k.
Proof.
  intro H. destruct (C30_json F c G t text e H) as (q & m & r & E & Hl & Hc & Hm & Hr).
  exists q, m, r, (e_col e), (show_reason showt (e_reason e)). repeat (split; [assumption|]).
  exists (dec (e_line e + 1)), (dec (e_col e + 1)). split; [reflexivity|]. rewrite <- Hl. split; apply dec_numeral.
Qed.
Print Assumptions C58_json_position.
Theorem C58_ron_position F c G showt t text e : parses F c G Ron t text (Err e) ->
  exists q m r what, text = q ++ m ++ r /\ (tuple_free G t -> m = []) /\
    (r <> [] -> forall r', parses F c G Ron t (q ++ m ++ r') (Err e)) /\
    reports (show_terr showt Ron e) (chars "Ron") what (line_ends q) 0.
Proof.
  intro H. destruct (C30_ron_line F c G t text e H) as (q & m & r & E & Hl & Hm & Hr).
  exists q, m, r, (show_reason showt (e_reason e)). repeat (split; [assumption|]).
  exists (dec (e_line e + 1)), (dec (e_col e + 1)). split; [reflexivity|]. rewrite <- Hl, (C30_ron_column_refuted F c G t text e H). split; apply dec_numeral.
Qed.
Print Assumptions C58_ron_position.
Theorem C58_toml_position F show shown text e : toml_parse F show text = Err e ->
  exists q r what d, text = q ++ r /\ show_qerr shown e = chars "Toml error: " ++ what ++ chars ", line:" ++ d ++ chars " col:1" /\ numeral d (line_ends q + 1).
Proof.
  intro H. destruct (C30_toml_line F show text e H) as (q & r & E & Hl). exists q, r, (shown (q_msg e)), (dec (q_line e + 1)).
  split; [exact E|]. split; [reflexivity|]. rewrite <- Hl. apply dec_numeral.
Qed.
Print Assumptions C58_toml_position.

(** A missing field, an unknown field and an unknown variant are called by their name. *)
Theorem C58_missing_named F c G fm showt i dflt cn fs ms text pre f post vs :
  nth_error G i = Some (DStruct dflt cn fs) -> unique_keys fs -> object_text F fm ms text ->
  members_ok F c G fm fs ms -> extra_ok fm fs ms ->
  fs = pre ++ f :: post -> Forall2 (field_of F c G fm dflt ms) pre vs ->
  f_skip f = false -> ~ In (key_of_field f) (map fst ms) -> when_absent dflt f = None ->
  exists e l k, parses F c G fm (TNamed i) text (Err e) /\
    reports (show_terr showt fm e) (fm_name fm) (chars "Key not found " ++ f_name f) l k.
Proof.
  intros H1 H2 H3 H4 H5 H6 H7 H8 H9 H10. destruct (C25_missing_field F c G fm i dflt cn fs ms text pre f post vs H1 H2 H3 H4 H5 H6 H7 H8 H9 H10) as (e & He & Hr).
  exists e, (e_line e), (e_col e). split; [exact He|]. exists (dec (e_line e + 1)), (dec (e_col e + 1)). split; [|split; apply dec_numeral].
  unfold show_terr. rewrite Hr. reflexivity.
Qed.
Print Assumptions C58_missing_named.
Theorem C58_unknown_named F c G showt i dflt cn fs ms k x pre post text :
  nth_error G i = Some (DStruct dflt cn fs) -> unique_keys fs -> fs <> [] ->
  object_text F Ron ms text -> ms = pre ++ (k, x) :: post ->
  members_ok F c G Ron fs pre -> (forall k' x', In (k', x') pre -> known fs k') -> ~ known fs k ->
  exists e l, parses F c G Ron (TNamed i) text (Err e) /\
    reports (show_terr showt Ron e) (chars "Ron") (chars "Unexpected key " ++ k) l 0.
Proof.
  intros H1 H2 H3 H4 H5 H6 H7 H8. destruct (C38_unknown_rejected F c G i dflt cn fs ms k x pre post text H1 H2 H3 H4 H5 H6 H7 H8) as (e & He & Hr).
  exists e, (e_line e). split; [exact He|]. exists (dec (e_line e + 1)), (dec (e_col e + 1)). split; [unfold show_terr; rewrite Hr; reflexivity|].
  rewrite (C30_ron_column_refuted F c G _ text e He). split; apply dec_numeral.
Qed.
Print Assumptions C58_unknown_named.

(** The position can be read off the message: messages of different positions differ. *)
Lemma digits_split a b x y r s : Forall (fun c => 48 <= c <= 57) a -> Forall (fun c => 48 <= c <= 57) b ->
  ~ 48 <= x <= 57 -> ~ 48 <= y <= 57 -> a ++ x :: r = b ++ y :: s -> a = b /\ x :: r = y :: s.
Proof.
  intros Ha. revert b. induction Ha as [|c a Hc Ha IH]; intros b Hb Hx Hy E; destruct Hb as [|c' b Hc' Hb]; cbn in E.
  - auto.
  - injection E as -> _. contradiction.
  - injection E as <- _. contradiction.
  - injection E as -> E. destruct (IH b Hb Hx Hy E) as [-> E']. auto.
Qed.
Lemma dec_Forall n : Forall (fun c => 48 <= c <= 57) (rev (dec n)).
Proof. apply Forall_rev. destruct (dec_numeral n) as [[_ H] _]. exact H. Qed.
Lemma tail_numeral p1 p2 x1 x2 a b : ~ 48 <= x1 <= 57 -> ~ 48 <= x2 <= 57 ->
  p1 ++ x1 :: dec a = p2 ++ x2 :: dec b -> a = b /\ p1 ++ [x1] = p2 ++ [x2].
Proof.
  intros H1 H2 E. apply (f_equal (@rev N)) in E. rewrite !rev_app_distr in E. cbn [rev] in E. rewrite <- !app_assoc in E. cbn [app] in E.
  destruct (digits_split _ _ _ _ _ _ (dec_Forall a) (dec_Forall b) H1 H2 E) as [E1 E2].
  split; [apply dec_inj; rewrite <- (rev_involutive (dec a)), <- (rev_involutive (dec b)), E1; reflexivity|].
  rewrite <- (rev_involutive (p1 ++ [x1])), <- (rev_involutive (p2 ++ [x2])), (rev_app_distr p1), (rev_app_distr p2). apply (f_equal (@rev N)). exact E2.
Qed.
Theorem C58_position_readable showt fm e showt' fm' e' :
  show_terr showt fm e = show_terr showt' fm' e' -> e_line e = e_line e' /\ e_col e = e_col e'.
Proof.
  assert (S : forall showt fm e, show_terr showt fm e =
    ((fm_name fm ++ chars " Deserialize error: " ++ show_reason showt (e_reason e) ++ chars ", line") ++ 58 :: dec (e_line e + 1) ++ chars " col") ++ 58 :: dec (e_col e + 1)).
  { intros. unfold show_terr, fm_name. rewrite <- !app_assoc. cbn [app]. rewrite <- !app_assoc. reflexivity. }
  rewrite !S. intro E. destruct (tail_numeral _ _ 58 58 _ _ ltac:(lia) ltac:(lia) E) as [E1 E2].
  apply app_inj_tail in E2 as [E2 _].
  assert (T : forall (p : str) a, p ++ 58 :: dec a ++ chars " col" = (p ++ 58 :: dec a) ++ chars " col") by (intros; rewrite <- app_assoc; reflexivity).
  rewrite !T in E2. apply app_inv_tail in E2. destruct (tail_numeral _ _ 58 58 _ _ ltac:(lia) ltac:(lia) E2) as [E3 _]. lia.
Qed.
Print Assumptions C58_position_readable.
(** The message of a binary length error gives all three numbers, that of an unknown
    variant the number found. *)
Theorem C58_bin showr e :
  match e_msg e with
  | ELength l s => exists a b d, show_berr showr e = chars "Bin deserialize error at:" ++ a ++ chars " wanted:" ++ b ++ chars " bytes but max size is " ++ d /\
      numeral a (e_o e) /\ numeral b l /\ numeral d s
  | EDiscriminant tag => exists a b, show_berr showr e = chars "Bin deserialize error at " ++ a ++ chars ": Unknown variant " ++ b /\ numeral a (e_o e) /\ numeral b tag
  | ERange => exists a, show_berr showr e = chars "Bin deserialize error at:" ++ a ++ chars " " ++ showr /\ numeral a (e_o e)
  end.
Proof.
  unfold show_berr. destruct (e_msg e) as [l s| |tag].
  - exists (dec (e_o e)), (dec l), (dec s). split; [reflexivity|]. auto using dec_numeral.
  - exists (dec (e_o e)). split; [reflexivity|]. apply dec_numeral.
  - exists (dec (e_o e)), (dec tag). split; [reflexivity|]. auto using dec_numeral.
Qed.
Print Assumptions C58_bin.
(** So what is printed for an input that ends inside a fixed-size item are the offset
    of the item, its size and the size of the input. *)
Theorem C58_bin_length c G t d o o' e w total showr :
  cfg_ok c -> slice_fits c (lenN d) -> o <= lenN d -> env_ok G -> TyAll.ty_all (name_ok G) t ->
  TyAll.env_all (fun u => u <> TStr) G -> TyAll.ty_all (fun u => u <> TStr) t ->
  decodes_at c G t d o o' (Err e) -> e_msg e = ELength w total ->
  exists a b n, show_berr showr e = chars "Bin deserialize error at:" ++ a ++ chars " wanted:" ++ b ++ chars " bytes but max size is " ++ n /\
    numeral a o' /\ numeral b w /\ numeral n (lenN d) /\ lenN d < o' + w.
Proof.
  intros H1 H2 H3 H4 H5 H6 H7 H8 H9. destruct (C09_length_errors c G t d o o' e w total H1 H2 H3 H4 H5 H6 H7 H8 H9) as (A & B & _ & C & _).
  pose proof (C58_bin showr e) as X. rewrite H9 in X. destruct X as (a & b & n & X1 & X2 & X3 & X4). exists a, b, n.
  rewrite A in X2. rewrite B in X4. split; [exact X1|]. split; [exact X2|]. split; [exact X3|]. split; [exact X4 | exact C].
Qed.
Print Assumptions C58_bin_length.
(** The offset printed for an unknown variant is not the place of the discriminant but
    always zero. *)
Theorem C58_refuted_variant_offset c showr : cfg_ok c -> slice_fits c 3 ->
  exists e, decodes_at c [DEnum [{| v_name := chars "A"; v_rename := None; v_body := BUnit |}]] (TTup [TInt U8; TNamed 0]) [7; 5; 0] 0 3 (Err e) /\
    show_berr showr e = chars "Bin deserialize error at 0: Unknown variant 5".
Proof.
  intros Hc Hf. exists {| e_o := 0; e_msg := EDiscriminant 5 |}. split; [|reflexivity].
  destruct (slice_fits_usize _ _ Hc Hf) as [A1 A2].
  exists 2%nat. intros m Hm. destruct m as [|[|m]]; [lia|lia|]. cbn [de_bin de_tys nth_error]. unfold bmap, bbind.
  unfold rd_fixed, usize_add. cbn [ik_bytes N.of_nat]. change (0 + N.pos (Pos.of_succ_nat 0)) with 1.
  replace (1 <? usize_mod c) with true by lia. cbn. replace (3 <? usize_mod c) with true by lia. reflexivity.
Qed.
Print Assumptions C58_refuted_variant_offset.

(** ** C59 *)
(** Which value each accessor takes: every value is accepted by exactly one of the six. *)
Theorem C59_accessors v :
  match v with
  | TVNum n => toml_num v = Some n /\ toml_str v = None /\ toml_boolean v = None /\ toml_date v = None /\ toml_arr v = None /\ toml_simple_arr v = None
  | TVStr s => toml_num v = None /\ toml_str v = Some s /\ toml_boolean v = None /\ toml_date v = None /\ toml_arr v = None /\ toml_simple_arr v = None
  | TVBool b => toml_num v = None /\ toml_str v = None /\ toml_boolean v = Some b /\ toml_date v = None /\ toml_arr v = None /\ toml_simple_arr v = None
  | TVDate s => toml_num v = None /\ toml_str v = None /\ toml_boolean v = None /\ toml_date v = Some s /\ toml_arr v = None /\ toml_simple_arr v = None
  | TVTables l => toml_num v = None /\ toml_str v = None /\ toml_boolean v = None /\ toml_date v = None /\ toml_arr v = Some l /\ toml_simple_arr v = None
  | TVArr l => toml_num v = None /\ toml_str v = None /\ toml_boolean v = None /\ toml_date v = None /\ toml_arr v = None /\ toml_simple_arr v = Some l
  end.
Proof. destruct v; repeat split. Qed.
Print Assumptions C59_accessors.
(** [doc[k].arr()] and [doc[k][i]] after parsing a document with headers [[k]]: as many
    tables as headers, the [i]th one holds what stands under the [i]th header; an index
    past the last panics. *)
Theorem C59_tables F show es text k : tdoc F es text -> ~ clash es -> In (ETables k) es ->
  exists m v ms, toml_parse F show text = Ok m /\ map_index m k = Some v /\ toml_arr v = Some ms /\
    length ms = length (filter (fun e => match e with ETables k' => str_eqb k k' | _ => false end) es) /\
    forall i, match toml_index v i with
              | Some x => (i < length ms)%nat /\ exists l, nth_error (of_key k (sections es)) i = Some l /\ holds l x
              | None => (length ms <= i)%nat
              end.
Proof.
  intros H1 H2 H3. destruct (C44_count F show es text k H1 H2 H3) as (m & ms & E & G & L & X). exists m, (TVTables ms), ms.
  split; [exact E|]. split; [exact G|]. split; [reflexivity|]. split; [exact L|]. intro i. cbn [toml_index].
  destruct (nth_error ms i) as [x|] eqn:Ei.
  - split; [apply nth_error_Some; unfold tmap in *; intro Q; rewrite Ei in Q; discriminate|]. destruct (X i x Ei) as (l & A & B & _). eauto.
  - apply nth_error_None. exact Ei.
Qed.
Print Assumptions C59_tables.
(** [doc[k]] in a document without such headers: the last value assigned to the key, a
    panic if it is not assigned. *)
Theorem C59_lookup F show es text : tdoc F es text -> no_tables es ->
  exists m, toml_parse F show text = Ok m /\
    forall k, match map_index m k with Some v => last_value (settings [] es) k v | None => ~ In k (map fst (settings [] es)) end.
Proof.
  intros H1 H2. destruct (C43_key_values F show es text H1 H2) as (m & E & _ & M). exists m. split; [exact E|]. intro k. unfold map_index.
  destruct (t_get k m) as [v|] eqn:Eg; [apply M; exact Eg|]. intro Hin.
  assert (X : exists v, last_value (settings [] es) k v).
  { clear - Hin. induction (settings [] es) as [|[k' v'] l IH]; [destruct Hin|]. cbn [map fst] in Hin.
    destruct (in_dec (list_eq_dec N.eq_dec) k (map fst l)) as [Y|Y].
    - destruct (IH Y) as (v & a & b & -> & Hb). exists v, ((k', v') :: a), b. auto.
    - destruct Hin as [->|Hin]; [|contradiction]. exists v', [], l. auto. }
  destruct X as [v X]. apply M in X. congruence.
Qed.
Print Assumptions C59_lookup.
Example C59_ex : tdoc no_flt es2 doc2 /\ no_tables es2 /\ last_value (settings [] es2) (chars "t.u.b") (TVBool true).
Proof.
  destruct C43_ex as (A & B & _). split; [exact A|]. split; [exact B|].
  exists [(chars "b", TVStr (chars "1")); (chars "t.u.b", TVStr (chars "2"))], [(chars "t.u.x y", TVNum (f64_of_z no_flt (-10)))].
  split; [reflexivity|]. cbn. intuition discriminate.
Qed.
(** A message in full. *)
Example C58_ex : exists e, parses toy c64 [] Json (TSeq SVec TBool) (chars "[true," ++ [10] ++ chars "  7 ]") (Err e) /\
  show_terr (fun _ => chars "U64(7)") Json e = chars "Json Deserialize error: Unexpected token U64(7) expected boolean , line:2 col:5".
Proof. eexists. split; [apply (de_text_returns _ _ _ _ 12%nat); [vm_compute; reflexivity|discriminate] | vm_compute; reflexivity]. Qed.
