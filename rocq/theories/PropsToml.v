(** The theorems about TOML: C41-C48.

    [toml_parse F show text] is [TomlParser::parse(text)]; [F] and [show] stand for the
    float conversions of the standard library and are arbitrary. *)
From Verif Require Import Base Utf8 Types Text TextModel TextToks SpecText SpecGram TomlModel SpecToml TomlRead TomlDoc TomlTerm.
Local Open Scope N_scope.

Definition lf : str := [10].
(** ** Example documents *)
Lemma gap_nil : tgap [].
Proof. constructor. Qed.
Ltac t_gap := repeat first [apply tg_nil | apply tg_ws; [unfold ws_char; lia|]].
Ltac t_bare := cbn; apply tk_bare; [reflexivity | lia | lia | repeat constructor | cbn; intuition discriminate].
Ltac t_blanks := repeat constructor; lia.
Ltac t_str := apply tv_str; [cbn; repeat (apply tc_plain; [discriminate | discriminate | discriminate |]); constructor | discriminate].

(** * C41 *)
(** The parser comes to an end on every text; that is what the model's fuel is for. *)
Theorem C41_terminates F show text :
  toml_parse F show text <> NoFuel /\ forall n, (length text < n)%nat -> parse_toml F show n text = toml_parse F show text.
Proof.
  split; [|intros n Hn; apply parse_enough; exact Hn]. pose proof (parse_ends F show text) as (_ & _ & X). unfold toml_parse, parse_toml. intro E. rewrite E in X. exact X.
Qed.
Print Assumptions C41_terminates.
(** The scanner's own loops have enough rounds, too. *)
Theorem C41_scan F l n m : (length l < n)%nat -> (length l < m)%nat -> q_scan F n l = q_scan F m l.
Proof. apply scan_fuel. Qed.
Print Assumptions C41_scan.

(** * C42 *)
(** The claim is false. *)
Theorem C42_refuted F show : toml_parse F show (chars "a=""1""" ++ lf ++ chars "[[a]]") = Panic PUnreachable.
Proof. vm_compute. reflexivity. Qed.
Print Assumptions C42_refuted.
(** What is true: it takes a header with two brackets. *)
Theorem C42_panics_partial F show text p : toml_parse F show text = Panic p ->
  p = PUnreachable /\ exists pre g post, text = pre ++ 91 :: g ++ 91 :: post /\ tgap g.
Proof.
  intro E. pose proof (parse_ends F show text) as (_ & _ & X). unfold toml_parse, parse_toml in E. rewrite E in X. exact X.
Qed.
Print Assumptions C42_panics_partial.
(** A document panics exactly if it has a header [[k]] for a key assigned before. *)
Theorem C42_documents_partial F show es text : tdoc F es text ->
  (clash es -> toml_parse F show text = Panic PUnreachable) /\ (~ clash es -> exists m, toml_parse F show text = Ok m).
Proof.
  intro H. rewrite (parse_doc F show es text H). destruct (run_means es (doc_wf F es text H)) as [[C E]|[C (m & E & _)]]; rewrite E.
  - split; [reflexivity | contradiction].
  - split; [contradiction | eauto].
Qed.
Print Assumptions C42_documents_partial.
Definition doc1 : str := chars "a=""1""" ++ lf ++ chars "[[a]]".
Example C42_ex F : tdoc F [ESet (chars "a") (TVStr (chars "1")); ETables (chars "a")] doc1 /\ clash [ESet (chars "a") (TVStr (chars "1")); ETables (chars "a")].
Proof.
  split.
  - refine (td_set F [] [97] [97] Bare [] [] (34 :: [49] ++ [34]) (TVStr [49]) FreeEnd (lf ++ chars "[[a]]") _ _ _ _ _ _ _ _); try exact I.
    + t_gap. + t_bare. + constructor. + constructor. + t_str.
    + refine (td_tables F lf [97] [97] Bare [] [] [] [] _ _ _ _ _ _); [t_gap | constructor | t_bare | discriminate | constructor | apply td_end; constructor].
  - exists (chars "a"). split; left; reflexivity.
Qed.

(** * C43 *)
Theorem C43_key_values F show es text : tdoc F es text -> no_tables es ->
  exists m, toml_parse F show text = Ok m /\ sorted m /\ holds (settings [] es) m.
Proof.
  intros H Hn. assert (Es : sections es = []).
  { clear H. induction Hn as [|e es He Hn IH]; [reflexivity|]. destruct e; [exact IH | contradiction | exact IH]. }
  rewrite (parse_doc F show es text H). destruct (run_means es (doc_wf F es text H)) as [[(k & _ & C) E]|[C (m & E & S & M)]].
  - rewrite Es in C. destruct C.
  - exists m. split; [exact E|]. split; [exact S|]. intros k v. rewrite (M k v), Es. split; [|auto]. intros [X|(ms & _ & N & X)]; [exact X|].
    unfold of_key in X. cbn in X. destruct ms; [congruence | inversion X].
Qed.
Print Assumptions C43_key_values.
(** These two determine the map. *)
Theorem C43_unique l m1 m2 : sorted m1 -> holds l m1 -> sorted m2 -> holds l m2 -> m1 = m2.
Proof. intros S1 H1 S2 H2. apply (is_map_fun l); split; assumption. Qed.
Print Assumptions C43_unique.
Definition doc2 : str := chars "b=""1""" ++ lf ++ chars "[t.u] # table" ++ lf ++ chars "b = ""2""" ++ lf ++ chars "b=true" ++ lf ++ chars " ""x y""= -1_0" ++ lf.
Definition es2 : list entry :=
  [ESet (chars "b") (TVStr (chars "1")); ETable (chars "t.u"); ESet (chars "b") (TVStr (chars "2")); ESet (chars "b") (TVBool true); ESet (chars "x y") (TVNum (f64_of_z no_flt (-10)))].
Example C43_ex : tdoc no_flt es2 doc2 /\ no_tables es2 /\
  toml_parse no_flt dec doc2 = Ok [(chars "b", TVStr (chars "1")); (chars "t.u.b", TVBool true); (chars "t.u.x y", TVNum 0)].
Proof.
  split; [|split; [repeat constructor | vm_compute; reflexivity]].
  refine (td_set _ [] [98] [98] Bare [] [] (34 :: [49] ++ [34]) _ FreeEnd _ _ gap_nil _ _ _ _ I _); [t_bare | constructor | constructor | |].
  { t_str. }
  refine (td_table _ lf [116; 46; 117] [116; 46; 117] Bare [] [] _ _ _ _ _ _ _ _); [t_gap | constructor | | discriminate | constructor |].
  { apply tk_bare; [reflexivity | lia | lia | | cbn; intuition discriminate].
    constructor; [right; reflexivity|]. constructor; [left; reflexivity | constructor]. }
  refine (td_set _ ([32; 35] ++ chars " table" ++ lf) [98] [98] Bare [32] [32] (34 :: [50] ++ [34]) _ FreeEnd _ _ _ _ _ _ _ I _); [| t_bare | t_blanks | t_blanks | |].
  { apply tg_ws; [unfold ws_char; lia|]. refine (tg_comment (chars " table") [] _ gap_nil). cbn. repeat constructor; lia. }
  { t_str. }
  refine (td_set _ lf [98] [98] Bare [] [] (chars "true") _ WordEnd _ _ _ _ _ _ _ _ _); [t_gap | t_bare | constructor | constructor | apply tv_true | right; cbn; auto |].
  refine (td_set _ (lf ++ [32]) (34 :: chars "x y" ++ [34]) (chars "x y") Quoted [] [32] ([45] ++ [49; 95; 48]) _ NumEnd lf _ _ _ _ _ _ _ _); [t_gap | | constructor | t_blanks | | right; cbn; auto |].
  { apply tk_quoted; [|discriminate]. cbn. repeat (apply tc_plain; [discriminate | discriminate | discriminate |]). constructor. }
  { apply (tv_int no_flt [45] true [49; 48] [49; 95; 48]); [right; right; auto | | vm_compute; discriminate]. split; [split; [repeat constructor; lia | reflexivity]|]. exists 49, [95; 48]. split; [reflexivity | lia]. }
  apply td_end. t_gap.
Qed.

(** * C44 *)
(** Documents with any headers. *)
Theorem C44_tables F show es text : tdoc F es text -> ~ clash es -> exists m, toml_parse F show text = Ok m /\ means es m.
Proof.
  intros H Hc. rewrite (parse_doc F show es text H). destruct (run_means es (doc_wf F es text H)) as [[C E]|[C X]]; [contradiction | exact X].
Qed.
Print Assumptions C44_tables.
(** So after the headers [[k]] the map holds as many tables under [k]. *)
Theorem C44_count F show es text k : tdoc F es text -> ~ clash es -> In (ETables k) es ->
  exists m ms, toml_parse F show text = Ok m /\ t_get k m = Some (TVTables ms) /\
    length ms = length (filter (fun e => match e with ETables k' => str_eqb k k' | _ => false end) es) /\
    forall i x, nth_error ms i = Some x -> exists l, nth_error (of_key k (sections es)) i = Some l /\ holds l x /\ sorted x.
Proof.
  intros H Hc Hk. destruct (C44_tables F show es text H Hc) as (m & E & S & M).
  destruct (maps_ex (of_key k (sections es))) as [ms Hms].
  assert (L : length (of_key k (sections es)) = length (filter (fun e => match e with ETables k' => str_eqb k k' | _ => false end) es)).
  { clear. unfold of_key. rewrite map_length. induction es as [|[k1|k1|k1 v] es IH]; cbn [sections filter fst]; try exact IH; [reflexivity|]. destruct (str_eqb k k1); cbn [length]; congruence. }
  exists m, ms. split; [exact E|]. split; [|split; [rewrite <- L; symmetry; apply (Forall2_length _ _ _ Hms)|]].
  - apply M. right. exists ms. split; [reflexivity|]. split; [|exact Hms]. intros ->. inversion Hms as [N|]. rewrite <- N in L.
    assert (In (ETables k) (filter (fun e => match e with ETables k' => str_eqb k k' | _ => false end) es)) by (apply filter_In; split; [exact Hk | apply str_eqb_refl]).
    destruct (filter _ es); [contradiction | discriminate].
  - clear -Hms. induction Hms as [|l y ls ys Hl Hms IH]; intros [|i] x Hx; try discriminate; [exists l; inversion Hx; subst; split; [reflexivity | exact Hl] | apply IH; exact Hx].
Qed.
Print Assumptions C44_count.
Definition doc3 : str := chars "[[k]]" ++ lf ++ chars "b=""1""" ++ lf ++ chars "[[k]]".
Definition es3 : list entry := [ETables (chars "k"); ESet (chars "b") (TVStr (chars "1")); ETables (chars "k")].
Example C44_ex F : tdoc F es3 doc3 /\ ~ clash es3 /\ toml_parse F dec doc3 = Ok [(chars "k", TVTables [[(chars "b", TVStr (chars "1"))]; []])].
Proof.
  split; [|split; [intros (k & [] & _) | vm_compute; reflexivity]].
  refine (td_tables F [] [107] [107] Bare [] [] _ _ gap_nil _ _ _ _ _); [constructor | t_bare | discriminate | constructor|].
  refine (td_set _ lf [98] [98] Bare [] [] (34 :: [49] ++ [34]) _ FreeEnd _ _ _ _ _ _ _ I _); [t_gap | t_bare | constructor | constructor | |].
  { t_str. }
  refine (td_tables F lf [107] [107] Bare [] [] [] [] _ _ _ _ _ _); [t_gap | constructor | t_bare | discriminate | constructor | apply td_end; constructor].
Qed.

(** * C45 *)
(** Quotes and backslashes escaped, everything else as it is. *)
Definition escaped (s : str) : str := flat_map (fun x => if (x =? 34) || (x =? 92) then [92; x] else [x]) s.
Lemma escaped_chars s : Forall (fun x => x <> 0) s -> tchars (escaped s) s.
Proof.
  induction 1 as [|x s Hx H IH]; [constructor|]. cbn [escaped flat_map]. fold (escaped s). destruct ((x =? 34) || (x =? 92)) eqn:E; cbn [app].
  - apply tc_esc; [lia | exact IH].
  - apply tc_plain; [lia | lia | exact Hx | exact IH].
Qed.
Lemma one_set F show kt k kk v x e g r : tkey kt k kk -> tvalue F x v e -> follows e (g ++ r) -> tgap g -> r = [] \/ (exists body, r = 35 :: body /\ Forall (fun x => x <> 10 /\ x <> 0) body) ->
  toml_parse F show (kt ++ 61 :: x ++ g ++ r) = Ok [(k, v)].
Proof.
  intros Hk Hx Hf Hg Hr.
  assert (D : tdoc F [ESet k v] (kt ++ 61 :: x ++ g ++ r)).
  { apply (td_set F [] kt k kk [] [] x v e (g ++ r)); [constructor | exact Hk | constructor | constructor | exact Hx | exact Hf |]. destruct Hr as [-> |(body & -> & Hb)]; [rewrite app_nil_r; apply td_end; exact Hg | apply td_comment; assumption]. }
  rewrite (parse_doc F show _ _ D). reflexivity.
Qed.
Theorem C45_string_partial F show kt k kk s : tkey kt k kk -> Forall (fun x => x <> 0) s -> s <> [] ->
  toml_parse F show (kt ++ 61 :: 34 :: escaped s ++ [34]) = Ok [(k, TVStr s)].
Proof.
  intros Hk Hs Hn. pose proof (one_set F show kt k kk (TVStr s) (34 :: escaped s ++ [34]) FreeEnd [] [] Hk) as X. cbn [app] in X. rewrite app_nil_r in X.
  apply X; [|exact I|constructor|left; reflexivity]. apply tv_str; [apply escaped_chars; exact Hs|]. destruct s as [|x s]; [congruence|]. cbn [escaped flat_map]. destruct (_ || _); discriminate.
Qed.
Print Assumptions C45_string_partial.
Theorem C45_verbatim_partial F show kt k kk s : tkey kt k kk -> Forall (fun x => x <> 0 /\ x <> 34 /\ x <> 92) s -> s <> [] ->
  toml_parse F show (kt ++ 61 :: 34 :: s ++ [34]) = Ok [(k, TVStr s)].
Proof.
  intros Hk Hs Hn. assert (E : escaped s = s).
  { clear -Hs. induction Hs as [|x s Hx H IH]; [reflexivity|]. cbn [escaped flat_map]. fold (escaped s). rewrite IH. replace ((x =? 34) || (x =? 92)) with false by lia. reflexivity. }
  rewrite <- E at 1. apply (C45_string_partial F show kt k kk s Hk); [|exact Hn]. eapply Forall_impl; [|exact Hs]. cbn. tauto.
Qed.
Print Assumptions C45_verbatim_partial.
(** The empty string is not read (its second quote is taken for the start of a triple
    quote), escapes other than quotes and backslashes stand for their letter, and after
    a triple-quoted string one character too many is passed over. *)
Theorem C45_refuted_empty F show : exists e, toml_parse F show (chars "a=""""" ++ lf) = Err e.
Proof. eexists. vm_compute. reflexivity. Qed.
Print Assumptions C45_refuted_empty.
Theorem C45_refuted_escape F show : toml_parse F show (chars "a=""\n""") = Ok [(chars "a", TVStr (chars "n"))].
Proof. vm_compute. reflexivity. Qed.
Print Assumptions C45_refuted_escape.
Theorem C45_refuted_triple F show : toml_parse F show (chars "a=""""""x""""""b=true") = Err {| q_line := 0; q_msg := QTok QEq |}.
Proof. vm_compute. reflexivity. Qed.
Print Assumptions C45_refuted_triple.
(** For the triple quotes: every text without quotes, backslashes and NUL. *)
Theorem C45_triple_partial F show kt k kk s : tkey kt k kk -> Forall (fun x => x <> 0 /\ x <> 34 /\ x <> 92) s -> s <> [] ->
  toml_parse F show (kt ++ 61 :: 34 :: 34 :: 34 :: s ++ [34; 34; 34] ++ lf) = Ok [(k, TVStr s)].
Proof.
  intros Hk Hs Hn.
  assert (Hb : forall s, Forall (fun x => x <> 0 /\ x <> 34 /\ x <> 92) s -> forall n, (length s < n)%nat -> q_body n true (s ++ [34; 34; 34] ++ lf) = (lf, Some s)).
  { clear. induction 1 as [|x s Hx H IH]; intros n Hn; (destruct n as [|n]; [lia|]); [reflexivity|]. cbn [app q_body cur tl]. unfold c_quote, c_bslash.
    replace (x =? 34) with false by lia. replace (x =? 92) with false by lia. replace (x =? 0) with false by lia. cbn [andb]. cbn [app] in IH. rewrite IH by (cbn [length] in Hn; lia). reflexivity. }
  assert (R : reads F (34 :: 34 :: 34 :: s ++ [34; 34; 34] ++ lf) (QStr s) []).
  { intros n Hn'. destruct n as [|n]; [lia|]. rewrite scan_plain by reflexivity.
    change ((34 =? c_plus) || (34 =? c_minus) || is_digit 34) with false. change (34 =? c_quote) with true. cbv iota. unfold q_string. cbn [cur tl].
    change (34 =? c_quote) with true. cbv iota. rewrite (Hb s Hs); [reflexivity|]. rewrite !app_length. cbn [length lf]. lia. }
  assert (V : vreads F (34 :: 34 :: 34 :: s ++ [34; 34; 34] ++ lf) (TVStr s) []) by (apply (vreads_one F _ (QStr s)); [exact R | repeat split; discriminate | reflexivity]).
  destruct (key_reads F show kt k kk (61 :: 34 :: 34 :: 34 :: s ++ [34; 34; 34] ++ lf) Hk ltac:(right; reflexivity)) as (t & Ht & Hkt).
  pose proof (line_set F show [] {| o_map := []; o_active := None |} _ t k kk _ _ (TVStr s) [] Ht Hkt (reads_punct F 61 QEq _ ltac:(auto 6)) V) as L. cbn [o_check o_active] in L.
  destruct L as [N HN]. set (text := kt ++ 61 :: 34 :: 34 :: 34 :: s ++ [34; 34; 34] ++ lf) in *. rewrite <- (parse_enough F show text (S (S (length text + N)))) by lia. unfold parse_toml.
  destruct (HN (S (length text + N)) ltac:(lia) (q_ln (q_start text))) as [ln' E].
  change {| q_inp := text; q_ln := q_ln (q_start text) |} with (q_start text) in E.
  destruct (line_end F show (length text + N) [] (o_insert (full_key [] k) (TVStr s) {| o_map := []; o_active := None |}) [] ln' [] (reads_eof F)) as [ln2 E2].
  remember (length text + N)%nat as n. remember (S n) as n1. cbn [q_lines]. unfold qbind at 1. rewrite E. subst n1. cbn [q_lines]. unfold qbind. rewrite E2. reflexivity.
Qed.
Print Assumptions C45_triple_partial.
Example C45_ex : tkey (chars "a") (chars "a") Bare /\ Forall (fun x => x <> 0) (chars "say ""hi""\" ++ [10; 0x1F600]).
Proof. split; [t_bare | cbn; repeat constructor; discriminate]. Qed.

(** * C46 *)
(** The result depends on the entries alone, not on the space and comments between them. *)
Theorem C46_space_partial F show es t1 t2 : tdoc F es t1 -> tdoc F es t2 -> toml_parse F show t1 = toml_parse F show t2.
Proof. intros H1 H2. rewrite (parse_doc F show es t1 H1), (parse_doc F show es t2 H2). reflexivity. Qed.
Print Assumptions C46_space_partial.
(** Any space and comments may be put before a document. *)
Theorem C46_prefix F show es text g : tdoc F es text -> tgap g -> toml_parse F show (g ++ text) = toml_parse F show text.
Proof.
  intros H Hg. apply (C46_space_partial F show es); [|exact H].
  destruct H; [apply td_end | rewrite app_assoc; apply td_comment | rewrite app_assoc; eapply td_set | rewrite app_assoc; eapply td_table | rewrite app_assoc; eapply td_tables];
    try eassumption; apply tgap_app; assumption.
Qed.
Print Assumptions C46_prefix.
(** A comment right after a word is not seen as one. *)
Theorem C46_refuted F show : (exists e, toml_parse F show (chars "a=true#c") = Err e) /\ toml_parse F show (chars "a=true #c") = Ok [(chars "a", TVBool true)].
Proof. split; [eexists|]; vm_compute; reflexivity. Qed.
Print Assumptions C46_refuted.
Example C46_ex F : tdoc F [ESet (chars "a") (TVStr (chars "1"))] (chars "a=""1""") /\ tdoc F [ESet (chars "a") (TVStr (chars "1"))] (chars "#x" ++ lf ++ chars "a = ""1"" # y").
Proof.
  split.
  - refine (td_set _ [] [97] [97] Bare [] [] (34 :: [49] ++ [34]) _ FreeEnd _ _ gap_nil _ _ _ _ I _); [t_bare | constructor | constructor | | apply td_end; constructor].
    t_str.
  - refine (td_set _ (35 :: [120] ++ 10 :: []) [97] [97] Bare [32] [32] (34 :: [49] ++ [34]) _ FreeEnd ([32] ++ 35 :: chars " y") _ _ _ _ _ _ I _); [| t_bare | t_blanks | t_blanks | |].
    + apply tg_comment; [repeat constructor; lia | constructor].
    + t_str.
    + apply td_comment; [t_gap | cbn; repeat constructor; lia].
Qed.

(** * C47 *)
Theorem C47_array_partial F show kt k kk s l : tkey kt k kk -> titems F s l -> toml_parse F show (kt ++ 61 :: 91 :: s ++ [93]) = Ok [(k, TVArr l)].
Proof.
  intros Hk Hs. pose proof (one_set F show kt k kk (TVArr l) (91 :: s ++ [93]) FreeEnd [] [] Hk) as X. cbn [app] in X. rewrite app_nil_r in X.
  apply X; [apply tv_arr; exact Hs | exact I | constructor | left; reflexivity].
Qed.
Print Assumptions C47_array_partial.
(** Values of the same text stand for the same elements, whatever the space; missing: words
    before a comma. *)
Theorem C47_refuted F show : (exists e, toml_parse F show (chars "a=[true, false]") = Err e) /\
  toml_parse F show (chars "a=[true , false]") = Ok [(chars "a", TVArr [TVBool true; TVBool false])].
Proof. split; [eexists|]; vm_compute; reflexivity. Qed.
Print Assumptions C47_refuted.
Example C47_ex F : titems F (chars " ""x"",[ [],]") [TVStr (chars "x"); TVArr [TVArr []]].
Proof.
  refine (ti_more F [32] (34 :: [120] ++ [34]) _ FreeEnd [] (chars "[ [],]") _ _ _ _ I _); [t_gap | | constructor |].
  { t_str. }
  refine (ti_last F [] (91 :: chars " []," ++ [93]) _ FreeEnd [] _ _ _ I); [constructor | | constructor].
  apply tv_arr. refine (ti_more F [32] (91 :: [] ++ [93]) _ FreeEnd [] [] [] _ _ _ I _); [t_gap | apply tv_arr; constructor; constructor | constructor | constructor; constructor].
Qed.

(** * C48 *)
Theorem C48_integer F show kt k kk sg neg d u : tkey kt k kk -> sign sg neg -> number_of d u ->
  (if neg then decimal d <= 2 ^ 63 else decimal d < 2 ^ 63) ->
  toml_parse F show (kt ++ 61 :: sg ++ u) = Ok [(k, TVNum (f64_of_z F (if neg then - Z.of_N (decimal d) else Z.of_N (decimal d))))].
Proof.
  intros Hk Hs Hd Hb. pose proof (one_set F show kt k kk _ (sg ++ u) NumEnd [] [] Hk (tv_int F sg neg d u Hs Hd Hb)) as X. rewrite !app_nil_r in X.
  apply X; [left; reflexivity | constructor | left; reflexivity].
Qed.
Print Assumptions C48_integer.
(** Anything else is refused, whatever comes after it. *)
Theorem C48_overflow F show kt k kk sg neg d u r : tkey kt k kk -> sign sg neg -> number_of d u -> follows NumEnd r ->
  (if neg then 2 ^ 63 < decimal d else 2 ^ 63 <= decimal d) ->
  exists e, toml_parse F show (kt ++ 61 :: sg ++ u ++ r) = Err e.
Proof.
  intros Hk Hs Hd Hr Hb. destruct (ends_num r Hr) as [Hr1 _].
  assert (Q : q_i64 (minus neg ++ d) = None).
  { destruct (num_first d u Hd) as (x & d' & -> & Hx). pose proof (spread_digits _ _ (proj1 Hd)) as Hall. rewrite TextGram.decimal_val in Hb. destruct neg; cbn [minus app].
    - unfold q_i64. change (45 =? c_minus) with true. cbv iota. unfold parse_i64. change (45 =? c_minus) with true. rewrite Hall.
      replace (digits_val (x :: d') <=? 2 ^ 63) with false by (symmetry; apply N.leb_gt; exact Hb). reflexivity.
    - unfold q_i64. unfold c_minus. rewrite (proj2 (N.eqb_neq x 45)) by lia. rewrite Hall.
      replace (digits_val (x :: d') <? 2 ^ 63) with false by (symmetry; apply N.ltb_ge; exact Hb). reflexivity. }
  assert (R : forall n, (length (sg ++ u ++ r) < n)%nat -> exists l w, q_scan F n (sg ++ u ++ r) = (l, inr w)).
  { intros n Hn. destruct n as [|n]; [lia|]. pose proof Hd as [[Hu Ed] (x & u' & Eu & Hx)]. subst u. cbn [app].
    rewrite (scan_num F n sg neg x (u' ++ r) Hs (or_introl Hx)). inversion Hu; subst.
    change (sg ++ x :: u' ++ r) with (sg ++ (x :: u') ++ r). rewrite (q_num_digits F sg neg x u' r Hs Hx) by (try assumption; apply num_ends_us; exact Hr1).
    rewrite after_int by exact Hr1. unfold c_us in Q. rewrite Q. exists r, (chars "tokenizer"). destruct neg; reflexivity. }
  destruct (key_reads F show kt k kk (61 :: sg ++ u ++ r) Hk ltac:(right; reflexivity)) as (t & Ht & Hkt). destruct Hkt as [Hkt1 Hkt2].
  unfold toml_parse, parse_toml. cbn [q_lines]. unfold qbind at 1. unfold q_line_. unfold qbind at 1.
  destruct (next_reads F _ t _ (q_ln (q_start (kt ++ 61 :: sg ++ u ++ r))) Ht) as [ln1 E1].
  change {| q_inp := kt ++ 61 :: sg ++ u ++ r; q_ln := q_ln (q_start (kt ++ 61 :: sg ++ u ++ r)) |} with (q_start (kt ++ 61 :: sg ++ u ++ r)) in E1. rewrite E1.
  destruct (next_reads F (61 :: sg ++ u ++ r) QEq _ ln1 (reads_punct F 61 QEq _ ltac:(auto 6))) as [ln2 E2].
  destruct (R (S (length (sg ++ u ++ r))) ltac:(lia)) as (l & w & E3).
  assert (KV : forall n key, exists s e, q_key_value F n [] key {| o_map := []; o_active := None |} {| q_inp := 61 :: sg ++ u ++ r; q_ln := ln1 |} = (s, Err e)).
  { intros n key. unfold q_key_value. cbn [o_check o_active]. unfold qbind at 1. rewrite E2. unfold qbind at 1. unfold q_next. cbn [q_inp]. rewrite E3. eauto. }
  destruct kk; [subst t| |subst t]; [| destruct t; try contradiction |]; unfold qbind;
    match goal with |- context [q_key_value F ?n [] ?key ?o ?s] => destruct (KV n key) as (s' & e & E); rewrite E; exists e; reflexivity end.
Qed.
Print Assumptions C48_overflow.
(** A number with a point is the standard library's reading of its digits. *)
Theorem C48_float F show kt k kk sg neg d u e w b : tkey kt k kk -> sign sg neg -> number_of d u -> spread e w ->
  f64_parse F (minus neg ++ d ++ 46 :: e) = Some b -> toml_parse F show (kt ++ 61 :: sg ++ u ++ 46 :: w) = Ok [(k, TVNum b)].
Proof.
  intros Hk Hs Hd He Hb. pose proof (one_set F show kt k kk _ (sg ++ u ++ 46 :: w) NumEnd [] [] Hk (tv_float F sg neg d u e w b Hs Hd He Hb)) as X. rewrite !app_nil_r in X.
  apply X; [left; reflexivity | constructor | left; reflexivity].
Qed.
Print Assumptions C48_float.
Example C48_ex : sign [45] true /\ number_of (chars "9223372036854775809") (chars "922_3372_036854775809") /\ 2 ^ 63 < decimal (chars "9223372036854775809") /\ follows NumEnd lf.
Proof.
  split; [right; right; auto|]. split; [|split; [vm_compute; reflexivity | right; cbn; auto]].
  split; [split; [unfold chars; cbn [List.map]; apply Forall_forall; intros x Hx; vm_compute in Hx; intuition lia | reflexivity]|]. exists 57, (chars "22_3372_036854775809"). split; [reflexivity | lia].
Qed.
