(** C23, C24, C25, C38: objects and their members. *)
From Coq Require Import Permutation.
From Verif Require Import Base Utf8 Types BinModel Text TextModel TextSim TextToks TextLex TextRead SpecText SpecGram TextRound TextGram TextFuel TextLocal TextRun SpecObj TextEmbed TextObj TextEx PropsBin PropsText.
Local Open Scope N_scope.

(** The last member of a concatenation. *)
Lemma last_app k x l r : last_member k x (l ++ r) <-> last_member k x r \/ (~ In k (map fst r) /\ last_member k x l).
Proof.
  split.
  - intros (a & b & E & Hb). assert (Hc : (exists a', a = l ++ a') \/ (exists b', l = a ++ (k, x) :: b')).
    { revert a E. induction l as [|z l IH]; intros a E; [left; exists a; reflexivity|]. destruct a as [|z2 a]; cbn in E.
      - injection E as -> E. right. exists l. reflexivity.
      - injection E as -> E. destruct (IH a E) as [(a' & ->)|(b' & ->)]; [left; exists a'; reflexivity | right; exists b'; reflexivity]. }
    destruct Hc as [(a' & ->)|(b' & ->)].
    + left. rewrite <- app_assoc in E. apply app_inv_head in E. exists a', b. auto.
    + right. rewrite <- app_assoc in E. apply app_inv_head in E. cbn in E. injection E as <-. rewrite map_app, in_app_iff in Hb. split; [tauto|].
      exists a, b'. split; [reflexivity | tauto].
  - intros [(a & b & -> & Hb)|(Hn & a & b & -> & Hb)].
    + exists (l ++ a), b. rewrite <- app_assoc. auto.
    + exists a, (b ++ r). rewrite <- app_assoc. split; [reflexivity|]. rewrite map_app, in_app_iff. tauto.
Qed.
Lemma last_in k x l : last_member k x l -> In k (map fst l).
Proof. intros (a & b & -> & _). rewrite map_app. apply in_or_app. right. left. reflexivity. Qed.
Lemma last_one k x k' x' : last_member k x [(k', x')] -> k' = k.
Proof. intro H. apply last_in in H. destruct H as [H|[]]. exact H. Qed.
Lemma last_cut k x k' x' pre r : In k' (map fst r) \/ k' <> k -> (last_member k x (pre ++ (k', x') :: r) <-> last_member k x (pre ++ r)).
Proof.
  intro Hk. change (pre ++ (k', x') :: r) with (pre ++ [(k', x')] ++ r). rewrite !last_app, map_app, in_app_iff. cbn [map fst In].
  pose proof (last_one k x k' x') as H1. split.
  - intros [[H|[H2 H]]|[H2 H]]; [tauto| |tauto]. exfalso. specialize (H1 H). subst k'. tauto.
  - intros [H|[H2 H]]; [tauto|]. right. split; [|exact H]. intros [[Q|[]]|Q]; [|tauto]. subst k'. tauto.
Qed.

Section Objects.
  Variables (F : flt) (c : cfg) (G : env) (fm : fmt).
  Notation de := (de_text tok_lexer F c G fm).
  Notation parses := (parses F c G fm).

  Lemma named_step i dflt cn fs : nth_error G i = Some (DStruct dflt cn fs) ->
    forall n u, de (S n) (TNamed i) u = pmap VSeq (de_named tok_lexer fm (de n) n dflt fs) u.
  Proof. intros HG n u. cbn [de_text]. rewrite HG. reflexivity. Qed.

  (** What a text of members is for a struct: exactly the values of [named_value]. *)
  Theorem C24_object_value i dflt cn fs ms text v :
    nth_error G i = Some (DStruct dflt cn fs) -> unique_keys fs -> object_text F fm ms text ->
    (parses (TNamed i) text (Ok v) <-> exists vs, v = VSeq vs /\ named_value F c G fm dflt fs ms vs).
  Proof.
    intros HG Hu Ho. destruct (object_lexes F fm _ _ Ho) as (ls & tr & Hl & Hm). pose proof (st0_at2 F fm _ _ _ Hl) as A0.
    pose proof (named_step i dflt cn fs HG) as Hstep. split.
    - intro H. destruct (parses_inv_ok F c G fm _ _ _ _ _ Hl (or_intror eq_refl) H) as (N & u' & HN).
      specialize (HN (S N) ltac:(lia)). rewrite Hstep in HN. unfold pmap, pbind in HN.
      destruct (de_named tok_lexer fm (de N) N dflt fs _) as [u2 [vs|e|p|]] eqn:E; try discriminate. injection HN as _ <-.
      exists vs. split; [reflexivity|]. eapply (named_inv F c G fm dflt fs Hu N ms ls tr vs [] false); [exact Hm | | right; reflexivity | exact E].
      unfold obj_toks. rewrite app_nil_r. exact A0.
    - intros (vs & -> & Hv). destruct (named_fwd F c G fm dflt fs Hu ms ls tr vs Hm Hv) as [N HN].
      apply (parses_ok F c G fm _ _ _ _ _ Hl (or_intror eq_refl)). exists (S N). intros n Hn. destruct n as [|n]; [lia|].
      rewrite Hstep. unfold pmap, pbind.
      match goal with |- context [de_named _ _ _ _ _ _ ?u] => destruct (HN n ltac:(lia) [] false u eq_refl) as (u' & E & _) end; [unfold obj_toks; rewrite app_nil_r; exact A0|].
      rewrite E. reflexivity.
  Qed.

  (** C24: the order of the members does not matter as long as no name is repeated. *)
  Lemma last_perm k x ms1 ms2 : Permutation ms1 ms2 -> NoDup (map fst ms1) -> last_member k x ms1 -> last_member k x ms2.
  Proof.
    intros P N (a & b & -> & _). assert (Hin : In (k, x) ms2) by (eapply Permutation_in; [exact P | apply in_or_app; right; left; reflexivity]).
    apply in_split in Hin as (a2 & b2 & ->). exists a2, b2. split; [reflexivity|]. intro Q.
    pose proof (Permutation_NoDup (Permutation_map fst P) N) as N2. rewrite map_app in N2. cbn [map fst] in N2. apply NoDup_remove_2 in N2.
    apply N2, in_or_app. right. exact Q.
  Qed.
  Lemma named_perm dflt fs ms1 ms2 vs : Permutation ms1 ms2 -> NoDup (map fst ms1) -> named_value F c G fm dflt fs ms1 vs -> named_value F c G fm dflt fs ms2 vs.
  Proof.
    intros P N (H1 & H2 & H3). assert (Hin : forall m, In m ms2 -> In m ms1) by (intros m Hm; eapply Permutation_in; [apply Permutation_sym; exact P | exact Hm]). split; [|split].
    - eapply Forall2_nth; [exact H1|]. intros _ f v _ Hf. unfold field_of in *. destruct (f_skip f); [exact Hf|]. destruct Hf as [(x & Hl & He)|[Hn Hw]].
      + left. exists x. split; [eapply last_perm; eassumption | exact He].
      + right. split; [|exact Hw]. intro Q. apply Hn. eapply Permutation_in; [apply Permutation_sym, Permutation_map; exact P | exact Q].
    - intros k x f Hm. apply (H2 k x f (Hin _ Hm)).
    - unfold extra_ok in *. destruct fm.
      + intro E. rewrite (H3 E) in P. apply Permutation_nil. exact P.
      + intros k x Hm. apply (H3 k x (Hin _ Hm)).
  Qed.
  Theorem C24_member_order i dflt cn fs ms1 ms2 text1 text2 v :
    nth_error G i = Some (DStruct dflt cn fs) -> unique_keys fs -> object_text F fm ms1 text1 -> object_text F fm ms2 text2 ->
    Permutation ms1 ms2 -> NoDup (map fst ms1) ->
    (parses (TNamed i) text1 (Ok v) <-> parses (TNamed i) text2 (Ok v)).
  Proof.
    intros HG Hu H1 H2 P N. rewrite (C24_object_value i dflt cn fs ms1 text1 v HG Hu H1), (C24_object_value i dflt cn fs ms2 text2 v HG Hu H2).
    assert (N2 : NoDup (map fst ms2)) by (eapply Permutation_NoDup; [apply Permutation_map; exact P | exact N]).
    split; intros (vs & E & Hv); exists vs; (split; [exact E|]).
    - eapply named_perm; eassumption.
    - eapply named_perm; [apply Permutation_sym; exact P | exact N2 | exact Hv].
  Qed.
  (** C24: of two members with the same name the last counts, provided that the
      first one is a value of the field too. *)
  Lemma field_of_same dflt ms1 ms2 g y : (forall x, last_member (key_of_field g) x ms1 <-> last_member (key_of_field g) x ms2) ->
    (In (key_of_field g) (map fst ms1) <-> In (key_of_field g) (map fst ms2)) ->
    field_of F c G fm dflt ms1 g y -> field_of F c G fm dflt ms2 g y.
  Proof.
    unfold field_of. intros Hl Hi. destruct (f_skip g); [auto|]. intros [(x & Hx & He)|[Hn Hw]].
    - left. exists x. split; [apply Hl; exact Hx | exact He].
    - right. split; [|exact Hw]. intro Q. apply Hn, Hi, Q.
  Qed.
  Theorem C24_last_member_wins i dflt cn fs f k x1 x2 w pre mid post text1 text2 v :
    nth_error G i = Some (DStruct dflt cn fs) -> unique_keys fs ->
    In f fs -> f_skip f = false -> key_of_field f = k -> field_entire F c G fm f x1 w ->
    object_text F fm (pre ++ (k, x1) :: mid ++ (k, x2) :: post) text1 -> object_text F fm (pre ++ mid ++ (k, x2) :: post) text2 ->
    (parses (TNamed i) text1 (Ok v) <-> parses (TNamed i) text2 (Ok v)).
  Proof.
    intros HG Hu Hf Hs Hk He H1 H2. rewrite (C24_object_value i dflt cn fs _ text1 v HG Hu H1), (C24_object_value i dflt cn fs _ text2 v HG Hu H2).
    set (ms1 := pre ++ (k, x1) :: mid ++ (k, x2) :: post). set (ms2 := pre ++ mid ++ (k, x2) :: post).
    assert (Hin : forall z, In z (map fst ms1) <-> In z (map fst ms2)).
    { intro z. unfold ms1, ms2. rewrite !map_app, !in_app_iff. cbn [map fst In]. rewrite !map_app, !in_app_iff. cbn [map fst In]. tauto. }
    assert (Hcut : forall z, In k (map fst (mid ++ (k, x2) :: post)) \/ k <> z) by (intro z; left; rewrite map_app; apply in_or_app; right; left; reflexivity).
    assert (Hsub : forall m, In m ms2 -> In m ms1).
    { intro m. unfold ms1, ms2. rewrite !in_app_iff. cbn [In]. rewrite !in_app_iff. cbn [In]. tauto. }
    assert (Hv : forall vs, named_value F c G fm dflt fs ms1 vs <-> named_value F c G fm dflt fs ms2 vs).
    { intro vs. split; intros (Q1 & Q2 & Q3); (split; [|split]).
      - eapply Forall2_nth; [exact Q1|]. intros _ g y _ Hg. eapply field_of_same; [| |exact Hg]; [intro x; apply last_cut; auto | apply Hin].
      - intros k0 x0 g Hm. apply (Q2 k0 x0 g (Hsub _ Hm)).
      - unfold extra_ok in *. destruct fm; [intro E; rewrite E in Hf; contradiction | intros k0 x0 Hm; apply (Q3 k0 x0 (Hsub _ Hm))].
      - eapply Forall2_nth; [exact Q1|]. intros _ g y _ Hg. eapply field_of_same; [| |exact Hg]; [intro x; apply iff_sym, last_cut; auto | apply iff_sym, Hin].
      - assert (Hc : forall k0 x0, In (k0, x0) ms1 -> In (k0, x0) ms2 \/ (k0, x0) = (k, x1)).
        { intros k0 x0. unfold ms1, ms2. rewrite !in_app_iff. cbn [In]. rewrite !in_app_iff. cbn [In]. intuition congruence. }
        intros k0 x0 g Hm Hg Hgs Hgk. destruct (Hc _ _ Hm) as [Hm2|E]; [apply (Q2 k0 x0 g Hm2 Hg Hgs Hgk)|].
        injection E as -> ->. assert (g = f); [|subst g; eauto]. apply In_nth_error in Hg as (p & Hp). apply In_nth_error in Hf as (q & Hq).
        assert (p = q) by (eapply (unique_pos fs Hu); eauto; congruence). subst q. congruence.
      - assert (Hc : forall k0 x0, In (k0, x0) ms1 -> In (k0, x0) ms2 \/ (k0, x0) = (k, x1)).
        { intros k0 x0. unfold ms1, ms2. rewrite !in_app_iff. cbn [In]. rewrite !in_app_iff. cbn [In]. intuition congruence. }
        unfold extra_ok in *. destruct fm; [intro E; rewrite E in Hf; contradiction|]. intros k0 x0 Hm.
        destruct (Hc _ _ Hm) as [Hm2|E]; [apply (Q3 k0 x0 Hm2)|]. injection E as -> ->. exists f. auto. }
    split; intros (vs & E & Q); exists vs; (split; [exact E | apply Hv; exact Q]).
  Qed.

  (** C25: a field that must be there and is not. *)
  Theorem C25_missing_field i dflt cn fs ms text pre f post vs :
    nth_error G i = Some (DStruct dflt cn fs) -> unique_keys fs -> object_text F fm ms text ->
    members_ok F c G fm fs ms -> extra_ok fm fs ms ->
    fs = pre ++ f :: post -> Forall2 (field_of F c G fm dflt ms) pre vs ->
    f_skip f = false -> ~ In (key_of_field f) (map fst ms) -> when_absent dflt f = None ->
    exists e, parses (TNamed i) text (Err e) /\ e_reason e = MissingKey (f_name f).
  Proof.
    intros HG Hu Ho Hm1 Hm2 Efs Hv Hs Hn Hw. destruct (object_lexes F fm _ _ Ho) as (ls & tr & Hl & Hm). pose proof (st0_at2 F fm _ _ _ Hl) as A0.
    destruct (named_missing F c G fm dflt fs Hu ms ls tr pre f post vs Hm Hm1 Hm2 Efs Hv Hs Hn Hw) as [N HN].
    apply (parses_reason F c G fm _ _ _ _ _ Hl (or_intror eq_refl)); [|discriminate]. exists (S N).
    rewrite (named_step i dflt cn fs HG). unfold pmap, pbind.
    match goal with |- context [de_named _ _ _ _ _ _ ?u] => destruct (HN N (le_n N) [] false u eq_refl) as (u' & e & E & Em) end; [unfold obj_toks; rewrite app_nil_r; exact A0|].
    rewrite E. exists e. auto.
  Qed.
End Objects.

(** C23: members no field is named after change nothing (JSON). *)
Theorem C23_unknown_ignored F c G i dflt cn fs k x pre post text1 text2 v :
  nth_error G i = Some (DStruct dflt cn fs) -> unique_keys fs -> fs <> [] -> ~ known fs k ->
  object_text F Json (pre ++ (k, x) :: post) text1 -> object_text F Json (pre ++ post) text2 ->
  (parses F c G Json (TNamed i) text1 (Ok v) <-> parses F c G Json (TNamed i) text2 (Ok v)).
Proof.
  intros HG Hu Hne Hk H1 H2. rewrite (C24_object_value F c G Json i dflt cn fs _ text1 v HG Hu H1), (C24_object_value F c G Json i dflt cn fs _ text2 v HG Hu H2).
  assert (Hf : forall g, In g fs -> f_skip g = false -> key_of_field g <> k) by (intros g Hg Hs E; apply Hk; exists g; auto).
  assert (Hv : forall vs, named_value F c G Json dflt fs (pre ++ (k, x) :: post) vs <-> named_value F c G Json dflt fs (pre ++ post) vs).
  { intro vs.
    assert (Hfo : forall g y, In g fs -> (field_of F c G Json dflt (pre ++ (k, x) :: post) g y <-> field_of F c G Json dflt (pre ++ post) g y)).
    { intros g y Hg. destruct (f_skip g) eqn:Es; [unfold field_of; rewrite Es; tauto|]. specialize (Hf g Hg Es).
      assert (Hi : In (key_of_field g) (map fst (pre ++ (k, x) :: post)) <-> In (key_of_field g) (map fst (pre ++ post))).
      { rewrite !map_app, !in_app_iff. cbn [map fst In]. intuition congruence. }
      assert (Hl : forall z, last_member (key_of_field g) z (pre ++ (k, x) :: post) <-> last_member (key_of_field g) z (pre ++ post)).
      { intro z. apply last_cut. right. congruence. }
      split; apply field_of_same; auto; [intro z; apply iff_sym, Hl | apply iff_sym, Hi]. }
    split; intros (Q1 & Q2 & Q3); (split; [|split]).
    - eapply Forall2_nth; [exact Q1|]. intros p g y Hp Hg. apply Hfo; [eapply nth_error_In; exact Hp | exact Hg].
    - intros k0 x0 g Hm. apply (Q2 k0 x0 g). rewrite in_app_iff in *. cbn. tauto.
    - intro E. congruence.
    - eapply Forall2_nth; [exact Q1|]. intros p g y Hp Hg. apply Hfo; [eapply nth_error_In; exact Hp | exact Hg].
    - intros k0 x0 g Hm Hg Hs Hgk. apply (Q2 k0 x0 g); auto. rewrite in_app_iff in *. cbn in Hm. destruct Hm as [Hm|[Hm|Hm]]; auto.
      injection Hm as -> ->. exfalso. exact (Hf g Hg Hs Hgk).
    - intro E. congruence. }
  split; intros (vs & E & Q); exists vs; (split; [exact E | apply Hv; exact Q]).
Qed.

(** C38: in RON the first such member is an error that names it. *)
Theorem C38_unknown_rejected F c G i dflt cn fs ms k x pre post text :
  nth_error G i = Some (DStruct dflt cn fs) -> unique_keys fs -> fs <> [] ->
  object_text F Ron ms text -> ms = pre ++ (k, x) :: post ->
  members_ok F c G Ron fs pre -> (forall k' x', In (k', x') pre -> known fs k') -> ~ known fs k ->
  exists e, parses F c G Ron (TNamed i) text (Err e) /\ e_reason e = UnexpectedKey k.
Proof.
  intros HG Hu Hne Ho Ems Hm1 Hm2 Hk. destruct (object_lexes F Ron _ _ Ho) as (ls & tr & Hl & Hm). pose proof (st0_at2 F Ron _ _ _ Hl) as A0.
  destruct (named_unexpected F c G Ron dflt fs Hu ms ls tr pre k x post Hm eq_refl Hne Ems Hm1 Hm2 Hk) as [N HN].
  apply (parses_reason F c G Ron _ _ _ _ _ Hl (or_intror eq_refl)); [|discriminate]. exists (S N).
  rewrite (named_step F c G Ron i dflt cn fs HG). unfold pmap, pbind.
  match goal with |- context [de_named _ _ _ _ _ _ ?u] => destruct (HN N (le_n N) [] false u eq_refl) as (u' & e & E & Em) end; [unfold obj_toks; rewrite app_nil_r; exact A0|].
  rewrite E. exists e. auto.
Qed.

(** ** Examples: [struct P { a: u8, b: Option<u8>, #[nserde(rename = "C")] c: String }] *)
Definition GP : env := [DStruct false false
  [fld (chars "a") false (VZ 0) (TInt U8); opt_field (chars "b") (TInt U8); renamed (chars "C") (fld (chars "c") false (VStr []) TStr)]].
Lemma int_literal F d : all_digits d -> decimal d < 2 ^ 64 -> number_ok F d.
Proof.
  intros Hd Hb. exists [], d, [], []. rewrite !app_nil_r. split; [reflexivity|]. split; [|split; [|split]].
  - split; [auto|]. auto.
  - intros [].
  - intros _ _. exact Hb.
  - intros [H|H]; congruence.
Qed.
Ltac gap_tac := repeat (first [apply gap_nil | apply gap_ws; [unfold ws_char; auto 6|]]).
Ltac plain_tac := repeat (first [apply ch_end | apply ch_plain; [discriminate | discriminate | discriminate|]]).
Ltac value_tac := first
  [ match goal with |- value_text _ _ (34 :: ?b) => apply (va_str _ _ (removelast b)) end; eexists; cbn; plain_tac; fail
  | apply va_num, int_literal; [split; [discriminate | repeat constructor; discriminate] | vm_compute; reflexivity] ].
Definition ms_ok : list (str * str) := [(chars "C", chars """hi"""); (chars "a", chars "5")].
Definition ms_extra : list (str * str) := [(chars "zz", chars "[1, ""x""]"); (chars "C", chars """hi"""); (chars "a", chars "5")].
Definition ms_twice : list (str * str) := [(chars "C", chars """hi"""); (chars "a", chars "9"); (chars "a", chars "5")].
Ltac inside_tac F fm := apply (va_group F fm 91 93 (chars "1, ""x""")); [left; auto|];
  apply (in_num F fm (chars "1")); [apply int_literal; [split; [discriminate | repeat constructor; discriminate] | vm_compute; reflexivity] | right; cbn; tauto|];
  apply in_mark; [auto|]; apply (in_gap F fm (chars " ")); [gap_tac|]; apply (in_str F fm (chars "x") []); [eexists; cbn; plain_tac | constructor].
Lemma ms_extra_text : object_text toy Json ms_extra (chars " {""zz"" :[1, ""x""],""C"": ""hi"",""a"":5}").
Proof.
  exists (chars " "), [], (chars """zz"" :[1, ""x""],""C"": ""hi"",""a"":5"). split; [reflexivity|]. split; [gap_tac|]. split; [gap_tac|]. left.
  apply (mt_more _ _ _ (chars """zz"" :[1, ""x""]") _ (chars """C"": ""hi"",""a"":5")).
  { exists [], (chars """zz"""), (chars " "), [], []. split; [reflexivity|]. split; [exists (chars "zz"); split; [cbn; plain_tac | reflexivity]|].
    do 4 (split; [gap_tac|]). inside_tac toy Json. }
  apply (mt_more _ _ _ (chars """C"": ""hi""") _ (chars """a"":5")).
  { exists [], (chars """C"""), [], (chars " "), []. split; [reflexivity|]. split; [exists (chars "C"); split; [cbn; plain_tac | reflexivity]|].
    do 4 (split; [gap_tac|]). cbn [snd]. change (chars """hi""") with (quoted (chars "hi")). apply va_str. eexists. cbn. plain_tac. }
  apply mt_one. exists [], (chars """a"""), [], [], []. split; [reflexivity|]. split; [exists (chars "a"); split; [cbn; plain_tac | reflexivity]|].
  do 4 (split; [gap_tac|]). value_tac.
Qed.
Lemma ms_ok_text : object_text toy Json ms_ok (chars "{""C"": ""hi"",""a"":5}").
Proof.
  exists [], [], (chars """C"": ""hi"",""a"":5"). split; [reflexivity|]. split; [gap_tac|]. split; [gap_tac|]. left.
  apply (mt_more _ _ _ (chars """C"": ""hi""") _ (chars """a"":5")).
  { exists [], (chars """C"""), [], (chars " "), []. split; [reflexivity|]. split; [exists (chars "C"); split; [cbn; plain_tac | reflexivity]|].
    do 4 (split; [gap_tac|]). cbn [snd]. change (chars """hi""") with (quoted (chars "hi")). apply va_str. eexists. cbn. plain_tac. }
  apply mt_one. exists [], (chars """a"""), [], [], []. split; [reflexivity|]. split; [exists (chars "a"); split; [cbn; plain_tac | reflexivity]|].
  do 4 (split; [gap_tac|]). value_tac.
Qed.
Lemma GP_unique : unique_keys [fld (chars "a") false (VZ 0) (TInt U8); opt_field (chars "b") (TInt U8); renamed (chars "C") (fld (chars "c") false (VStr []) TStr)].
Proof. unfold unique_keys. cbn. repeat constructor; cbn; intuition discriminate. Qed.
Example C23_ex : ~ known [fld (chars "a") false (VZ 0) (TInt U8); opt_field (chars "b") (TInt U8); renamed (chars "C") (fld (chars "c") false (VStr []) TStr)] (chars "zz") /\
  deserialize_text toy c64 GP Json 12 (TNamed 0) (chars " {""zz"" :[1, ""x""],""C"": ""hi"",""a"":5}") = Ok (VSeq [VZ 5; VNone; VStr (chars "hi")]) /\
  deserialize_text toy c64 GP Json 12 (TNamed 0) (chars "{""C"": ""hi"",""a"":5}") = Ok (VSeq [VZ 5; VNone; VStr (chars "hi")]).
Proof.
  split; [|split; vm_compute; reflexivity]. intros (f & [<-|[<-|[<-|[]]]] & _ & H); discriminate.
Qed.
Example C24_ex : deserialize_text toy c64 GP Json 12 (TNamed 0) (chars "{""a"":9,""C"":""hi"",""a"":5}") = Ok (VSeq [VZ 5; VNone; VStr (chars "hi")]).
Proof. vm_compute; reflexivity. Qed.
Example C25_ex : exists e, deserialize_text toy c64 GP Json 12 (TNamed 0) (chars "{""a"":5}") = Err e /\ e_reason e = MissingKey (chars "c").
Proof. eexists. split; [vm_compute; reflexivity | reflexivity]. Qed.
Example C38_ex : exists e, deserialize_text toy c64 GP Ron 12 (TNamed 0) (chars "(a:5,zz:1,C:""hi"")") = Err e /\ e_reason e = UnexpectedKey (chars "zz").
Proof. eexists. split; [vm_compute; reflexivity | reflexivity]. Qed.

(** C23 does not hold of members with a literal the lexer has no token for: the
    exponent with a plus sign of RFC 8259, integers from 2^64 on. *)
Theorem C23_refuted_plus_exponent : rfc_json (chars "{""zz"":1e+5,""a"":5,""C"":""""}") /\
  rejects toy c64 GP Json (TNamed 0) (chars "{""zz"":1e+5,""a"":5,""C"":""""}").
Proof.
  split.
  - apply (js_obj rfc_ws rfc_number rfc_body (chars """zz"":1e+5,""a"":5,""C"":""""")).
    apply (me_more _ _ _ [] (chars "zz") [] [] (chars "1e+5") [] (chars """a"":5,""C"":""""")); try (constructor; fail).
    { split; [eexists; cbn; plain_tac | repeat constructor; discriminate]. }
    { apply js_num. exists [], (chars "1"), [], (chars "e+5"). split; [reflexivity|]. split.
      - split; [auto|]. split; [split; [discriminate | repeat constructor; discriminate]|]. split; [auto|]. right.
        exists 101, [43], (chars "5"). split; [reflexivity|]. split; [auto|]. split; [auto|]. split; [discriminate | repeat constructor; discriminate].
      - right. discriminate. }
    apply (me_more _ _ _ [] (chars "a") [] [] (chars "5") [] (chars """C"":""""")); try (constructor; fail).
    { split; [eexists; cbn; plain_tac | repeat constructor; discriminate]. }
    { apply js_num. exists [], (chars "5"), [], []. split; [reflexivity|]. split.
      - split; [auto|]. split; [split; [discriminate | repeat constructor; discriminate]|]. auto.
      - right. discriminate. }
    apply (me_one _ _ _ [] (chars "C") [] [] (chars """""") []); try (constructor; fail).
    { split; [eexists; cbn; plain_tac | repeat constructor; discriminate]. }
    { apply (js_str _ _ _ []). split; [eexists; constructor | constructor]. }
  - eexists. eapply (de_text_returns toy c64 GP Json 12); [vm_compute; reflexivity | discriminate].
Qed.
Theorem C23_refuted_big_integer : rejects toy c64 GP Json (TNamed 0) (chars "{""zz"":18446744073709551616,""a"":5,""C"":""""}").
Proof. eexists. eapply (de_text_returns toy c64 GP Json 12); [vm_compute; reflexivity | discriminate]. Qed.

(** C25: a field that is missing and may be has its default in the result; no other outcome. *)
Theorem C25_absent_default F c G fm i dflt cn fs ms text vs p f :
  nth_error G i = Some (DStruct dflt cn fs) -> unique_keys fs -> object_text F fm ms text ->
  parses F c G fm (TNamed i) text (Ok (VSeq vs)) -> nth_error fs p = Some f -> f_skip f = false -> ~ In (key_of_field f) (map fst ms) ->
  exists v, when_absent dflt f = Some v /\ nth_error vs p = Some v.
Proof.
  intros HG Hu Ho H Hp Hs Hn. apply (C24_object_value F c G fm i dflt cn fs ms text _ HG Hu Ho) in H as (vs' & E & Hv & _). injection E as <-.
  clear HG Hu. revert p Hp. induction Hv as [|g v fs' vs' Hg Hv IH]; intros p Hp; [destruct p; discriminate|].
  destruct p as [|p]; cbn [nth_error] in *.
  - injection Hp as ->. exists v. unfold field_of in Hg. rewrite Hs in Hg. destruct Hg as [(x & Hl & _)|[_ Hw]]; [exfalso; apply Hn; eapply last_in; exact Hl | auto].
  - apply IH. exact Hp.
Qed.
