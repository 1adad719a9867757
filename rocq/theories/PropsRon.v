(** C63: deserialize_ron reads the document a text denotes. *)
From Verif Require Import Base Utf8 Types BinModel PropsBin TyAll Text TextModel TextFuel TextLex TextToks TextRead TextLocal TextRun SpecText SpecGram SpecObj SpecList TextEmbed TextObj TextList TextEx SpecTerm TextTerm TextGood PropsTerm PropsObj SpecDoc Doc PropsDoc SpecRon RonDoc.
Local Open Scope N_scope.

(** C63: for every RON text (numbers the lexer has a token for; any strings and
    escapes; comments and trailing commas), every type and every value:
    [T::deserialize_ron(text)] is [Ok(v)] exactly if [v] is what the document denoted
    means for [T], or if the document is a name with brackets after it and the name
    alone means [v] (what is after the name is then not looked at). *)
Theorem C63_ron_document F c G t d text v : Forall distinct_ron G -> rdocument F d text ->
  (parses F c G Ron t text (Ok v) <->
   exists n, rmeans F c G n t d v \/ exists w p, d = RVar w p /\ rmeans F c G n t (RWord w) v).
Proof.
  intros HG (g1 & x & g2 & -> & G1 & G2 & Hx). destruct (rdenotes_vtext F d x Hx) as (l & Hv & Sh).
  pose proof (lexes_end F Ron _ _ (item_lexes F Ron g1 x g2 l G1 G2 Hv)) as Hl. pose proof (vt_at2 F x l Hv) as A0.
  assert (Vl : vtoks Ron l) by apply Hv.
  assert (Hword : forall w p, d = RVar w p -> vtext F Ron w [LId w] /\ (RR F c G t [LId w] v <-> exists n, rmeans F c G n t (RWord w) v)).
  { intros w p ->. inversion Hx; subst. assert (Hw : rdenotes F (RWord w) w) by (constructor; assumption).
    destruct (rdenotes_vtext F _ _ Hw) as (lw & Hvw & Shw). cbn [shape] in Shw. subst lw. split; [exact Hvw|].
    rewrite <- (RR_entire F c G t w _ v Hvw). apply (ron_exact F c G HG (RWord w) w Hw). }
  assert (Hdoc : RR F c G t l v <-> exists n, rmeans F c G n t d v).
  { rewrite <- (RR_entire F c G t x _ v Hv). apply (ron_exact F c G HG d x Hx). }
  split.
  - intro H. destruct (parses_inv_ok F c G Ron t _ l false v Hl (or_intror eq_refl) H) as (N & u' & HN). specialize (HN N (le_n N)).
    rewrite <- (app_nil_r l) in A0 at 2.
    destruct (embed_split F c G Ron N t l [] false _ u' v Vl eq_refl A0 HN) as [[A _]|(_ & s & o & r & El & Ho & _ & Hs)].
    + assert (Q : RR F c G t l v) by (exists N, u'; auto). apply Hdoc in Q as [n Q]. exists n. left. exact Q.
    + assert (Ed : exists p, d = RVar s p).
      { apply shape_head in Sh. destruct d as [b|n|n|w|ds|ds|ms|es|w p]; cbn [head_ok] in Sh; try (destruct Sh as (q & Sh)); try congruence; [|exists p; congruence].
        destruct Sh as (tk & _ & Q & _). congruence. }
      destruct Ed as [p Ed]. destruct (Hword s p Ed) as [Hvw Hiff].
      destruct (Hs [] false (st0 [LId s] false) I (or_intror eq_refl) (vt_at2 F s _ Hvw)) as (u2 & E2 & A2).
      assert (Q : RR F c G t [LId s] v) by (exists N, u2; auto). apply Hiff in Q as [n Q]. exists n. right. exists s, p. auto.
  - intros [n [H|(w & p & Ed & H)]].
    + assert (Q : RR F c G t l v) by (apply Hdoc; eauto). destruct Q as (N & u' & E & _).
      apply (parses_ok F c G Ron t _ l false v Hl (or_intror eq_refl)). exists N. intros m Hm. rewrite (de_mono _ F c G Ron N m t _ Hm); rewrite E; [reflexivity | discriminate].
    + destruct (Hword w p Ed) as [Hvw Hiff]. assert (Q : RR F c G t [LId w] v) by (apply Hiff; eauto). destruct Q as (N & u' & E & A).
      pose proof (vt_at2 F w _ Hvw) as A1. change [LId w] with ([LId w] ++ []) in A1 at 2. assert (V1 : vtoks Ron [LId w]) by apply Hvw.
      destruct (embed_split F c G Ron N t [LId w] [] false _ u' v V1 eq_refl A1 E) as [[_ H2]|(_ & s & o & r & Q & _)]; [|discriminate].
      rewrite Ed in Sh. apply shape_head in Sh. cbn [head_ok] in Sh. destruct Sh as [r El]. rewrite El in *.
      destruct (H2 (LP KParenOpen :: r) false (st0 (LId w :: LP KParenOpen :: r) false) eq_refl (or_intror eq_refl) A0) as (u2 & E2 & _).
      apply (parses_ok F c G Ron t _ _ false v Hl (or_intror eq_refl)). exists N. intros m Hm. rewrite (de_mono _ F c G Ron N m t _ Hm); rewrite E2; [reflexivity | discriminate].
Qed.
(** The parts of a document are read exactly: [entire] of SpecObj.v excludes that
    parsing stops after a name. *)
Theorem C63_ron_part F c G t d text v : Forall distinct_ron G -> rdenotes F d text ->
  (entire F c G Ron t text v <-> exists n, rmeans F c G n t d v).
Proof. intros HG Hd. apply (ron_exact F c G HG d text Hd). Qed.
(** Two texts of one document read alike. *)
Theorem C63_same_document F c G t d text1 text2 v : Forall distinct_ron G -> rdocument F d text1 -> rdocument F d text2 ->
  (parses F c G Ron t text1 (Ok v) <-> parses F c G Ron t text2 (Ok v)).
Proof. intros HG H1 H2. rewrite (C63_ron_document F c G t d text1 v HG H1), (C63_ron_document F c G t d text2 v HG H2). tauto. Qed.
(** A document means at most one value. *)
Theorem C63_one_meaning F c G t d text v w n m : Forall distinct_ron G -> rdenotes F d text ->
  rmeans F c G n t d v -> rmeans F c G m t d w -> v = w.
Proof. intros HG Hd H1 H2. eapply entire_fun; apply (ron_exact F c G HG d text Hd); eexists; eassumption. Qed.
(** A document without a meaning for the type is an error (if Duration and SystemTime
    are not involved; these panic on overflow). *)
Theorem C63_otherwise_error F c G t d text : Forall distinct_ron G -> text_env Ron G -> text_guarded Ron G -> text_ty Ron G t ->
  env_all no_time G -> ty_all no_time t -> rdocument F d text ->
  (rejects F c G Ron t text <-> ~ exists n v, rmeans F c G n t d v \/ exists w p, d = RVar w p /\ rmeans F c G n t (RWord w) v).
Proof.
  intros HD HG Hg Ht H1 H2 Hd. split.
  - intros [e He] (n & v & M). assert (P : parses F c G Ron t text (Ok v)) by (apply (C63_ron_document F c G t d text v HD Hd); eauto).
    pose proof (returns_inj _ _ _ He P). discriminate.
  - intro Hn. destruct (C37_ron_no_panic F c G t text HG Hg Ht H1 H2) as [[v P]|R]; [|exact R].
    exfalso. apply Hn. apply (C63_ron_document F c G t d text v HD Hd) in P as [n M]. eauto.
Qed.

(** *** An example: the types of TextEx.v *)
Definition rdtx : rdoc :=
  RObj [(chars "Tree", RVar (chars "Node") (RTup [RWord (chars "Leaf"); RNum (chars "7")])); (chars "id", RNum (chars "-5"));
        (chars "m", RMap [(RStr (chars "b"), RBool true); (RStr (chars "a"), RBool false); (RStr (chars "b"), RBool false)]);
        (chars "o", RWord (chars "None"));
        (chars "x", RNum (chars "2")); (chars "at", RMap [(RStr (chars "nanos"), RNum (chars "6")); (RStr (chars "secs"), RNum (chars "5"))])].
Definition rdtext : str := chars "( Tree:Node (Leaf, 7,), id : -5,m:{""\u0062"":true,""a"":false,""b"":false},o:None,x:2,at:{""nanos"":6,""secs"":5,},) ".
Lemma Gtx_ron : Forall distinct_ron Gtx.
Proof. repeat constructor; cbn; intuition discriminate. Qed.
Ltac word_tac := split; [eexists _, _; split; [cbn; reflexivity|]; split;
    [unfold letter; lia | repeat (constructor; [left; unfold letter; lia|]); constructor]
  | split; discriminate].
Ltac rnum_tac := apply rn_num, PropsObj.int_literal; [split; [discriminate | repeat constructor; discriminate] | vm_compute; reflexivity].
Lemma hex_62 : hex_quad (chars "0062") 98.
Proof. exists 48, 48, 54, 50, 0, 0, 6, 2. repeat split; try reflexivity; unfold hex_digit; vm_compute; intuition (try discriminate). Qed.
Lemma rdtx_text : rdocument toy rdtx rdtext.
Proof.
  exists [], (removelast rdtext), [32]. split; [reflexivity|]. split; [gap_tac|]. split; [gap_tac|].
  apply (rn_obj toy _ (removelast (tl (removelast rdtext)))); [discriminate|].
  apply (rm_more toy (chars " ") (chars "Tree") [] [] _ (chars "Node (Leaf, 7,)") []); try gap_tac; [word_tac | |].
  { apply (rn_var toy (chars "Node") (chars " ") _ (chars "(Leaf, 7,)")); try gap_tac; [word_tac | exact I |].
    apply (rn_tup toy _ (chars "Leaf, 7,")).
    apply (rs_more toy [] _ (chars "Leaf") [] _ (chars " 7,")); try gap_tac; [constructor; word_tac|].
    apply (rs_more toy (chars " ") _ (chars "7") [] _ []); try gap_tac; [rnum_tac|]. constructor. gap_tac. }
  apply (rm_more toy (chars " ") (chars "id") (chars " ") (chars " ") _ (chars "-5") []); try gap_tac; [word_tac | apply rn_num, neg5 |].
  apply (rm_more toy [] (chars "m") [] [] _ (chars "{""\u0062"":true,""a"":false,""b"":false}") []); try gap_tac; [word_tac | |].
  { apply (rn_map toy _ (chars """\u0062"":true,""a"":false,""b"":false")).
    apply (re_more toy [] _ (chars """\u0062""") [] [] _ (chars "true") []); try gap_tac; [ | constructor |].
    { apply (rn_str toy (chars "\u0062")). apply (ch_hex (chars "0062") 98 [] []); [exact hex_62 | intros [H _]; now apply H | intros [H _]; now apply H | str_tac]. }
    apply (re_more toy [] _ (chars """a""") [] [] _ (chars "false") []); try gap_tac; [apply (rn_str toy (chars "a")); cbn; str_tac | constructor |].
    apply (re_one toy [] _ (chars """b""") [] [] _ (chars "false") []); try gap_tac; [apply (rn_str toy (chars "b")); cbn; str_tac | constructor]. }
  apply (rm_more toy [] (chars "o") [] [] _ (chars "None") []); try gap_tac; [word_tac | constructor; word_tac |].
  apply (rm_more toy [] (chars "x") [] [] _ (chars "2") []); try gap_tac; [word_tac | rnum_tac |].
  apply (rm_more toy [] (chars "at") [] [] _ (chars "{""nanos"":6,""secs"":5,}") [] [] []); try gap_tac; [word_tac | | constructor; gap_tac].
  apply (rn_map toy _ (chars """nanos"":6,""secs"":5,")).
  apply (re_more toy [] _ (chars """nanos""") [] [] _ (chars "6") []); try gap_tac; [apply (rn_str toy (chars "nanos")); cbn; str_tac | rnum_tac|].
  apply (re_more toy [] _ (chars """secs""") [] [] _ (chars "5") [] [] []); try gap_tac; [apply (rn_str toy (chars "secs")); cbn; str_tac | rnum_tac|].
  constructor. gap_tac.
Qed.
Example C63_ex : Forall distinct_ron Gtx /\ rdocument toy rdtx rdtext /\
  exists n, rmeans toy c64 Gtx n (TNamed 1) rdtx
    (VSeq [VZ (-5); VZ 0; VEnum 1 [VEnum 0 []; VZ 7]; VMap [(VStr (chars "a"), VBool false); (VStr (chars "b"), VBool false)];
           VNone; VF (f64_of_z toy 2); VZ 7; VTime 5 6]).
Proof.
  split; [exact Gtx_ron|]. split; [exact rdtx_text|].
  assert (P : parses toy c64 Gtx Ron (TNamed 1) rdtext (Ok
    (VSeq [VZ (-5); VZ 0; VEnum 1 [VEnum 0 []; VZ 7]; VMap [(VStr (chars "a"), VBool false); (VStr (chars "b"), VBool false)];
           VNone; VF (f64_of_z toy 2); VZ 7; VTime 5 6]))).
  { apply (de_text_returns _ _ _ _ 14%nat); [vm_compute; reflexivity | discriminate]. }
  apply (C63_ron_document toy c64 Gtx (TNamed 1) rdtx rdtext _ Gtx_ron rdtx_text) in P as (n & [P|(w & p & E & _)]); [|discriminate].
  exists n. exact P.
Qed.
(** The exception in C63_ron_document is real: [A(1)] has no meaning for
    [enum E { A }], but it is read as [A]. *)
Definition Gunit : env := [DEnum [{| v_name := chars "A"; v_rename := None; v_body := BUnit |}]].
Definition rdvar : rdoc := RVar (chars "A") (RTup [RNum (chars "1")]).
Lemma rdvar_text : rdocument toy rdvar (chars "A(1)").
Proof.
  exists [], (chars "A(1)"), []. split; [reflexivity|]. split; [gap_tac|]. split; [gap_tac|].
  apply (rn_var toy (chars "A") [] _ (chars "(1)")); try gap_tac; [word_tac | exact I|].
  apply (rn_tup toy _ (chars "1")). apply (rs_one toy [] _ (chars "1") []); try gap_tac. rnum_tac.
Qed.
Theorem C63_all_refuted : Forall distinct_ron Gunit /\ rdocument toy rdvar (chars "A(1)") /\
  parses toy c64 Gunit Ron (TNamed 0) (chars "A(1)") (Ok (VEnum 0 [])) /\
  ~ exists n v, rmeans toy c64 Gunit n (TNamed 0) rdvar v.
Proof.
  split; [repeat constructor; cbn; intuition discriminate|]. split; [exact rdvar_text|]. split.
  - apply (de_text_returns _ _ _ _ 14%nat); [vm_compute; reflexivity | discriminate].
  - intros ([|n] & v & H); [exact H|]. cbn [rmeans rmeans1 Gunit nth_error] in H. destruct H as (tag & vr & Q & H).
    destruct tag as [|[|tag]]; cbn [nth_error] in Q; [|discriminate|discriminate]. injection Q as <-. cbn [v_body] in H. destruct H as [H _]. discriminate.
Qed.
(** A [Node] with one element too few is no [Tree]. *)
Definition rbad_doc : rdoc := RVar (chars "Node") (RTup [RWord (chars "Leaf")]).
Definition rbad_text : str := chars "Node(Leaf)".
Lemma rbad_denotes : rdocument toy rbad_doc rbad_text.
Proof.
  exists [], rbad_text, []. split; [reflexivity|]. split; [gap_tac|]. split; [gap_tac|].
  apply (rn_var toy (chars "Node") [] _ (chars "(Leaf)")); try gap_tac; [word_tac | exact I|].
  apply (rn_tup toy _ (chars "Leaf")). apply (rs_one toy [] _ (chars "Leaf") []); try gap_tac. constructor. word_tac.
Qed.
Example C63_ex_error : let G := firstn 1 Gtx in
  Forall distinct_ron G /\ text_env Ron G /\ text_guarded Ron G /\ text_ty Ron G (TNamed 0) /\ env_all no_time G /\
  rdocument toy rbad_doc rbad_text /\ rejects toy c64 G Ron (TNamed 0) rbad_text /\ ~ exists n v, rmeans toy c64 G n (TNamed 0) rbad_doc v.
Proof.
  cbv zeta.
  assert (T : ty_all no_time (TNamed 0)) by (cbn; auto).
  assert (A : Forall distinct_ron (firstn 1 Gtx)) by (repeat constructor; cbn; intuition discriminate).
  assert (B : text_env Ron (firstn 1 Gtx)) by (split; cbn; repeat (constructor; cbn); auto; try lia; try discriminate).
  assert (C : text_guarded Ron (firstn 1 Gtx)).
  { exists (fun _ => O). intros [|i] d j H; cbn in H; [injection H as <-; intros []|]. destruct i; discriminate. }
  assert (D : text_ty Ron (firstn 1 Gtx) (TNamed 0)) by (cbn; lia).
  assert (E : env_all no_time (firstn 1 Gtx)) by (cbn; repeat (constructor; cbn); auto).
  assert (R : rejects toy c64 (firstn 1 Gtx) Ron (TNamed 0) rbad_text).
  { eexists. apply (de_text_returns _ _ _ _ 14%nat); [vm_compute; reflexivity | discriminate]. }
  split; [exact A|]. split; [exact B|]. split; [exact C|]. split; [exact D|]. split; [exact E|]. split; [exact rbad_denotes|]. split; [exact R|].
  intros (n & v & M). apply (proj1 (C63_otherwise_error toy c64 (firstn 1 Gtx) (TNamed 0) rbad_doc rbad_text A B C D E T rbad_denotes) R). eauto.
Qed.
