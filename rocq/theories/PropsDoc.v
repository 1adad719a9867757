(** C60: deserialize_json reads the document a text denotes. *)
From Verif Require Import Base Utf8 Types BinModel PropsBin TyAll Text TextModel TextFuel TextLex TextToks TextRun SpecText SpecGram TextEx SpecTerm TextTerm TextGood PropsTerm PropsObj Doc SpecDoc.
Local Open Scope N_scope.

(** C60: for every JSON text (RFC 8259 with comments as space; numbers the lexer has
    a token for; any strings and escapes), every type and every value:
    [T::deserialize_json(text)] is [Ok(v)] exactly if [v] is what the document
    denoted means for [T].  Anything else (spacing, the way strings are escaped,
    comments) has no influence. *)
Theorem C60_json_document F c G t d text v : Forall distinct_names G -> document F d text ->
  (parses F c G Json t text (Ok v) <-> exists n, means F c G n t d v).
Proof. intros HG Hd. apply document_reads; assumption. Qed.
(** Two texts of one document read alike. *)
Theorem C60_same_document F c G t d text1 text2 v : document F d text1 -> document F d text2 ->
  (parses F c G Json t text1 (Ok v) <-> parses F c G Json t text2 (Ok v)).
Proof. intros H1 H2. rewrite (R_parses F c G t d text1 v H1), (R_parses F c G t d text2 v H2). tauto. Qed.
(** A document means at most one value. *)
Theorem C60_one_meaning F c G t d text v w n m : Forall distinct_names G -> document F d text ->
  means F c G n t d v -> means F c G m t d w -> v = w.
Proof.
  intros HG Hd H1 H2. pose proof (proj2 (text_tokens F d text Hd)) as Ht.
  eapply (R_fun F c G t d v w Ht); eapply means_runs; eassumption.
Qed.
(** A document without a meaning for the type: the call ends, with an error (if
    Duration and SystemTime are not involved; these panic on overflow). *)
Theorem C60_otherwise_ends F c G t d text : Forall distinct_names G -> text_env Json G -> text_guarded Json G -> text_ty Json G t ->
  document F d text -> ~ (exists n v, means F c G n t d v) ->
  exists r, parses F c G Json t text r /\ match r with Err _ => True | Panic p => clock_panic p | _ => False end.
Proof.
  intros HD HG Hg Ht Hd Hn. pose proof Hd as (g1 & x & g2 & E & Hg1 & Hg2 & Hx).
  assert (X : exists r, parses F c G Json t text r /\ ends_in clock_panic r).
  { apply (run_ends F c G Json clock_panic (fun l b => closed l b /\ colons l b)); auto.
    - intros a l b [X Y]. split; [eapply closed_suffix | eapply colons_suffix]; eassumption.
    - apply env_all_true. intro y. apply clock_node; unfold clock_panic; auto.
    - apply ty_all_true. intro y. apply clock_node; unfold clock_panic; auto.
    - intros _ _ n K HK. apply skips_good. exact HK.
    - rewrite E. destruct (lexs F Json (g1 ++ x ++ g2)) as [l b] eqn:El. refine (json_good F g1 x g2 l b Hg1 _ Hg2 El).
      apply (json_weaken gap gap (number_ok F) any_number any_body any_body); auto; [|apply denotes_json in Hx; exact Hx].
      intros s (sg & ip & fr & ex & -> & Hp & _). exists sg, ip, fr, ex. auto. }
  destruct X as (r & Hr & He). exists r. split; [exact Hr|]. destruct r as [v|e|p|]; auto.
  apply Hn. apply (C60_json_document F c G t d text v HD Hd) in Hr as [n M]. eauto.
Qed.
Theorem C60_otherwise_error F c G t d text : Forall distinct_names G -> text_env Json G -> text_guarded Json G -> text_ty Json G t ->
  env_all no_time G -> ty_all no_time t -> document F d text ->
  (rejects F c G Json t text <-> ~ exists n v, means F c G n t d v).
Proof.
  intros HD HG Hg Ht H1 H2 Hd. split.
  - intros [e He] (n & v & M). assert (P : parses F c G Json t text (Ok v)) by (apply (C60_json_document F c G t d text v HD Hd); eauto).
    pose proof (returns_inj _ _ _ He P). discriminate.
  - intro Hn. destruct Hd as (g1 & x & g2 & E & Hg1 & Hg2 & Hx). subst text.
    destruct (C26_valid_json_partial F c G t g1 x g2 HG Hg Ht H1 H2 Hg1) as [[v P]|R]; [ | exact Hg2 | | exact R].
    + apply (json_weaken gap gap (number_ok F) any_number any_body any_body); auto; [|apply denotes_json in Hx; exact Hx].
      intros s (sg & ip & fr & ex & -> & Hp & _). exists sg, ip, fr, ex. auto.
    + exfalso. apply Hn. apply (C60_json_document F c G t d _ v HD) in P as [n M]; [eauto|]. exists g1, x, g2. auto.
Qed.

(** *** An example: the types of TextEx.v *)
Definition dtx : doc :=
  JObj [(chars "Tree", JObj [(chars "Node", JArr [JStr (chars "Leaf"); JNum (chars "7")])]);
        (chars "zz", JArr [JNum (chars "1"); JNull]); (chars "id", JNum (chars "-5"));
        (chars "m", JObj [(chars "b", JBool true); (chars "a", JBool false); (chars "b", JBool false)]);
        (chars "x", JNum (chars "2")); (chars "at", JObj [(chars "nanos", JNum (chars "6")); (chars "secs", JNum (chars "5"))])].
Definition dtext : str := chars "{ ""Tree"":{""\u004eode"":[""Leaf"", 7]},""zz"":[1,null], ""id"" : -5,""m"":{""b"":true,""a"":false,""b"":false},""x"":2,""at"":{""nanos"":6,""secs"":5}} ".
Lemma Gtx_names : Forall distinct_names Gtx.
Proof. repeat constructor; cbn; intuition discriminate. Qed.
Ltac str_tac := repeat (first [apply ch_end | apply ch_plain; [discriminate | discriminate | discriminate|]]).
Ltac num_tac := first
  [ apply dn_num, PropsObj.int_literal; [split; [discriminate | repeat constructor; discriminate] | vm_compute; reflexivity] ].
Lemma neg5 : number_ok toy (chars "-5").
Proof.
  exists [45], [53], [], []. split; [reflexivity|]. split; [|split; [intros []|split; [|intros [H|H]; congruence]]].
  - split; [auto|]. split; [split; [discriminate | repeat constructor; discriminate]|]. auto.
  - intros _ _. cbn. discriminate.
Qed.
Lemma hex_4e : hex_quad (chars "004e") 78.
Proof. exists 48, 48, 52, 101, 0, 0, 4, 14. repeat split; try reflexivity; unfold hex_digit; vm_compute; intuition (try discriminate). Qed.
Lemma dtx_text : document toy dtx dtext.
Proof.
  exists [], (removelast dtext), [32]. split; [reflexivity|]. split; [gap_tac|]. split; [gap_tac|].
  apply (dn_obj toy _ (removelast (tl (removelast dtext)))).
  apply (mo_more toy (chars " ") (chars "Tree") (chars "Tree") [] [] _ (chars "{""\u004eode"":[""Leaf"", 7]}") []); try gap_tac; [cbn; str_tac | |].
  { apply (dn_obj toy _ (chars """\u004eode"":[""Leaf"", 7]")).
    apply (mo_one toy [] (chars "Node") (chars "\u004eode") [] [] _ (chars "[""Leaf"", 7]") []); try gap_tac.
    - apply (ch_hex (chars "004e") 78 (chars "ode") (chars "ode")); [exact hex_4e | intros [H _]; now apply H | intros [H _]; now apply H | str_tac].
    - apply (dn_arr toy _ (chars """Leaf"", 7")).
      apply (eo_more toy [] _ (chars """Leaf""") [] _ (chars " 7")); try gap_tac; [apply (dn_str toy (chars "Leaf")); cbn; str_tac|].
      apply (eo_one toy (chars " ") _ (chars "7") []); try gap_tac. num_tac. }
  apply (mo_more toy [] (chars "zz") (chars "zz") [] [] _ (chars "[1,null]") []); try gap_tac; [cbn; str_tac | |].
  { apply (dn_arr toy _ (chars "1,null")). apply (eo_more toy [] _ (chars "1") [] _ (chars "null")); try gap_tac; [num_tac|].
    apply (eo_one toy [] _ (chars "null") []); try gap_tac. constructor. }
  apply (mo_more toy (chars " ") (chars "id") (chars "id") (chars " ") (chars " ") _ (chars "-5") []); try gap_tac; [cbn; str_tac | apply dn_num, neg5 |].
  apply (mo_more toy [] (chars "m") (chars "m") [] [] _ (chars "{""b"":true,""a"":false,""b"":false}") []); try gap_tac; [cbn; str_tac | |].
  { apply (dn_obj toy _ (chars """b"":true,""a"":false,""b"":false")).
    apply (mo_more toy [] (chars "b") (chars "b") [] [] _ (chars "true") []); try gap_tac; [cbn; str_tac | constructor|].
    apply (mo_more toy [] (chars "a") (chars "a") [] [] _ (chars "false") []); try gap_tac; [cbn; str_tac | constructor|].
    apply (mo_one toy [] (chars "b") (chars "b") [] [] _ (chars "false") []); try gap_tac; [cbn; str_tac | constructor]. }
  apply (mo_more toy [] (chars "x") (chars "x") [] [] _ (chars "2") []); try gap_tac; [cbn; str_tac | num_tac |].
  apply (mo_one toy [] (chars "at") (chars "at") [] [] _ (chars "{""nanos"":6,""secs"":5}") []); try gap_tac; [cbn; str_tac |].
  apply (dn_obj toy _ (chars """nanos"":6,""secs"":5")).
  apply (mo_more toy [] (chars "nanos") (chars "nanos") [] [] _ (chars "6") []); try gap_tac; [cbn; str_tac | num_tac|].
  apply (mo_one toy [] (chars "secs") (chars "secs") [] [] _ (chars "5") []); try gap_tac; [cbn; str_tac | num_tac].
Qed.
Example C60_ex : Forall distinct_names Gtx /\ document toy dtx dtext /\
  exists n, means toy c64 Gtx n (TNamed 1) dtx
    (VSeq [VZ (-5); VZ 0; VEnum 1 [VEnum 0 []; VZ 7]; VMap [(VStr (chars "a"), VBool false); (VStr (chars "b"), VBool false)];
           VNone; VF (f64_of_z toy 2); VZ 7; VTime 5 6]).
Proof.
  split; [exact Gtx_names|]. split; [exact dtx_text|]. apply (C60_json_document toy c64 Gtx (TNamed 1) dtx dtext _ Gtx_names dtx_text).
  apply (de_text_returns _ _ _ _ 14%nat); [vm_compute; reflexivity | discriminate].
Qed.
(** A [Node] with one element too few is no [Tree]. *)
Definition bad_doc : doc := JObj [(chars "Node", JArr [JStr (chars "Leaf")])].
Definition bad_text : str := chars "{""Node"":[""Leaf""]}".
Lemma bad_denotes : document toy bad_doc bad_text.
Proof.
  apply denotes_document. apply (dn_obj toy _ (chars """Node"":[""Leaf""]")).
  apply (mo_one toy [] (chars "Node") (chars "Node") [] [] _ (chars "[""Leaf""]") []); try gap_tac; [cbn; str_tac|].
  apply (dn_arr toy _ (chars """Leaf""")). apply (eo_one toy [] _ (chars """Leaf""") []); try gap_tac. apply (dn_str toy (chars "Leaf")); cbn; str_tac.
Qed.
Example C60_ex_error : let G := firstn 1 Gtx in
  Forall distinct_names G /\ text_env Json G /\ text_guarded Json G /\ text_ty Json G (TNamed 0) /\ env_all no_time G /\
  document toy bad_doc bad_text /\ rejects toy c64 G Json (TNamed 0) bad_text /\ ~ exists n v, means toy c64 G n (TNamed 0) bad_doc v.
Proof.
  cbv zeta.
  assert (T : ty_all no_time (TNamed 0)) by (cbn; auto).
  assert (A : Forall distinct_names (firstn 1 Gtx)) by (repeat constructor; cbn; intuition discriminate).
  assert (B : text_env Json (firstn 1 Gtx)) by (split; cbn; repeat (constructor; cbn); auto; try lia; try discriminate).
  assert (C : text_guarded Json (firstn 1 Gtx)).
  { exists (fun _ => O). intros [|i] d j H; cbn in H; [injection H as <-; intros []|]. destruct i; discriminate. }
  assert (D : text_ty Json (firstn 1 Gtx) (TNamed 0)) by (cbn; lia).
  assert (E : env_all no_time (firstn 1 Gtx)) by (cbn; repeat (constructor; cbn); auto).
  assert (R : rejects toy c64 (firstn 1 Gtx) Json (TNamed 0) bad_text).
  { eexists. apply (de_text_returns _ _ _ _ 14%nat); [vm_compute; reflexivity | discriminate]. }
  split; [exact A|]. split; [exact B|]. split; [exact C|]. split; [exact D|]. split; [exact E|]. split; [exact bad_denotes|]. split; [exact R|].
  apply (C60_otherwise_error toy c64 (firstn 1 Gtx) (TNamed 0) bad_doc bad_text A B C D E T bad_denotes). exact R.
Qed.
