(** C76: what [deserialize_json] does with a text, whatever the text: the value, an
    error, a panic or no end, each exactly when. *)
From Verif Require Import Base Utf8 Types TyAll BinModel Text TextModel TextSim TextToks TextLex TextRead SpecText SpecGram SpecObj SpecList TextGram TextMain TextFuel TextLocal TextRun TextEmbed TextObj TextList SpecTok TokLex SpecDoc Doc SpecAcc AccBase AccDoc AccDe SpecTerm SpecCrash CrashBase Crash CrashDe CrashAll CrashTy PropsBin TextEx PropsObj PropsAcc PropsTerm SpecRon SpecRonAcc RonAccDoc RonAccDe PropsRonAcc.
Local Open Scope N_scope.

Section Outcome.
  Variables (F : flt) (c : cfg) (G : env) (t : ty).
  Notation L := tok_lexer.
  Notation de := (de_text L F c G Json).
  Hypothesis HG : Forall distinct_names G.
  Hypothesis HE : text_env Json G.

  Lemma behind_rest k r : behind F k r -> exists rest b r', tail_ok k rest b /\ lexs F Json r = (map (tok_of F Json) rest, b) /\ tokens Json F rest r r'.
  Proof.
    intro H. destruct k; cbn [behind tail_ok] in *.
    - destruct (lexs F Json r) as [l b] eqn:El. destruct (text_lexemes F Json _ _ _ El) as (xs & r' & Ht & Em & _). exists xs, b, r'. rewrite Em. auto.
    - exists [], false, r. split; [auto|]. split; [apply lexs_at_end; exact H | constructor].
    - exists [], false, r. split; [auto|]. split; [apply lexs_at_end; exact H | constructor].
    - destruct H as [nx H]. destruct H as [[He ->]|(g & x & r' & -> & Hs & Hx & ->)].
      + exists [], false, r. split; [right; reflexivity|]. split; [apply lexs_at_end; exact He | constructor].
      + pose proof (lexs_token F Json g x r' Hs Hx) as E2. destruct (lexs F Json r') as [l' b'] eqn:El'. destruct (text_lexemes F Json _ _ _ El') as (xs' & r2 & Ht' & Em' & _).
        exists (x :: xs'), b', r2. split; [left; discriminate|]. split; [rewrite E2; unfold cat; cbn [map app]; rewrite Em'; reflexivity | constructor; assumption].
    - destruct H as [nx H]. destruct H as [[He ->]|(g & x & r' & -> & Hs & Hx & ->)].
      + exists [], false, r. split; [right; reflexivity|]. split; [apply lexs_at_end; exact He | constructor].
      + pose proof (lexs_token F Json g x r' Hs Hx) as E2. destruct (lexs F Json r') as [l' b'] eqn:El'. destruct (text_lexemes F Json _ _ _ El') as (xs' & r2 & Ht' & Em' & _).
        exists (x :: xs'), b', r2. split; [left; discriminate|]. split; [rewrite E2; unfold cat; cbn [map app]; rewrite Em'; reflexivity | constructor; assumption].
  Qed.
  Lemma crash_run text k : breaks_down F c G t text k -> match panic_of k with Some p => parses F c G Json t text (Panic p) | None => hangs F c G Json t text end.
  Proof.
    intros (xs & r & H1 & Hb & H2). destruct (behind_rest k r H2) as (rest & b & r' & Ht & E2 & Ht2). pose proof (tokens_lexs F Json _ _ _ H1) as E1.
    rewrite E2 in E1. unfold cat in E1. cbn [fst snd] in E1. rewrite <- map_app in E1.
    destruct (proj1 (breaks_hit F c G HG HE) t xs k Hb) as [[z Hz] Hh]. destruct (Hh (head rest) xs k (conj eq_refl eq_refl)) as [N HN].
    assert (Hgo : go_on (map (tok_of F Json) (xs ++ rest)) b) by (left; destruct Hz as [-> | ->]; discriminate).
    assert (Ha : atx F Json (st0 (map (tok_of F Json) (xs ++ rest)) b) (xs ++ rest) b).
    { split; [eapply st0_at2; exact E1|]. rewrite Forall_app. split; [eapply tokens_good; exact H1 | eapply tokens_good; exact Ht2]. }
    assert (HN' : forall n, (N <= n)%nat -> snd (de n t (st0 (map (tok_of F Json) (xs ++ rest)) b)) = fate k) by (intros n Hn; exact (HN n Hn rest b _ eq_refl Ht Ha)).
    unfold fate in HN'. destruct (panic_of k) as [p|].
    - apply (parses_panic F c G Json t text _ _ p E1 Hgo). exists N. apply HN'. apply le_n.
    - apply (parses_hang F c G Json t text _ _ E1 Hgo). intro n. pose proof (HN' (Nat.max n N) ltac:(lia)) as Q. set (u := st0 _ b) in *.
      destruct (snd (de n t u)) as [v|e|p|] eqn:En; [exfalso| exfalso | exfalso | reflexivity];
        (rewrite (de_mono L F c G Json n (Nat.max n N) t u) in Q; [congruence | lia | congruence]).
  Qed.

  Hypothesis Hgd : text_guarded Json G.
  Hypothesis Ht : text_ty Json G t.
  Lemma rest_behind k rest b r r0 : tail_ok k rest b -> tokens Json F rest r r0 -> lexs F Json r0 = ([], b) -> behind F k r.
  Proof.
    intros Hk H2 Er. assert (Hfol : goes rest b -> exists nx, followed F r nx).
    { intros [Q|Q].
      - destruct rest as [|x rest]; [congruence|]. inversion H2 as [|g x' xs' text' r' Hs Hx Hr]; subst. eexists. right. exists g, x, text'. auto.
      - destruct rest as [|x rest].
        + exists None. left. split; [|reflexivity]. subst b. inversion H2; subst. eapply lexs_inv_end; exact Er.
        + inversion H2 as [|g x' xs' text' r' Hs Hx Hr]; subst. eexists. right. exists g, x, text'. auto. }
    destruct k; cbn [behind tail_ok] in *; [exact I | | | apply Hfol; exact Hk | apply Hfol; exact Hk]; destruct Hk as [-> ->]; inversion H2; subst; eapply lexs_inv_end; exact Er.
  Qed.
  Lemma outcome text : (exists v, parses F c G Json t text (Ok v)) \/ rejects F c G Json t text \/ exists k, breaks_down F c G t text k.
  Proof.
    destruct (lexs F Json text) as [l b] eqn:El. destruct (text_lexemes F Json _ _ _ El) as (xs0 & r0 & Htk & Em & Er).
    assert (Hc : go_on l b \/ (l = [] /\ b = true)) by (destruct l as [|x l]; [destruct b; [right; auto | left; right; reflexivity] | left; left; discriminate]).
    destruct Hc as [Hgo|[-> ->]].
    2:{ right. left. destruct (run_bad F c G Json O t text El) as [e E]. exists e. apply (de_text_returns _ _ _ _ O); [exact E | discriminate]. }
    destruct Hgd as [rank Hrank]. destruct (cs_all F c G HG HE rank Hrank (length xs0) t Ht) as [N HN]. specialize (HN N (le_n N)).
    pose proof (st0_atx F Json _ _ _ _ _ El Htk Em) as Ha. assert (Hg : goes xs0 b) by (destruct Hgo as [Q|Q]; [left; intros ->; apply Q; rewrite <- Em; reflexivity | right; exact Q]).
    specialize (HN _ _ _ Ha Hg (le_n _)). destruct (snd (de N t (st0 l b))) as [v|e|p|] eqn:Ed.
    - left. exists v. apply (parses_ok F c G Json t text l b v El Hgo). exists N. intros n Hn. rewrite (de_mono L F c G Json N n t _ Hn); [exact Ed | rewrite Ed; discriminate].
    - right. left. apply (parses_err F c G Json t text l b El Hgo). eauto.
    - right. right. destruct HN as (xs & rest & k & -> & Hb & Htl & _). destruct (tokens_split F Json _ _ _ _ Htk) as (r & H1 & H2). exists k, xs, r. split; [exact H1|]. split; [exact Hb|]. eapply rest_behind; eassumption.
    - right. right. destruct HN as (xs & rest & k & -> & Hb & Htl & _). destruct (tokens_split F Json _ _ _ _ Htk) as (r & H1 & H2). exists k, xs, r. split; [exact H1|]. split; [exact Hb|]. eapply rest_behind; eassumption.
  Qed.
  Lemma hangs_not text r : hangs F c G Json t text -> r <> NoFuel -> parses F c G Json t text r -> False.
  Proof. intros H Hr [N P]. specialize (P N (le_n N)). rewrite (H N) in P. congruence. Qed.
  Lemma only_unclosed k : panic_of k = None <-> k = Unclosed.
  Proof. destruct k; cbn; split; congruence. Qed.

  (** *** Panics *)
  Theorem C76_panics text p : parses F c G Json t text (Panic p) <-> exists k, breaks_down F c G t text k /\ panic_of k = Some p.
  Proof.
    split.
    - intro P. destruct (outcome text) as [[v Q]|[[e Q]|[k Q]]].
      + pose proof (returns_inj _ _ _ P Q). discriminate.
      + pose proof (returns_inj _ _ _ P Q). discriminate.
      + exists k. split; [exact Q|]. apply crash_run in Q. destruct (panic_of k) as [p'|]; [pose proof (returns_inj _ _ _ P Q); congruence|]. exfalso. eapply hangs_not; [exact Q | | exact P]. discriminate.
    - intros (k & Q & E). apply crash_run in Q. rewrite E in Q. exact Q.
  Qed.
  (** *** No end *)
  Theorem C76_hangs text : hangs F c G Json t text <-> breaks_down F c G t text Unclosed.
  Proof.
    split.
    - intro H. destruct (outcome text) as [[v Q]|[[e Q]|[k Q]]].
      + exfalso. eapply hangs_not; [exact H | | exact Q]. discriminate.
      + exfalso. eapply hangs_not; [exact H | | exact Q]. discriminate.
      + assert (k = Unclosed); [|subst k; exact Q]. apply only_unclosed. apply crash_run in Q. destruct (panic_of k) as [p|]; [|reflexivity]. exfalso. eapply hangs_not; [exact H | | exact Q]. discriminate.
    - intro Q. apply crash_run in Q. exact Q.
  Qed.
  (** *** Errors *)
  Theorem C76_rejects text : rejects F c G Json t text <-> (forall v, ~ accepted F c G t text v) /\ (forall k, ~ breaks_down F c G t text k).
  Proof.
    split.
    - intros [e P]. split.
      + intros v Q. apply (C66_accepted F c G t text v HG) in Q. pose proof (returns_inj _ _ _ P Q). discriminate.
      + intros k Q. apply crash_run in Q. destruct (panic_of k) as [p|]; [pose proof (returns_inj _ _ _ P Q); discriminate|]. eapply hangs_not; [exact Q | | exact P]. discriminate.
    - intros [H1 H2]. destruct (outcome text) as [[v Q]|[Q|[k Q]]]; [|exact Q|].
      + exfalso. apply (H1 v). apply (C66_accepted F c G t text v HG). exact Q.
      + exfalso. exact (H2 k Q).
  Qed.
  (** *** One of the four, and a text breaks down in one way at most *)
  Theorem C76_outcome text : (exists v, accepted F c G t text v) \/ rejects F c G Json t text \/ (exists p, parses F c G Json t text (Panic p)) \/ hangs F c G Json t text.
  Proof.
    destruct (outcome text) as [[v Q]|[Q|[k Q]]].
    - left. exists v. apply (C66_accepted F c G t text v HG). exact Q.
    - right. left. exact Q.
    - right. right. apply crash_run in Q. destruct (panic_of k) as [p|]; [left; eauto | right; exact Q].
  Qed.
  Theorem C76_one_way text k k' : breaks_down F c G t text k -> breaks_down F c G t text k' -> panic_of k = panic_of k'.
  Proof.
    intros H1 H2. apply crash_run in H1. apply crash_run in H2. destruct (panic_of k) as [p|], (panic_of k') as [p'|].
    - pose proof (returns_inj _ _ _ H1 H2). congruence.
    - exfalso. eapply hangs_not; [exact H2 | | exact H1]. discriminate.
    - exfalso. eapply hangs_not; [exact H1 | | exact H2]. discriminate.
    - reflexivity.
  Qed.
  Theorem C76_not_both text v k : accepted F c G t text v -> ~ breaks_down F c G t text k.
  Proof.
    intros Q H. apply (C66_accepted F c G t text v HG) in Q. apply crash_run in H. destruct (panic_of k) as [p|]; [pose proof (returns_inj _ _ _ Q H); discriminate|]. eapply hangs_not; [exact H | | exact Q]. discriminate.
  Qed.
End Outcome.

(** *** RON, for types without Duration and SystemTime: a text that is not accepted is
    an error *)
Theorem C76_ron_rejects F c G t text : Forall distinct_ron G -> text_env Ron G -> text_guarded Ron G -> text_ty Ron G t -> env_all no_time G -> ty_all no_time t ->
  (rejects F c G Ron t text <-> forall v, ~ raccepted F c G t text v).
Proof.
  intros HG HE Hgd Ht N1 N2. split.
  - intros [e P] v Q. apply (C67_accepted F c G t text v HG) in Q. pose proof (returns_inj _ _ _ P Q). discriminate.
  - intro H. destruct (C37_ron_no_panic F c G t text HE Hgd Ht N1 N2) as [[v P]|P]; [|exact P]. exfalso. apply (H v). apply (C67_accepted F c G t text v HG). exact P.
Qed.

(** *** Cases *)
(** A list of structs with one field [a]; the second member of the first is unknown. *)
Definition GK : env := [DStruct false false [fld (chars "a") false (VBool false) TBool]].
Lemma GK_names : Forall distinct_names GK.
Proof. constructor; [|constructor]. unfold distinct_names, distinct_fields. cbn. constructor; [intros [] | constructor]. Qed.
Lemma GK_env : text_env Json GK /\ text_guarded Json GK.
Proof.
  split; [split; repeat (constructor; cbn); auto; try discriminate|].
  exists (fun _ => 0%nat). intros i d j H. destruct i as [|i]; [injection H as <-; intros []|]. destruct i; discriminate.
Qed.
Definition TK0 : ty := TSeq SVec (TNamed 0).
Lemma TK0_ok : text_ty Json GK TK0. Proof. split; [exact I|]. split; [apply le_n | exact I]. Qed.
Definition front : list lexeme := [XP 91; XP 123; XS (chars "a") (chars "a"); xcolon; XW (chars "true"); xcomma; XS (chars "b") (chars "b"); xcolon].
Definition ftext : str := chars "[{""a"":true,""b"":".
Lemma front_tokens F xs text r : tokens Json F xs text r -> tokens Json F (front ++ xs) (ftext ++ text) r.
Proof.
  intro H. assert (Sp : space Json []) by constructor.
  change (ftext ++ text) with ([] ++ spelled (XP 91) ++ [] ++ spelled (XP 123) ++ [] ++ spelled (XS (chars "a") (chars "a")) ++ [] ++ spelled xcolon ++ [] ++ spelled (XW (chars "true")) ++ [] ++ spelled xcomma ++ [] ++ spelled (XS (chars "b") (chars "b")) ++ [] ++ spelled xcolon ++ text).
  assert (Hc : forall x, 97 <= x <= 122 -> chars_of [x] [x]) by (intros x Hx; apply ch_plain; [lia | lia | lia | constructor]).
  change (front ++ xs) with (XP 91 :: XP 123 :: XS (chars "a") (chars "a") :: xcolon :: XW (chars "true") :: xcomma :: XS (chars "b") (chars "b") :: xcolon :: xs).
  constructor; [exact Sp | left; cbn; tauto|]. constructor; [exact Sp | left; cbn; tauto|]. constructor; [exact Sp | apply (Hc 97); lia|].
  constructor; [exact Sp | left; cbn; tauto|]. constructor; [exact Sp | |].
  { split; [right; left; reflexivity|]. split; [unfold letter; cbn; lia | discriminate]. }
  constructor; [exact Sp | left; cbn; tauto|]. constructor; [exact Sp | apply (Hc 98); lia|]. constructor; [exact Sp | left; cbn; tauto | exact H].
Qed.
Lemma front_breaks F c l k : fatal_value l k -> breaks F c GK TK0 (front ++ l) k.
Proof.
  intro H. change (front ++ l) with (XP 91 :: with_commas [] ++ XP 123 :: with_commas [[XS (chars "a") (chars "a"); xcolon; XW (chars "true")]] ++ XS (chars "b") (chars "b") :: xcolon :: l).
  apply br_seq; [constructor|]. eapply br_struct; [reflexivity|].
  apply (bm_unknown F c GK _ [(chars "a", [XW (chars "true")])]); [discriminate | | | | exact H].
  - constructor; [exists (chars "a"); reflexivity | constructor].
  - constructor; [|constructor]. split.
    + intros f [<-|[]] _ _. exists 1%nat, (VBool true). left. split; reflexivity.
    + intro Q. exfalso. apply (Q (fld (chars "a") false (VBool false) TBool)); [left; reflexivity | reflexivity | reflexivity].
  - intros f [<-|[]] _. discriminate.
Qed.
(** [[{"a":true,"b":[{} ] with nothing behind it: never ends. *)
Example C76_ex_hangs F c : hangs F c GK Json TK0 (ftext ++ chars "[{} ").
Proof.
  destruct GK_env as [E1 E2]. apply C76_hangs; [exact GK_names | exact E1 | exact E2 | exact TK0_ok|].
  exists (front ++ [XP 91; XP 123; XP 125]), (chars " "). split; [|split].
  - apply front_tokens. change (chars "[{} ") with ([] ++ spelled (XP 91) ++ [] ++ spelled (XP 123) ++ [] ++ spelled (XP 125) ++ chars " ").
    assert (Sp : space Json []) by constructor. constructor; [exact Sp | left; cbn; tauto|]. constructor; [exact Sp | left; cbn; tauto|]. constructor; [exact Sp | left; cbn; tauto | constructor].
  - apply front_breaks. split; [eexists; eexists; split; [reflexivity | left; reflexivity]|].
    intros [|a [|b [|d p]]] q E Hp; [congruence| | |]; injection E; intros; subst; try (cbn; lia). destruct p; [cbn; lia | discriminate].
  - exists (chars " "), []. split; [reflexivity|]. split; [apply sp_ws; [unfold ws_char; auto 6 | constructor]|]. left. left. reflexivity.
Qed.
(** A closing bracket as the value, whatever follows: a panic; the end: too. *)
Example C76_ex_panics F c r : parses F c GK Json TK0 (ftext ++ [125] ++ r) (Panic PUnimplemented) /\ parses F c GK Json TK0 (ftext ++ []) (Panic PUnimplemented).
Proof.
  destruct GK_env as [E1 E2]. split; (apply C76_panics; [exact GK_names | exact E1 | exact E2 | exact TK0_ok|]).
  - exists BadValue. split; [|reflexivity]. exists (front ++ [XP 125]), r. split; [|split; [|exact I]].
    + apply front_tokens. apply (tk_cons Json F [] (XP 125)); [constructor | left; cbn; tauto | constructor].
    + apply front_breaks. exists 125. split; [reflexivity | cbn; tauto].
  - exists NoValue. split; [|reflexivity]. exists (front ++ []), []. split; [|split].
    + apply front_tokens. constructor.
    + apply front_breaks. reflexivity.
    + exists [], []. split; [reflexivity|]. split; [constructor|]. left. left. reflexivity.
Qed.
(** One that is an error: neither side of C76_rejects is empty. *)
Example C76_ex_rejects : (forall v, ~ accepted toy c64 GK TK0 (ftext ++ chars "nul}]") v) /\ (forall k, ~ breaks_down toy c64 GK TK0 (ftext ++ chars "nul}]") k).
Proof.
  destruct GK_env as [E1 E2]. apply (C76_rejects toy c64 GK TK0 GK_names E1 E2 TK0_ok). eexists. apply (de_text_returns _ _ _ _ 14%nat); [vm_compute; reflexivity | discriminate].
Qed.
(** A Duration of 2^64 seconds. *)
Example C76_ex_dur : exists k, breaks_down toy c64 [] (TOpt TDur) (chars "{""nanos"":1000000000,""secs"":18446744073709551615}") k /\ panic_of k = Some PDuration.
Proof.
  apply (C76_panics toy c64 [] (TOpt TDur)); [constructor | split; constructor | exists (fun _ => O); intros [|i] d j Q; discriminate Q | split; [exact I | split; exact I]|].
  apply (de_text_returns _ _ _ _ 14%nat); [vm_compute; reflexivity | discriminate].
Qed.
