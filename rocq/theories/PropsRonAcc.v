(** C67: exactly which RON texts [deserialize_ron] accepts, and as which value. *)
From Verif Require Import Base Utf8 Types BinModel TyAll Text TextModel TextSim TextToks TextLex TextRead SpecText SpecGram SpecObj SpecList TextGram TextMain TextFuel TextLocal TextRun TextEmbed TextObj TextList SpecTok TokLex SpecDoc Doc SpecTerm SpecAcc AccBase PropsBin TextEx PropsObj PropsTerm PropsDoc PropsAcc.
From Verif Require Import SpecRon SpecRonAcc RonAccDoc RonAccDe PropsRon.
Local Open Scope N_scope.

(** *** The theorem: a text is accepted, as [v], iff it starts with tokens that
    SpecRonAcc.v gives the meaning [v] for the type (and the token behind them, if
    any, is one). *)
Theorem C67_accepted F c G t text v : Forall distinct_ron G ->
  (parses F c G Ron t text (Ok v) <-> raccepted F c G t text v).
Proof.
  intro HG. destruct (lexs F Ron text) as [l b] eqn:El. destruct (text_lexemes F Ron _ _ _ El) as (xs0 & r0 & Ht & Em & Er). split.
  - intro P. assert (Hg : go_on l b).
    { destruct l as [|x l]; [|left; discriminate]. destruct b; [|right; reflexivity]. exfalso. destruct P as [N P]. destruct (run_bad F c G Ron N t text El) as [e E]. rewrite (P N (le_n N)) in E. discriminate. }
    destruct (parses_inv_ok F c G Ron t text l b v El Hg P) as (N & u' & H). specialize (H N (le_n N)).
    destruct (proj1 (acc_all F c G HG N t) _ _ _ _ _ (st0_atx F Ron _ _ _ _ _ El Ht Em) H) as (xs & rest & -> & A' & Hgo & Hk).
    destruct (tokens_split F Ron _ _ _ _ Ht) as (r & H1 & H2). exists xs, r, (hword (head rest)), N. split; [exact H1|]. split; [|exact Hk].
    assert (Hne : xs <> []) by (destruct (rtakes_shape F c G _ _ _ _ _ Hk) as (x & ys & -> & _); discriminate). specialize (Hgo Hne).
    destruct rest as [|x rest].
    + left. split; [|reflexivity]. destruct Hgo as [Q|Q]; [congruence|]. subst b. inversion H2; subst. eapply lexs_inv_end; exact Er.
    + right. inversion H2 as [|g x' xs' text' r' Hs Hx Hr]; subst. exists g, x, text'. split; [reflexivity|]. split; [exact Hs|]. split; [exact Hx|]. destruct x; reflexivity.
  - intros (xs & r & nx & n & H1 & H2 & Hk). pose proof (tokens_lexs F Ron _ _ _ H1) as E1.
    assert (R : exists rest b' r', goes rest b' /\ hword (head rest) = nx /\ lexs F Ron r = (map (tok_of F Ron) rest, b') /\ tokens Ron F rest r r').
    { destruct H2 as [[He ->]|(g & x & r' & -> & Hs & Hx & ->)].
      - exists [], false, r. split; [right; reflexivity|]. split; [reflexivity|]. split; [apply lexs_at_end; exact He | constructor].
      - pose proof (lexs_token F Ron g x r' Hs Hx) as E2. destruct (lexs F Ron r') as [l' b'] eqn:El'. destruct (text_lexemes F Ron _ _ _ El') as (xs' & r2 & Ht' & Em' & _).
        exists (x :: xs'), b', r2. split; [left; discriminate|]. split; [destruct x; reflexivity|]. split; [rewrite E2; unfold cat; cbn [map app]; rewrite Em'; reflexivity | constructor; assumption]. }
    destruct R as (rest & b' & r' & Hg & Hh & E2 & Ht2). rewrite E2 in E1. unfold cat in E1. cbn [fst snd] in E1. rewrite <- map_app in E1.
    destruct (proj2 (acc_all F c G HG n t) (head rest) xs v) as [N HN]; [rewrite Hh; exact Hk|].
    apply (parses_ok F c G Ron t text _ _ v E1); [apply goes_go; apply goes_app; exact Hg|]. exists N. intros k Hk2.
    destruct (HN k Hk2 rest b' (st0 (map (tok_of F Ron) (xs ++ rest)) b') eq_refl Hg) as (u' & E & _).
    + split; [eapply st0_at2; exact E1|]. rewrite Forall_app. split; [eapply tokens_good; exact H1 | eapply tokens_good; exact Ht2].
    + rewrite E. reflexivity.
Qed.
(** At most one value. *)
Theorem C67_one_value F c G t text v w : Forall distinct_ron G -> raccepted F c G t text v -> raccepted F c G t text w -> v = w.
Proof.
  intros HG H1 H2. apply (C67_accepted F c G t text v HG) in H1. apply (C67_accepted F c G t text w HG) in H2.
  pose proof (returns_inj _ _ _ H1 H2) as E. congruence.
Qed.

(** *** For scalars *)
Theorem C67_integer F c G k text v : Forall distinct_ron G ->
  (parses F c G Ron (TInt k) text (Ok v) <->
   exists s z r nx, tokens Ron F [XN s] text r /\ rfollowed F r nx /\ int_lit c k s z /\ v = VZ z).
Proof.
  intro HG. rewrite (C67_accepted F c G (TInt k) text v HG). split.
  - intros (xs & r & nx & [|n] & H1 & H2 & Hk); [contradiction|]. cbn [rtakes] in Hk. destruct Hk as (s & z & -> & -> & H). exists s, z, r, nx. auto.
  - intros (s & z & r & nx & H1 & H2 & H & ->). exists [XN s], r, nx, 1%nat. split; [exact H1|]. split; [exact H2|]. cbn [rtakes]. eauto.
Qed.
Theorem C67_string F c G text v : Forall distinct_ron G ->
  (parses F c G Ron TStr text (Ok v) <->
   exists b s r nx, tokens Ron F [XS b s] text r /\ rfollowed F r nx /\ v = VStr s).
Proof.
  intro HG. rewrite (C67_accepted F c G TStr text v HG). split.
  - intros (xs & r & nx & [|n] & H1 & H2 & Hk); [contradiction|]. cbn [rtakes] in Hk. destruct Hk as (b & s & -> & ->). exists b, s, r, nx. auto.
  - intros (b & s & r & nx & H1 & H2 & ->). exists [XS b s], r, nx, 1%nat. split; [exact H1|]. split; [exact H2|]. cbn [rtakes]. eauto.
Qed.

Theorem C67_bool F c G text v : Forall distinct_ron G ->
  (parses F c G Ron TBool text (Ok v) <->
   exists x r nx, tokens Ron F [x] text r /\ rfollowed F r nx /\
     (x = XW (chars "true") /\ v = VBool true \/ x = XW (chars "false") /\ v = VBool false \/
      exists s m, x = XN s /\ nat_means (unplus s) m /\ v = VBool (negb (m =? 0)))).
Proof.
  intro HG. rewrite (C67_accepted F c G TBool text v HG). split.
  - intros (xs & r & nx & [|n] & H1 & H2 & Hk); [contradiction|]. cbn [rtakes] in Hk. destruct Hk as [[-> ->]|[[-> ->]|(s & m & -> & Hm & ->)]].
    + exists (XW (chars "true")), r, nx. auto.
    + exists (XW (chars "false")), r, nx. auto 6.
    + exists (XN s), r, nx. split; [exact H1|]. split; [exact H2|]. right. right. exists s, m. auto.
  - intros (x & r & nx & H1 & H2 & H). exists [x], r, nx, 1%nat. split; [exact H1|]. split; [exact H2|]. cbn [rtakes]. destruct H as [[-> ->]|[[-> ->]|(s & m & -> & Hm & ->)]].
    + left. auto.
    + right. left. auto.
    + right. right. exists s, m. auto.
Qed.

(** *** What follows the value *)
(** The tokens of the value alone decide, with the word that follows if one does:
    whatever else comes behind them is never looked at. *)
Theorem C67_rest_ignored F c G t text v : Forall distinct_ron G -> parses F c G Ron t text (Ok v) ->
  exists xs r nx, tokens Ron F xs text r /\ rfollowed F r nx /\
    forall text' r', tokens Ron F xs text' r' -> rfollowed F r' nx -> parses F c G Ron t text' (Ok v).
Proof.
  intros HG P. apply (C67_accepted F c G t text v HG) in P. destruct P as (xs & r & nx & n & H1 & H2 & H3).
  exists xs, r, nx. split; [exact H1|]. split; [exact H2|]. intros text' r' K1 K2.
  apply (C67_accepted F c G t text' v HG). exists xs, r', nx, n. auto.
Qed.

(** *** Every other text is an error *)
(** For types that do not contain a [SystemTime] (whose addition can overflow). *)
Theorem C67_rejected F c G t text : Forall distinct_ron G -> text_env Ron G -> text_guarded Ron G -> text_ty Ron G t ->
  env_all no_time G -> ty_all no_time t ->
  (rejects F c G Ron t text <-> ~ exists v, raccepted F c G t text v).
Proof.
  intros HD HG Hg Ht H1 H2. split.
  - intros [e He] [v M]. apply (C67_accepted F c G t text v HD) in M. pose proof (returns_inj _ _ _ He M). discriminate.
  - intro Hn. destruct (C37_ron_no_panic F c G t text HG Hg Ht H1 H2) as [[v P]|R]; [|exact R].
    exfalso. apply Hn. exists v. apply (C67_accepted F c G t text v HD). exact P.
Qed.

(** ** Concrete cases *)
(** A struct with fields of many types (the text of C63). *)
Example C67_ex : Forall distinct_ron Gtx /\ exists v, raccepted toy c64 Gtx (TNamed 1) rdtext v /\ parses toy c64 Gtx Ron (TNamed 1) rdtext (Ok v).
Proof.
  split; [exact Gtx_ron|].
  assert (P : exists v, parses toy c64 Gtx Ron (TNamed 1) rdtext (Ok v)) by (eexists; apply (de_text_returns _ _ _ _ 14%nat); [vm_compute; reflexivity | discriminate]).
  destruct P as [v P]. exists v. split; [|exact P]. apply (C67_accepted _ _ _ _ _ _ Gtx_ron). exact P.
Qed.
(** The name of a variant without contents is compared with the word that follows,
    if one does: read from the specification's side. *)
Example C67_ex_next : parses toy c64 ab_enum Ron (TNamed 0) (chars "A B(") (Ok (VEnum 1 [])).
Proof.
  apply C67_accepted; [repeat constructor; cbn; intuition discriminate|].
  exists [XW (chars "A")], (chars " B("), (Some (chars "B")), 1%nat. split; [|split].
  - change (chars "A B(") with ([] ++ spelled (XW (chars "A")) ++ chars " B("). constructor; [constructor| |constructor].
    split; [eexists _, _; split; [cbn; reflexivity|]; split; [unfold letter; lia | constructor]|]. split; [cbn; unfold letter; lia | cbn; lia].
  - right. exists [32], (XW (chars "B")), (chars "("). split; [reflexivity|]. split; [apply sp_ws; [unfold ws_char; auto 6 | constructor]|]. split; [|reflexivity].
    split; [eexists _, _; split; [cbn; reflexivity|]; split; [unfold letter; lia | constructor]|]. split; [cbn; unfold letter; lia | cbn; lia].
  - cbn [rtakes ab_enum nth_error]. exists 1%nat. eexists. split; [reflexivity|]. cbn [v_body]. exists (chars "A"). split; [split; discriminate|]. split; [reflexivity|]. split; reflexivity.
Qed.
(** What stands behind a variant without contents is not looked at. *)
Example C67_ex_paren : parses toy c64 ab_enum Ron (TNamed 0) (chars "A(1)") (Ok (VEnum 0 [])).
Proof. apply (de_text_returns _ _ _ _ 12%nat); [vm_compute; reflexivity | discriminate]. Qed.
(** Not accepted: a field that does not exist, in a struct that is otherwise complete. *)
Definition one_field : env := [DStruct false false [fld (chars "x") false (VZ 0) (TInt U8)]].
Example C67_ex_not : Forall distinct_ron one_field /\ text_env Ron one_field /\ text_guarded Ron one_field /\ text_ty Ron one_field (TNamed 0) /\ env_all no_time one_field /\
  parses toy c64 one_field Ron (TNamed 0) (chars "(x:1,)") (Ok (VSeq [VZ 1])) /\
  rejects toy c64 one_field Ron (TNamed 0) (chars "(x:1,y:2,)") /\ ~ exists v, raccepted toy c64 one_field (TNamed 0) (chars "(x:1,y:2,)") v.
Proof.
  assert (T : ty_all no_time (TNamed 0)) by (cbn; auto).
  assert (A : Forall distinct_ron one_field) by (repeat constructor; cbn; intuition discriminate).
  assert (B : text_env Ron one_field) by (split; cbn; repeat (constructor; cbn); auto; try lia; try discriminate).
  assert (C : text_guarded Ron one_field).
  { exists (fun _ => O). intros [|i] d j H; cbn in H; [injection H as <-; cbn; tauto|]. destruct i; discriminate. }
  assert (D : text_ty Ron one_field (TNamed 0)) by (cbn; lia).
  assert (E : env_all no_time one_field) by (repeat constructor; cbn; auto).
  assert (R : rejects toy c64 one_field Ron (TNamed 0) (chars "(x:1,y:2,)")) by (eexists; apply (de_text_returns _ _ _ _ 12%nat); [vm_compute; reflexivity | discriminate]).
  repeat (split; [assumption|]). split; [apply (de_text_returns _ _ _ _ 12%nat); [vm_compute; reflexivity | discriminate]|]. split; [exact R|].
  apply (C67_rejected toy c64 one_field (TNamed 0) _ A B C D E T). exact R.
Qed.
