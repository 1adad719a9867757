(** C66: exactly which JSON texts [deserialize_json] accepts, and as which value. *)
From Verif Require Import Base Utf8 Types BinModel Text TextModel TextSim TextToks TextLex TextRead SpecText SpecGram SpecObj SpecList TextGram TextMain TextFuel TextLocal TextRun TextEmbed TextObj TextList SpecTok TokLex SpecDoc Doc SpecAcc AccBase AccDoc AccDe PropsBin TextEx PropsObj PropsDoc.
Local Open Scope N_scope.

Section Tokens.
  Variables (F : flt) (fm : fmt).
  Lemma tokens_good xs text r : tokens fm F xs text r -> Forall (good F fm) xs.
  Proof. induction 1 as [|g x xs text r Hg Hx H IH]; constructor; [exists text; exact Hx | exact IH]. Qed.
  Lemma tokens_split xs : forall ys text r, tokens fm F (xs ++ ys) text r -> exists m, tokens fm F xs text m /\ tokens fm F ys m r.
  Proof.
    induction xs as [|x xs IH]; intros ys text r H; [exists text; split; [constructor | exact H]|]. cbn [app] in H. inversion H as [|g x' xs' text' r' Hg Hx Ht]; subst.
    destruct (IH _ _ _ Ht) as (m & H1 & H2). exists m. split; [constructor; assumption | exact H2].
  Qed.
  (** All the tokens of a text. *)
  Lemma text_lexemes text l b : lexs F fm text = (l, b) -> exists xs r, tokens fm F xs text r /\ map (tok_of F fm) xs = l /\ lexs F fm r = ([], b).
  Proof. intro H. apply lexs_tokens. rewrite app_nil_r. exact H. Qed.
  Lemma st0_atx text l b xs r : lexs F fm text = (l, b) -> tokens fm F xs text r -> map (tok_of F fm) xs = l -> atx F fm (st0 l b) xs b.
  Proof. intros H Ht <-. split; [eapply st0_at2; exact H | eapply tokens_good; exact Ht]. Qed.
End Tokens.

(** *** The theorem: a text is accepted, as [v], iff it starts with tokens that
    SpecAcc.v gives the meaning [v] for the type (and the token behind them, if any,
    is one). *)
Theorem C66_accepted F c G t text v : Forall distinct_names G ->
  (parses F c G Json t text (Ok v) <-> accepted F c G t text v).
Proof.
  intro HG. destruct (lexs F Json text) as [l b] eqn:El. destruct (text_lexemes F Json _ _ _ El) as (xs0 & r0 & Ht & Em & Er). split.
  - intro P. assert (Hg : go_on l b).
    { destruct l as [|x l]; [|left; discriminate]. destruct b; [|right; reflexivity]. exfalso. destruct P as [N P]. destruct (run_bad F c G Json N t text El) as [e E]. rewrite (P N (le_n N)) in E. discriminate. }
    destruct (parses_inv_ok F c G Json t text l b v El Hg P) as (N & u' & H). specialize (H N (le_n N)).
    destruct (proj1 (acc_all F c G HG N t) _ _ _ _ _ (st0_atx F Json _ _ _ _ _ El Ht Em) H) as (xs & rest & -> & A' & Hgo & Hk).
    destruct (tokens_split F Json _ _ _ _ Ht) as (r & H1 & H2). exists xs, r, (hstr (head rest)), N. split; [exact H1|]. split; [|exact Hk].
    assert (Hne : xs <> []) by (destruct (takes_shape F c G _ _ _ _ _ Hk) as (x & ys & -> & _); discriminate). specialize (Hgo Hne).
    destruct rest as [|x rest].
    + left. split; [|reflexivity]. destruct Hgo as [Q|Q]; [congruence|]. subst b. inversion H2; subst. eapply lexs_inv_end; exact Er.
    + right. inversion H2 as [|g x' xs' text' r' Hs Hx Hr]; subst. exists g, x, text'. split; [reflexivity|]. split; [exact Hs|]. split; [exact Hx|]. destruct x; reflexivity.
  - intros (xs & r & nx & n & H1 & H2 & Hk). pose proof (tokens_lexs F Json _ _ _ H1) as E1.
    assert (R : exists rest b' r', goes rest b' /\ hstr (head rest) = nx /\ lexs F Json r = (map (tok_of F Json) rest, b') /\ tokens Json F rest r r').
    { destruct H2 as [[He ->]|(g & x & r' & -> & Hs & Hx & ->)].
      - exists [], false, r. split; [right; reflexivity|]. split; [reflexivity|]. split; [apply lexs_at_end; exact He | constructor].
      - pose proof (lexs_token F Json g x r' Hs Hx) as E2. destruct (lexs F Json r') as [l' b'] eqn:El'. destruct (text_lexemes F Json _ _ _ El') as (xs' & r2 & Ht' & Em' & _).
        exists (x :: xs'), b', r2. split; [left; discriminate|]. split; [destruct x; reflexivity|]. split; [rewrite E2; unfold cat; cbn [map app]; rewrite Em'; reflexivity | constructor; assumption]. }
    destruct R as (rest & b' & r' & Hg & Hh & E2 & Ht2). rewrite E2 in E1. unfold cat in E1. cbn [fst snd] in E1. rewrite <- map_app in E1.
    destruct (proj2 (acc_all F c G HG n t) (head rest) xs v) as [N HN]; [rewrite Hh; exact Hk|].
    apply (parses_ok F c G Json t text _ _ v E1); [apply goes_go; apply goes_app; exact Hg|]. exists N. intros k Hk2.
    destruct (HN k Hk2 rest b' (st0 (map (tok_of F Json) (xs ++ rest)) b') eq_refl Hg) as (u' & E & _).
    + split; [eapply st0_at2; exact E1|]. rewrite Forall_app. split; [eapply tokens_good; exact H1 | eapply tokens_good; exact Ht2].
    + rewrite E. reflexivity.
Qed.
(** At most one value. *)
Theorem C66_one_value F c G t text v w : Forall distinct_names G -> accepted F c G t text v -> accepted F c G t text w -> v = w.
Proof.
  intros HG H1 H2. apply (C66_accepted F c G t text v HG) in H1. apply (C66_accepted F c G t text w HG) in H2.
  pose proof (returns_inj _ _ _ H1 H2) as E. congruence.
Qed.

(** *** For scalars *)
Theorem C66_integer F c G k text v : Forall distinct_names G ->
  (parses F c G Json (TInt k) text (Ok v) <->
   exists s z r nx, tokens Json F [XN s] text r /\ followed F r nx /\ int_lit c k s z /\ v = VZ z).
Proof.
  intro HG. rewrite (C66_accepted F c G (TInt k) text v HG). split.
  - intros (xs & r & nx & [|n] & H1 & H2 & Hk); [contradiction|]. cbn [takes] in Hk. destruct Hk as (s & z & -> & -> & H). exists s, z, r, nx. auto.
  - intros (s & z & r & nx & H1 & H2 & H & ->). exists [XN s], r, nx, 1%nat. split; [exact H1|]. split; [exact H2|]. cbn [takes]. eauto.
Qed.
Theorem C66_string F c G text v : Forall distinct_names G ->
  (parses F c G Json TStr text (Ok v) <->
   exists b s r nx, tokens Json F [XS b s] text r /\ followed F r nx /\ v = VStr s).
Proof.
  intro HG. rewrite (C66_accepted F c G TStr text v HG). split.
  - intros (xs & r & nx & [|n] & H1 & H2 & Hk); [contradiction|]. cbn [takes] in Hk. destruct Hk as (b & s & -> & ->). exists b, s, r, nx. auto.
  - intros (b & s & r & nx & H1 & H2 & ->). exists [XS b s], r, nx, 1%nat. split; [exact H1|]. split; [exact H2|]. cbn [takes]. eauto.
Qed.

(** *** Only the tokens count (both formats) *)
Definition alike (x y : lexeme) : Prop := x = y \/ exists b b' s, x = XS b s /\ y = XS b' s.
Theorem C66_same_tokens F c G fm t xs ys text1 r1 text2 r2 v :
  tokens fm F xs text1 r1 -> at_end fm r1 -> tokens fm F ys text2 r2 -> at_end fm r2 -> Forall2 alike xs ys ->
  (parses F c G fm t text1 (Ok v) <-> parses F c G fm t text2 (Ok v)) /\ (rejects F c G fm t text1 <-> rejects F c G fm t text2).
Proof.
  intros H1 E1 H2 E2 Ha. apply tokens_lexs in H1, H2. rewrite (lexs_at_end F fm _ E1) in H1. rewrite (lexs_at_end F fm _ E2) in H2. unfold cat in *. cbn [fst snd] in *. rewrite app_nil_r in *.
  assert (Em : map (tok_of F fm) ys = map (tok_of F fm) xs).
  { clear -Ha. induction Ha as [|x y xs ys Hx H IH]; [reflexivity|]. cbn [map]. f_equal; [|exact IH]. destruct Hx as [->|(b & b' & s & -> & ->)]; reflexivity. }
  rewrite Em in H2.
  assert (Hok : forall ta tb, lexs F fm ta = (map (tok_of F fm) xs, false) -> lexs F fm tb = (map (tok_of F fm) xs, false) -> parses F c G fm t ta (Ok v) -> parses F c G fm t tb (Ok v)).
  { intros ta tb La Lb P. assert (Hg : go_on (map (tok_of F fm) xs) false) by (right; reflexivity). destruct (parses_inv_ok F c G fm t ta _ _ v La Hg P) as (N & u' & H).
    apply (parses_ok F c G fm t tb _ _ v Lb Hg). exists N. intros n Hn. rewrite (H n Hn). reflexivity. }
  assert (Her : forall ta tb, lexs F fm ta = (map (tok_of F fm) xs, false) -> lexs F fm tb = (map (tok_of F fm) xs, false) -> rejects F c G fm t ta -> rejects F c G fm t tb).
  { intros ta tb La Lb [e [N P]]. assert (Hg : go_on (map (tok_of F fm) xs) false) by (right; reflexivity). apply (parses_err F c G fm t tb _ _ Lb Hg).
    pose proof (run_agree F c G fm N t ta _ _ La Hg) as A. rewrite (P N (le_n N)) in A. exists N. destruct (snd (de_text tok_lexer F c G fm N t (st0 (map (tok_of F fm) xs) false))) as [|e'| |]; try contradiction. eauto. }
  split; split; [apply Hok | apply Hok | apply Her | apply Her]; assumption.
Qed.

(** ** Concrete cases *)
(** A struct with fields of many types, in a text with comments, escapes, unknown and
    repeated members (the text of C60). *)
Example C66_ex : Forall distinct_names Gtx /\ exists v, accepted toy c64 Gtx (TNamed 1) dtext v /\ parses toy c64 Gtx Json (TNamed 1) dtext (Ok v).
Proof.
  split; [exact Gtx_names|].
  assert (P : exists v, parses toy c64 Gtx Json (TNamed 1) dtext (Ok v)) by (eexists; apply (de_text_returns _ _ _ _ 14%nat); [vm_compute; reflexivity | discriminate]).
  destruct P as [v P]. exists v. split; [|exact P]. apply (C66_accepted _ _ _ _ _ _ Gtx_names). exact P.
Qed.
(** A plus sign, a trailing comma and a bracket behind the list: taken from the
    specification's side. *)
Example C66_ex_loose : parses toy c64 [] Json (TSeq SVec (TInt U8)) (chars "[+1, 2,]}") (Ok (VSeq [VZ 1; VZ 2])).
Proof.
  apply C66_accepted; [constructor|].
  exists [XP 91; XN (chars "+1"); XP 44; XN (chars "2"); XP 44; XP 93], (chars "}"), None, 2%nat. split; [|split].
  - assert (D : forall x, 48 <= x <= 57 -> digits [x]) by (intros x Hx; constructor; [exact Hx | constructor]).
    change (chars "[+1, 2,]}") with ([] ++ spelled (XP 91) ++ [] ++ spelled (XN (chars "+1")) ++ [] ++ spelled (XP 44) ++ [32] ++ spelled (XN (chars "2")) ++ [] ++ spelled (XP 44) ++ [] ++ spelled (XP 93) ++ chars "}").
    assert (Sp : space Json []) by constructor.
    constructor; [exact Sp | left; cbn; tauto|]. constructor; [exact Sp| |].
    { exists [43], [49], [], []. split; [reflexivity|]. split; [|split].
      - split; [auto|]. split; [apply D; lia|]. split; [auto|]. split; [auto|]. discriminate.
      - split; [cbn; lia|]. split; [cbn; discriminate|]. split; [cbn; split; discriminate|]. discriminate.
      - split; [discriminate | reflexivity]. }
    constructor; [exact Sp | left; cbn; tauto|]. constructor; [apply sp_ws; [unfold ws_char; auto 6 | exact Sp]| |].
    { exists [], [50], [], []. split; [reflexivity|]. split; [|split].
      - split; [auto|]. split; [apply D; lia|]. split; [auto|]. split; [auto|]. discriminate.
      - split; [cbn; lia|]. split; [cbn; discriminate|]. split; [cbn; split; discriminate|]. discriminate.
      - split; [discriminate | reflexivity]. }
    constructor; [exact Sp | left; cbn; tauto|]. constructor; [exact Sp | left; cbn; tauto|]. constructor.
  - right. exists [], (XP 125), []. split; [reflexivity|]. split; [constructor|]. split; [left; cbn; tauto | reflexivity].
  - assert (I : forall s z, (0 <= z < 256)%Z -> SpecDoc.int_literal (unplus s) [] (unplus s) -> signed_value [] (unplus s) = z -> takes toy c64 [] 1 None (TInt U8) [XN s] (VZ z)).
    { intros s z Hz Hl Hv. exists s, z. split; [reflexivity|]. split; [reflexivity|]. split; [discriminate|]. split; [discriminate|]. split; [unfold int_ok; change (ik_min U8) with 0%Z; change (ik_sup c64 U8) with 256%Z; exact Hz|]. exists [], (unplus s). split; [exact Hl|]. cbn [ik_signed]. auto. }
    assert (A : forall x, 48 <= x <= 57 -> all_digits [x]) by (intros x Hx; split; [discriminate | constructor; [exact Hx | constructor]]).
    exists [[XN (chars "+1")]; [XN (chars "2")]], [VZ 1; VZ 2]. split; [|split; [|reflexivity]].
    + eexists. split; [right; split; [discriminate | reflexivity] | reflexivity].
    + apply Forall2_cons; [|apply Forall2_cons; [|apply Forall2_nil]].
      * apply I; [lia | | reflexivity]. split; [reflexivity|]. split; [auto|]. apply (A 49); lia.
      * apply I; [lia | | reflexivity]. split; [reflexivity|]. split; [auto|]. apply (A 50); lia.
Qed.
(** Not accepted. *)
Example C66_ex_not : ~ exists v, accepted toy c64 [] (TSeq SVec (TInt U8)) (chars "[1 2]") v.
Proof.
  intros [v H]. apply C66_accepted in H; [|constructor].
  assert (P : exists e, parses toy c64 [] Json (TSeq SVec (TInt U8)) (chars "[1 2]") (Err e)) by (eexists; apply (de_text_returns _ _ _ _ 12%nat); [vm_compute; reflexivity | discriminate]).
  destruct P as [e P]. pose proof (returns_inj _ _ _ P H). discriminate.
Qed.
(** The name of a unit variant is compared with the string that follows, if one does. *)
Definition ab_enum : env := [DEnum [{| v_name := chars "A"; v_rename := None; v_body := BUnit |}; {| v_name := chars "B"; v_rename := None; v_body := BUnit |}]].
Example C66_ex_next : parses toy c64 ab_enum Json (TNamed 0) (34 :: chars "A" ++ [34; 32; 34] ++ chars "B" ++ [34]) (Ok (VEnum 1 [])).
Proof. apply (de_text_returns _ _ _ _ 12%nat); [vm_compute; reflexivity | discriminate]. Qed.

(** *** What follows the value (C29) *)
(** The tokens of the value alone decide, with the string that follows if one does:
    whatever else comes behind them is never looked at. *)
Theorem C29_rest_ignored F c G t text v : Forall distinct_names G -> parses F c G Json t text (Ok v) ->
  exists xs r nx, tokens Json F xs text r /\ followed F r nx /\
    forall text' r', tokens Json F xs text' r' -> followed F r' nx -> parses F c G Json t text' (Ok v).
Proof.
  intros HG P. apply (C66_accepted F c G t text v HG) in P. destruct P as (xs & r & nx & n & H1 & H2 & H3).
  exists xs, r, nx. split; [exact H1|]. split; [exact H2|]. intros text' r' K1 K2.
  apply (C66_accepted F c G t text' v HG). exists xs, r', nx, n. auto.
Qed.
Example C29_rest_ex : Forall distinct_names Gtx /\ exists v, parses toy c64 Gtx Json (TNamed 1) dtext (Ok v).
Proof. split; [exact Gtx_names|]. destruct C66_ex as [_ [v [_ H]]]. eauto. Qed.
