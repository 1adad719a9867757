(** Property theorems on JSON and RON, first part: round trips, strings, options,
    skipped fields, proxies, enums, integers, and the properties the code refutes. *)
From Verif Require Import Base Utf8 Types BinModel BinRead Text TextModel TextSim TextToks TextLex TextRead SpecText
  TextRound TextMain TextFuel TextRun PropsBin TextEx.
Local Open Scope N_scope.

(** [v] is a value of type [t] for which the round trip is claimed (SpecText.v). *)
Definition text_typed (c : cfg) (G : env) (fm : fmt) (t : ty) (v : val) : Prop :=
  exists n, text_value c G fm n t v.

(** * C17 *)
Theorem C17_json_roundtrip F c G t v :
  flt_ok F -> cfg_ok c -> text_typed c G Json t v ->
  exists text, writes F c G Json t v text /\ parses F c G Json t text (Ok v).
Proof. intros HF Hc [n H]. exact (text_round_trip F c G Json HF Hc n t v H). Qed.
Print Assumptions C17_json_roundtrip.
Example C17_ex : flt_ok toy /\ cfg_ok c64 /\ text_typed c64 Gtx Json (TNamed 1) vtx /\
  let text := chars "{""id"":-5,""Tree"":{""Node"":[{""Tagged"":{""name"":""" ++ 233 ::
              chars "\"""",}},7]},""m"":{""a"":true,""b"":false},""o"":3,""x"":1.0,""d"":9,""at"":{""secs"":5,""nanos"":6}}" in
  serialize_text toy c64 Gtx Json 9 (TNamed 1) vtx = Ok text /\
  deserialize_text toy c64 Gtx Json 9 (TNamed 1) text = Ok vtx.
Proof.
  split; [apply toy_ok|]. split; [apply c64_ok|]. split; [exists 6%nat; apply vtx_typed|]. split; reflexivity.
Qed.

(** * C35 *)
Theorem C35_ron_roundtrip F c G t v :
  flt_ok F -> cfg_ok c -> text_typed c G Ron t v ->
  exists text, writes F c G Ron t v text /\ parses F c G Ron t text (Ok v).
Proof. intros HF Hc [n H]. exact (text_round_trip F c G Ron HF Hc n t v H). Qed.
Print Assumptions C35_ron_roundtrip.
Example C35_ex : text_typed c64 Gtx Ron (TNamed 1) vtx /\
  let text := chars "(id:-5,Tree:Node(Tagged(name:""" ++ 233 ::
              chars "\"""",),7),m:{""a"":true,""b"":false,},o:3,x:1.0,d:9,at:{""secs"":5,""nanos"":6},)" in
  serialize_text toy c64 Gtx Ron 9 (TNamed 1) vtx = Ok text /\
  deserialize_text toy c64 Gtx Ron 9 (TNamed 1) text = Ok vtx.
Proof. split; [exists 6%nat; apply vtx_typed|]. split; reflexivity. Qed.

(** * C18, C36 *)
(** The inside of a string literal: characters other than quotes, backslashes and
    controls, and escape sequences (a backslash and a printable ASCII character). *)
Inductive literal_body : str -> Prop :=
| lb_nil : literal_body []
| lb_char x s : 32 <= x -> x <> 127 -> x <> c_quote -> x <> c_bslash -> literal_body s -> literal_body (x :: s)
| lb_esc x s : 32 < x < 127 -> literal_body s -> literal_body (c_bslash :: x :: s).
Lemma literal_app a b : literal_body a -> literal_body b -> literal_body (a ++ b).
Proof. induction 1 as [|x s H1 H2 H3 H4 _ IH|x s H1 _ IH]; intro Hb; cbn [app]; [assumption | apply lb_char; auto | apply lb_esc; auto]. Qed.
Lemma hexdig_plain d : d < 16 -> forall s, literal_body s -> literal_body (hexdig d :: s).
Proof.
  intros H s Hs. unfold hexdig. destruct (d <? 10) eqn:E; [apply N.ltb_lt in E | apply N.ltb_ge in E];
    (apply lb_char; unfold c_quote, c_bslash; try lia; assumption).
Qed.
Lemma esc_json_literal x : literal_body (esc_char Json x).
Proof.
  unfold esc_char.
  destruct (x =? 8) eqn:E1; [repeat constructor; lia|].
  destruct (x =? 12) eqn:E2; [repeat constructor; lia|].
  destruct (x =? 10) eqn:E3; [repeat constructor; lia|].
  destruct (x =? 13) eqn:E4; [repeat constructor; lia|].
  destruct (x =? 9) eqn:E5; [repeat constructor; lia|].
  destruct ((x <? 32) || (x =? 127)) eqn:E6.
  { change (chars "\u" ++ hex4 x) with (c_bslash :: 117 :: hex4 x). apply lb_esc; [lia|]. unfold hex4.
    repeat (apply hexdig_plain; [apply N.mod_lt; discriminate|]). constructor. }
  apply orb_false_iff in E6 as [E6 E7]. apply N.ltb_ge in E6. apply N.eqb_neq in E7.
  destruct (x =? c_bslash) eqn:E8; [repeat constructor; unfold c_bslash; lia|].
  destruct (x =? c_quote) eqn:E9; [repeat constructor; unfold c_quote; lia|].
  apply N.eqb_neq in E8. apply N.eqb_neq in E9. constructor; auto. constructor.
Qed.

Theorem C18_json_strings F c G s :
  exists body, literal_body body /\
    writes F c G Json TStr (VStr s) (c_quote :: body ++ [c_quote]) /\
    parses F c G Json TStr (c_quote :: body ++ [c_quote]) (Ok (VStr s)).
Proof.
  exists (flat_map (esc_char Json) s). split; [|split].
  - induction s as [|x s IH]; cbn [flat_map]; [constructor|]. apply literal_app; [apply esc_json_literal | exact IH].
  - apply (ser_text_returns F c G Json 1); [reflexivity | discriminate].
  - apply (parses_ok F c G Json TStr _ [LStr s] false).
    + apply (lexes_end F Json (esc_str Json s)). apply lexes_weak, lexes_str.
    + right; reflexivity.
    + exists 1%nat. intros n Hn. destruct n as [|n]; [lia|]. cbn [de_text].
      destruct (reads_map VStr _ _ _ (str_read s) [] false (st0 [LStr s] false) eq_refl (st0_at _ _)) as (u' & E & _).
      rewrite E. reflexivity.
Qed.
Print Assumptions C18_json_strings.
Example C18_ex : serialize_text toy c64 [] Json 1 TStr (VStr [97; 34; 1; 10; 128512]) = Ok (chars """a\""\u0001\n" ++ [128512; 34]).
Proof. reflexivity. Qed.

Theorem C36_ron_strings F c G s :
  exists text, writes F c G Ron TStr (VStr s) text /\ parses F c G Ron TStr text (Ok (VStr s)).
Proof.
  exists (esc_str Ron s). split.
  - apply (ser_text_returns F c G Ron 1); [reflexivity | discriminate].
  - apply (parses_ok F c G Ron TStr _ [LStr s] false).
    + apply (lexes_end F Ron (esc_str Ron s)). apply lexes_weak, lexes_str.
    + right; reflexivity.
    + exists 1%nat. intros n Hn. destruct n as [|n]; [lia|]. cbn [de_text].
      destruct (reads_map VStr _ _ _ (str_read s) [] false (st0 [LStr s] false) eq_refl (st0_at _ _)) as (u' & E & _).
      rewrite E. reflexivity.
Qed.
Print Assumptions C36_ron_strings.
Example C36_ex : serialize_text toy c64 [] Ron 1 TStr (VStr [97; 34; 0; 10; 128512]) = Ok (chars """a\""\0\n" ++ [128512; 34]).
Proof. reflexivity. Qed.

(** * C31 *)
(** What is read back for [Some(w)]: [Some(w)], except that a [w] whose text is
    the text of the absent option comes back as [None]. *)
Theorem C31_option_partial F c G fm t w :
  flt_ok F -> cfg_ok c -> forall n, text_value c G fm n t w ->
  exists text, writes F c G fm (TOpt t) (VSome w) text /\
    parses F c G fm (TOpt t) text (Ok (if looks_none G fm n t w then VNone else VSome w)).
Proof.
  intros HF Hc n Hv. destruct (written_ok F c G fm HF Hc n t w Hv) as ((text & l) & Hs & [W1 W2 [N W3]] & W4).
  cbn [fst snd] in *. exists text. split.
  - apply (ser_text_returns F c G fm (S n)); [|discriminate]. unfold serialize_text. cbn [ser_text]. apply Hs. lia.
  - destruct (vtoks_head _ _ W2) as (x & r & El & _).
    apply (parses_ok F c G fm (TOpt t) text l false); [apply lexes_end; exact W1 | right; reflexivity |].
    exists (S N). intros m Hm. destruct m as [|m]; [lia|]. cbn [de_text].
    pose proof (st0_at l false) as Ha. rewrite <- (app_nil_r l) in Ha at 2.
    unfold de_opt. rewrite (none_at fm _ _ _ _ W2 Ha), W4.
    destruct (looks_none G fm n t w).
    + rewrite El in *. rewrite app_nil_r in Ha. destruct (next_at _ x r false Ha ltac:(right; reflexivity)) as (u' & E & _).
      unfold pbind. cbn [l_next tok_lexer]. rewrite E. reflexivity.
    + destruct (reads_map VSome _ _ _ (W3 m ltac:(lia)) [] false _ eq_refl Ha) as (u' & E & _). rewrite E. reflexivity.
Qed.
Print Assumptions C31_option_partial.
(** As stated the property is false: Some(None) and, in JSON, Some(()) come back as None. *)
Theorem C31_refuted F c G fm t :
  exists text, writes F c G fm (TOpt (TOpt t)) (VSome VNone) text /\ parses F c G fm (TOpt (TOpt t)) text (Ok VNone).
Proof.
  exists (none_text fm). split.
  - apply (ser_text_returns F c G fm 2); [reflexivity | discriminate].
  - destruct fm; eapply (de_text_returns F c G _ 2); try discriminate; reflexivity.
Qed.
Theorem C31_refuted_unit F c G :
  writes F c G Json (TOpt TUnit) (VSome VUnit) (chars "null") /\ parses F c G Json (TOpt TUnit) (chars "null") (Ok VNone).
Proof.
  split.
  - apply (ser_text_returns F c G Json 2); [reflexivity | discriminate].
  - eapply (de_text_returns F c G _ 2); try discriminate; reflexivity.
Qed.
Print Assumptions C31_refuted.

(** * C14 *)
Lemma ser_named_same fm s cnull fs : forall l1 l2, same_unskipped fs l1 l2 ->
  ser_named fm s cnull fs l1 = ser_named fm s cnull fs l2.
Proof.
  induction fs as [|f fs IH]; intros l1 l2 (L1 & L2 & H).
  - destruct l1; [|discriminate]. destruct l2; [|discriminate]. reflexivity.
  - destruct l1 as [|v1 l1]; [discriminate|]. destruct l2 as [|v2 l2]; [discriminate|].
    assert (Hr : same_unskipped fs l1 l2).
    { simpl in L1, L2. split; [lia|]. split; [lia|]. intros j g Hj. exact (H (S j) g Hj). }
    cbn [ser_named]. destruct (f_skip f) eqn:Ef; [apply IH; assumption|].
    assert (E := H 0%nat f eq_refl Ef). simpl in E. injection E as ->. rewrite (IH _ _ Hr). reflexivity.
Qed.
(** The output does not depend on skipped fields. *)
Theorem C14_text_skip_output F c G fm i dflt nl fs l1 l2 :
  nth_error G i = Some (DStruct dflt nl fs) -> same_unskipped fs l1 l2 ->
  forall n, serialize_text F c G fm n (TNamed i) (VSeq l1) = serialize_text F c G fm n (TNamed i) (VSeq l2).
Proof.
  intros Hi Hs n. destruct n as [|n]; [reflexivity|]. unfold serialize_text. cbn [ser_text]. rewrite Hi.
  rewrite (ser_named_same fm _ nl fs l1 l2 Hs). reflexivity.
Qed.
Print Assumptions C14_text_skip_output.
Lemma unwrap_skip {S} (L : lexer S) dflt fs : forall acc s s' l, length acc = length fs ->
  unwrap_fields L dflt fs acc s = (s', Ok l) -> Forall2 (fun f v => f_skip f = true -> v = omitted_value f) fs l.
Proof.
  induction fs as [|f fs IH]; intros [|o acc] s s' l Hlen H; try discriminate.
  - cbn in H. injection H as _ <-. constructor.
  - cbn [unwrap_fields] in H. unfold pbind in H.
    destruct (unwrap_field L dflt f o s) as [s1 [v|e|p|]] eqn:E1; try discriminate.
    destruct (unwrap_fields L dflt fs acc s1) as [s2 [r|e|p|]] eqn:E2; try discriminate.
    injection H as _ <-. constructor; [|refine (IH acc s1 s2 r _ E2); simpl in Hlen; lia].
    intro Hs. unfold unwrap_field, omitted_value in *. rewrite Hs in E1. destruct o; destruct (f_default f); cbn in E1; injection E1; auto.
Qed.
Lemma set_nth_length {A} i (x : A) l : length (set_nth i x l) = length l.
Proof. revert i; induction l as [|y l IH]; intros [|i]; simpl; auto. Qed.
Lemma while_inv {S A} (P : A -> Prop) (cond : S -> bool) (body : A -> pm A) :
  (forall a s s' a', P a -> body a s = (s', Ok a') -> P a') ->
  forall n a s s' a', P a -> while_ n cond body a s = (s', Ok a') -> P a'.
Proof.
  intros Hb. induction n as [|n IH]; intros a s s' a' Ha H; [discriminate|]. cbn [while_] in H.
  destruct (cond s); [|injection H as _ <-; exact Ha]. unfold pbind in H.
  destruct (body a s) as [s1 [a1|e|p|]] eqn:E; try discriminate. eapply IH; [|exact H]. eapply Hb; eassumption.
Qed.
Lemma named_body_length {S} (L : lexer S) fm d n fs acc s s' acc' :
  named_body L fm d n fs acc s = (s', Ok acc') -> length acc' = length acc.
Proof.
  unfold named_body, pbind. intro H.
  destruct (find_field (key_of L fm s) fs 0) as [[i f]|].
  - destruct (p_next_colon L s) as [s1 [u|e|p|]]; try discriminate.
    destruct (de_field d f s1) as [s2 [v|e|p|]]; try discriminate. cbn [pret] in H.
    destruct (eat_scomma L fm s2) as [s3 [u2|e|p|]]; try discriminate. injection H as _ <-. apply set_nth_length.
  - destruct fs.
    + destruct (eat_scomma L fm s) as [s3 [u2|e|p|]]; try discriminate. injection H as _ <-. reflexivity.
    + destruct fm; [|discriminate].
      destruct (p_next_colon L s) as [s1 [u|e|p|]]; try discriminate.
      destruct (whole_field L n s1) as [s2 [v|e|p|]]; try discriminate. cbn [pret] in H.
      destruct (eat_scomma L Json s2) as [s3 [u2|e|p|]]; try discriminate. injection H as _ <-. reflexivity.
Qed.
(** Whatever the text, a skipped field is given its default. *)
Theorem C14_text_skip_input F c G fm i dflt nl fs text v :
  nth_error G i = Some (DStruct dflt nl fs) -> parses F c G fm (TNamed i) text (Ok v) ->
  exists l, v = VSeq l /\ Forall2 (fun f w => f_skip f = true -> w = omitted_value f) fs l.
Proof.
  intros Hi [N H]. specialize (H (S N) (le_S _ _ (le_n N))). unfold deserialize_text, de_first in H.
  unfold pbind in H at 1.
  destruct (l_next (text_lexer F fm) (start fm text)) as [s0 [u|e|p|]]; try discriminate.
  cbn [de_text] in H. rewrite Hi in H. unfold de_named, pmap in H. unfold pbind in H at 1 2.
  destruct (expect (text_lexer F fm) (k_sopen fm) (w_sopen fm) s0) as [s1 [u1|e|p|]]; try discriminate.
  unfold pbind in H at 1.
  match type of H with context [while_ ?n ?c0 ?b ?a0 s1] => destruct (while_ n c0 b a0 s1) as [s2 [acc|e|p|]] eqn:Ew; try discriminate end.
  unfold pbind in H at 1.
  destruct (expect (text_lexer F fm) (k_sclose fm) (w_sclose fm) s2) as [s3 [u3|e|p|]]; try discriminate.
  destruct (unwrap_fields (text_lexer F fm) dflt fs acc s3) as [s4 [l|e|p|]] eqn:Eu; try discriminate.
  cbn in H. injection H as <-. exists l. split; [reflexivity|].
  eapply unwrap_skip; [|exact Eu].
  refine (while_inv (fun a => length a = length fs) _ _ _ _ _ _ _ _ _ Ew).
  - intros a s s' a' Ha Hb. rewrite (named_body_length _ _ _ _ _ _ _ _ _ Hb). exact Ha.
  - apply map_length.
Qed.
Print Assumptions C14_text_skip_input.
Example C14_text_ex : (* the field named cache cannot be set from the text *)
  deserialize_text toy c64 [DStruct false false [fld (chars "cache") true (VZ 4) (TInt U8); fld (chars "a") false (VZ 0) (TInt U8)]]
    Json 9 (TNamed 0) (chars "{""cache"":77,""a"":1}") = Ok (VSeq [VZ 4; VZ 1]).
Proof. reflexivity. Qed.
(** In tuple structs JSON ignores [skip]: the field is written. *)
Theorem C14_refuted_tuple_struct :
  let G := [DTuple false [fld [] true (VZ 0) (TInt U8); fld [] false (VZ 0) (TInt U8)]] in
  serialize_text toy c64 G Json 9 (TNamed 0) (VSeq [VZ 1; VZ 2]) <> serialize_text toy c64 G Json 9 (TNamed 0) (VSeq [VZ 3; VZ 2]).
Proof. intros G H. cbv in H. discriminate. Qed.

(** * C16 (JSON) *)
Theorem C16_json_proxy F c G p t v text :
  flt_ok F -> cfg_ok c ->
  (writes F c G Json (TProxy p t) v text <-> writes F c G Json t (p_to p v) text) /\
  (text_typed c G Json t (p_to p v) -> p_from p (p_to p v) = v -> writes F c G Json t (p_to p v) text ->
   parses F c G Json (TProxy p t) text (Ok v)).
Proof.
  intros HF Hc. split.
  - split; intros [N H]; exists (S N); intros n Hn; (destruct n as [|n]; [lia|]).
    + specialize (H (S (S n)) ltac:(lia)). exact H.
    + unfold serialize_text in *. cbn [ser_text]. apply H. lia.
  - intros [n Hv] Hp W.
    destruct (text_round_trip F c G Json HF Hc (S n) (TProxy p t) v) as (out & W' & P).
    { cbn [text_value]. auto. }
    assert (E : out = text).
    { destruct W' as [N1 W'], W as [N2 W]. specialize (W' (S (N1 + N2)) ltac:(lia)). specialize (W (N1 + N2)%nat ltac:(lia)).
      unfold serialize_text in *. cbn [ser_text] in W'. congruence. }
    subst out. exact P.
Qed.
Print Assumptions C16_json_proxy.
Theorem C16_json_container_proxy F c G i p t v text :
  flt_ok F -> cfg_ok c -> nth_error G i = Some (DProxy p t) ->
  (writes F c G Json (TNamed i) v text <-> writes F c G Json t (p_to p v) text) /\
  (text_typed c G Json t (p_to p v) -> p_from p (p_to p v) = v -> writes F c G Json t (p_to p v) text ->
   parses F c G Json (TNamed i) text (Ok v)).
Proof.
  intros HF Hc Hi. split.
  - split; intros [N H]; exists (S N); intros n Hn; (destruct n as [|n]; [lia|]).
    + specialize (H (S (S n)) ltac:(lia)). unfold serialize_text in H. cbn [ser_text] in H. rewrite Hi in H.
      exact H.
    + unfold serialize_text in *. cbn [ser_text]. rewrite Hi. apply H. lia.
  - intros [n Hv] Hp W.
    destruct (text_round_trip F c G Json HF Hc (S n) (TNamed i) v) as (out & W' & P).
    { cbn [text_value]. rewrite Hi. auto. }
    assert (E : out = text).
    { destruct W' as [N1 W'], W as [N2 W]. specialize (W' (S (N1 + N2)) ltac:(lia)). specialize (W (N1 + N2)%nat ltac:(lia)).
      unfold serialize_text in *. cbn [ser_text] in W'. rewrite Hi in W'. congruence. }
    subst out. exact P.
Qed.
Print Assumptions C16_json_container_proxy.
Example C16_json_ex :
  let t := TTup [TInt U8; TInt U8] in
  serialize_text toy c64 [] Json 3 (TProxy swap_proxy t) (VSeq [VZ 1; VZ 2]) = Ok (chars "[2,1]") /\
  deserialize_text toy c64 [] Json 3 (TProxy swap_proxy t) (chars "[2,1]") = Ok (VSeq [VZ 1; VZ 2]).
Proof. split; reflexivity. Qed.
