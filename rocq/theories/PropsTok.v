(** C19, C21, C22, C29, C33, C39, C40: literals, space, and what is left over. *)
From Verif Require Import Base Utf8 Types BinModel BinRead SpecBin Text TextModel TextSim TextToks TextLex TextRead SpecText SpecGram SpecObj SpecList TextRound TextGram TextSpace TextMain TextFuel TextLocal TextRun TextEmbed TextEx PropsBin PropsText PropsObj.
Local Open Scope N_scope.

(** ** C21, C39 *)
(** Two texts made of the same tokens, however spaced and commented, have the
    same outcome: same value, both an error, both the same panic, both endless. *)
Theorem C21_space_irrelevant F c G fm t ls a b r : spaced fm ls a -> spaced fm ls b ->
  (forall v, parses F c G fm t a (Ok v) -> parses F c G fm t b (Ok v)) /\
  (rejects F c G fm t a -> rejects F c G fm t b) /\
  (parses F c G fm t a (Panic r) -> parses F c G fm t b (Panic r)) /\
  (hangs F c G fm t a -> hangs F c G fm t b).
Proof.
  intros Ha Hb. assert (E : lexs F fm a = lexs F fm b) by (rewrite (spaced_tokens F fm ls a Ha), (spaced_tokens F fm ls b Hb); reflexivity).
  pose proof (fun n => same_tokens F c G fm n t a b E) as S. split; [|split; [|split]].
  - intros v [N H]. exists N. intros n Hn. specialize (S n). rewrite (H n Hn) in S. destruct (deserialize_text F c G fm n t b); try contradiction. cbn in S. congruence.
  - intros [e [N H]]. specialize (S N). rewrite (H N (le_n N)) in S. destruct (deserialize_text F c G fm N t b) as [|e'| |] eqn:E2; try contradiction.
    exists e'. eapply de_text_returns; [exact E2 | discriminate].
  - intros [N H]. exists N. intros n Hn. specialize (S n). rewrite (H n Hn) in S. destruct (deserialize_text F c G fm n t b); try contradiction. cbn in S. congruence.
  - intros H n. specialize (S n). rewrite (H n) in S. destruct (deserialize_text F c G fm n t b); try contradiction. reflexivity.
Qed.
Theorem C39_space_irrelevant F c G t ls a b r : spaced Ron ls a -> spaced Ron ls b ->
  (forall v, parses F c G Ron t a (Ok v) -> parses F c G Ron t b (Ok v)) /\
  (rejects F c G Ron t a -> rejects F c G Ron t b) /\
  (parses F c G Ron t a (Panic r) -> parses F c G Ron t b (Panic r)) /\
  (hangs F c G Ron t a -> hangs F c G Ron t b).
Proof. apply C21_space_irrelevant. Qed.

(** Example: comments and line ends between all tokens. *)
Lemma digits_number d : all_digits d -> number d.
Proof.
  intro H. exists [], d, [], []. rewrite !app_nil_r. split; [reflexivity|]. split; [|intros []]. split; [auto|]. auto.
Qed.
Ltac digits_tac := split; [discriminate | repeat constructor; discriminate].
Example C21_ex : spaced Json [[91]; chars "1"; [44]; quoted (chars "a b"); [93]] (chars "[1,""a b""]") /\
  spaced Json [[91]; chars "1"; [44]; quoted (chars "a b"); [93]] (chars " [1 /* , */,  ""a b""" ++ [10] ++ chars "] // end").
Proof.
  assert (B : any_body (chars "a b")) by (eexists; cbn; plain_tac). split.
  - apply (sp_mark Json [] 91); [gap_tac | left; cbn; auto 10|].
    apply (sp_num Json [] (chars "1") _ (chars ",""a b""]")); [gap_tac | apply digits_number; digits_tac | right; cbn; auto 10|].
    apply (sp_mark Json [] 44); [gap_tac | left; cbn; auto 10|].
    apply (sp_str Json [] (chars "a b") _ [93]); [gap_tac | exact B|].
    apply (sp_mark Json [] 93 [] []); [gap_tac | left; cbn; auto 10|]. apply sp_end. gap_tac.
  - apply (sp_mark Json [32] 91); [gap_tac | left; cbn; auto 10|].
    apply (sp_num Json [] (chars "1") _ (chars " /* , */,  ""a b""" ++ [10] ++ chars "] // end")); [gap_tac | apply digits_number; digits_tac | right; cbn; auto 10|].
    apply (sp_mark Json (chars " /* , */") 44).
    { apply gap_ws; [unfold ws_char; auto|]. apply (gap_block (chars " , ") []); [repeat constructor; discriminate | intros r; discriminate | | gap_tac].
      intros x y. do 4 (destruct x as [|? x]; [discriminate|]). discriminate. }
    { left; cbn; auto 10. }
    apply (sp_str Json (chars "  ") (chars "a b")); [gap_tac | exact B|].
    apply (sp_mark Json [10] 93 [] (chars " // end")); [gap_tac | left; cbn; auto 10|].
    apply (sp_comment Json [32] (chars " end")); [gap_tac | repeat constructor; discriminate].
Qed.

(** ** C22 *)
Theorem C22_string_literal F c G fm g1 b g2 s : gap g1 -> gap g2 -> chars_of b s ->
  parses F c G fm TStr (g1 ++ quoted b ++ g2) (Ok (VStr s)).
Proof.
  intros Hg1 Hg2 Hb. assert (L : lexs F fm (g1 ++ quoted b ++ g2) = ([LStr s], false)).
  { apply (lexes_end F fm), (lexes_app_r F fm g1 _ [] [LStr s]); [apply gap_lexes; exact Hg1|]. apply lexes_weak.
    apply (lexes_any_app F fm (quoted b) g2 [LStr s] []); [apply lexes_quoted; exact Hb | apply gap_lexes; exact Hg2]. }
  apply (parses_ok F c G fm TStr _ _ false _ L (or_intror eq_refl)). exists 1%nat. intros n Hn. destruct n as [|n]; [lia|]. reflexivity.
Qed.
(** What follows backslash-u is not the escape of a character. *)
Definition bad_escape (r : str) : Prop :=
  (forall h n r', r = h ++ r' -> ~ hex_quad h n) \/
  (exists h n r', r = h ++ r' /\ hex_quad h n /\ low_surrogate n) \/
  (exists h n r', r = h ++ r' /\ hex_quad h n /\ high_surrogate n /\
     forall h2 b r2, r' = [92; 117] ++ h2 ++ r2 -> hex_quad h2 b -> ~ low_surrogate b).
Lemma hexval_digit x d : hexval x = Some d -> hex_digit x d.
Proof.
  unfold hexval, hex_digit. destruct (is_digit x) eqn:E; [intro H; injection H as <-; apply digit_range in E; left; auto|].
  destruct ((97 <=? x) && (x <=? 102)) eqn:E1; [intro H; injection H as <-; apply andb_prop in E1 as [A B]; apply N.leb_le in A, B; right; left; lia|].
  destruct ((65 <=? x) && (x <=? 70)) eqn:E2; [intro H; injection H as <-; apply andb_prop in E2 as [A B]; apply N.leb_le in A, B; right; right; lia|]. discriminate.
Qed.
Lemma xdigits_quad l l' n : xdigits 4 0 l = (l', Some n) -> exists h, l = h ++ l' /\ hex_quad h n.
Proof.
  cbn [xdigits]. destruct (hexval (cur l)) as [a|] eqn:Ea; [|discriminate]. destruct (hexval (cur (tl l))) as [b|] eqn:Eb; [|discriminate].
  destruct (hexval (cur (tl (tl l)))) as [d|] eqn:Ed; [|discriminate]. destruct (hexval (cur (tl (tl (tl l))))) as [e|] eqn:Ee; [|discriminate].
  intro H. injection H as <- <-. destruct l as [|x1 l]; [discriminate|]. destruct l as [|x2 l]; [discriminate|]. destruct l as [|x3 l]; [discriminate|]. destruct l as [|x4 l]; [discriminate|].
  cbn [cur tl] in *. exists [x1; x2; x3; x4]. split; [reflexivity|]. exists x1, x2, x3, x4, a, b, d, e. split; [reflexivity|].
  do 4 (split; [apply hexval_digit; assumption|]). lia.
Qed.
Lemma quad_unique h n h2 n2 r r2 : hex_quad h n -> hex_quad h2 n2 -> h ++ r = h2 ++ r2 -> n = n2 /\ r = r2.
Proof.
  intros H1 H2 E. pose proof (quad_xdigits h n r H1) as [X _]. pose proof (quad_xdigits h2 n2 r2 H2) as [X2 _]. unfold str in *. rewrite E in X. rewrite X in X2. injection X2; auto.
Qed.
Lemma bad_unescape r : bad_escape r -> exists l, hex_unescape r = (l, None).
Proof.
  intro H. unfold hex_unescape. destruct (xdigits 4 0 r) as [l1 [a|]] eqn:E; [|eauto].
  destruct (xdigits_quad _ _ _ E) as (h & -> & Hq). destruct H as [H|[(h2 & n & r' & E2 & H2 & Hl)|(h2 & n & r' & E2 & H2 & Hh & Hno)]].
  - exfalso. exact (H h a l1 eq_refl Hq).
  - destruct (quad_unique _ _ _ _ _ _ Hq H2 E2) as [-> ->]. unfold low_surrogate in Hl.
    replace ((n <? 0xd800) || (0xdfff <? n)) with false by (symmetry; apply orb_false_intro; lia).
    replace (n <? 0xdc00) with false by lia. cbn [andb]. eauto.
  - destruct (quad_unique _ _ _ _ _ _ Hq H2 E2) as [-> ->]. unfold high_surrogate in Hh.
    replace ((n <? 0xd800) || (0xdfff <? n)) with false by (symmetry; apply orb_false_intro; lia).
    replace (n <? 0xdc00) with true by lia. cbn [andb]. destruct (cur r' =? c_bslash) eqn:Eb; [|eauto].
    destruct (cur (tl r') =? 117) eqn:Eu; [|eauto]. destruct (xdigits 4 0 (tl (tl r'))) as [l3 [b|]] eqn:E3; [|eauto].
    destruct ((0xdc00 <=? b) && (b <? 0xe000)) eqn:Elow; [|eauto]. exfalso. destruct (xdigits_quad _ _ _ E3) as (h3 & E4 & Hq3).
    apply N.eqb_eq in Eb, Eu. destruct r' as [|x r']; [discriminate|]. destruct r' as [|y r']; [discriminate|]. cbn [cur tl] in *. subst.
    apply (Hno h3 b l3 eq_refl Hq3). apply andb_prop in Elow as [A B]. unfold low_surrogate. lia.
Qed.
Theorem C22_bad_escape F c G fm t g p r : gap g -> any_body p -> bad_escape r ->
  rejects F c G fm t (g ++ 34 :: p ++ [92; 117] ++ r).
Proof.
  intros Hg [s Hp] Hr. assert (L : lexs F fm (g ++ 34 :: p ++ [92; 117] ++ r) = ([], true)).
  { rewrite (gap_lexes F fm g Hg), cat_nil. set (body := p ++ [92; 117] ++ r).
    assert (E : exists l, scan_str (length body) body = (l, None)).
    { pose proof (chars_len _ _ Hp) as Hl. destruct (scan_chars p s Hp (length body) ([92; 117] ++ r)) as (m & Em & E); [unfold body; rewrite app_length; lia|].
      unfold body at 2. rewrite E. unfold body in Em. rewrite app_length in Em. cbn [length app] in Em. destruct m as [|m]; [lia|].
      destruct (bad_unescape r Hr) as [l Hu]. exists l. cbn [app scan_str]. change (92 =? c_quote) with false. change (92 =? c_bslash) with true. cbn [cur tl].
      change (117 =? 0) with false. change (117 =? 117) with true. cbn iota. rewrite Hu. reflexivity. }
    destruct E as [l E]. apply (lexs_err F fm _ l). unfold TextToks.lex1. cbn [length scan]. rewrite not_ws_drop by reflexivity. cbn [cur tl].
    change (34 =? 0) with false. change (34 =? c_slash) with false. replace (punct fm 34) with (@None tok) by (destruct fm; reflexivity).
    replace (num_start fm 34) with false by (destruct fm; reflexivity). change (is_alpha 34) with false. change (34 =? c_quote) with true. cbn iota. rewrite E. reflexivity. }
  destruct (run_bad F c G fm 1 t _ L) as [e He]. exists e. eapply de_text_returns; [exact He | discriminate].
Qed.
Example C22_ex : chars_of (chars "\ud83d\ude00\u00e9") [128512; 233] /\
  bad_escape (chars "d83dx""") /\ bad_escape (chars "dc00""") /\ bad_escape (chars "12g4""") /\ bad_escape (chars "d83d\u0041""").
Proof.
  assert (Q : forall a b d e x y z w, hex_digit a x -> hex_digit b y -> hex_digit d z -> hex_digit e w -> hex_quad [a; b; d; e] (x * 4096 + y * 256 + z * 16 + w))
    by (intros; exists a, b, d, e, x, y, z, w; auto 10).
  assert (Hd : forall x, 48 <= x <= 57 -> hex_digit x (x - 48)) by (intros; left; auto).
  assert (Ha : forall x, 97 <= x <= 102 -> hex_digit x (x - 87)) by (intros; right; left; auto).
  assert (Qd83d : hex_quad (chars "d83d") 0xd83d) by (apply (Q 100 56 51 100 13 8 3 13); first [apply Hd; lia | apply Ha; lia]).
  assert (Qdc00 : hex_quad (chars "dc00") 0xdc00) by (apply (Q 100 99 48 48 13 12 0 0); first [apply Hd; lia | apply Ha; lia]).
  assert (Qde00 : hex_quad (chars "de00") 0xde00) by (apply (Q 100 101 48 48 13 14 0 0); first [apply Hd; lia | apply Ha; lia]).
  assert (Q00e9 : hex_quad (chars "00e9") 0xe9) by (apply (Q 48 48 101 57 0 0 14 9); first [apply Hd; lia | apply Ha; lia]).
  assert (Q0041 : hex_quad (chars "0041") 0x41) by (apply (Q 48 48 52 49 0 0 4 1); first [apply Hd; lia | apply Ha; lia]).
  split; [|split; [|split; [|split]]].
  - apply (ch_pair (chars "d83d") 0xd83d (chars "de00") 0xde00 (chars "\u00e9") [233]); try assumption; try (split; discriminate).
    { split; [discriminate | reflexivity]. } { split; [discriminate | reflexivity]. }
    apply (ch_hex (chars "00e9") 0xe9 [] []); try assumption; try (intros [H _]; apply H; reflexivity). constructor.
  - right. right. exists (chars "d83d"), 0xd83d, (chars "x"""). split; [reflexivity|]. split; [exact Qd83d|]. split; [split; [discriminate | reflexivity]|]. intros h2 b r2 H; discriminate.
  - right. left. exists (chars "dc00"), 0xdc00, (chars """"). split; [reflexivity|]. split; [exact Qdc00|]. split; [discriminate | reflexivity].
  - left. intros h n r' E H. destruct H as (a & b & d & e & x & y & z & w & -> & _ & _ & H3 & _). injection E as <- <- <- <- <-. destruct H3 as [H3|[H3|H3]]; lia.
  - right. right. exists (chars "d83d"), 0xd83d, (chars "\u0041"""). split; [reflexivity|]. split; [exact Qd83d|]. split; [split; [discriminate | reflexivity]|].
    intros h2 b r2 H H2. assert (E : chars "0041" ++ chars """" = h2 ++ r2) by (injection H as H; exact H).
    destruct (quad_unique _ _ _ _ _ _ Q0041 H2 E) as [<- _]. intros [X _]. apply X. reflexivity.
Qed.

(** ** C19 *)
(** An integer literal: [-]digits, with space around. *)
Definition int_text (sg d text : str) : Prop :=
  exists g1 g2, text = g1 ++ sg ++ d ++ g2 /\ gap g1 /\ gap g2 /\ (sg = [] \/ sg = [45]) /\ all_digits d.
Definition int_val (sg d : str) : Z := match sg with [] => Z.of_N (decimal d) | _ => - Z.of_N (decimal d) end%Z.

Lemma int_lexs F fm sg d text : int_text sg d text ->
  lexs F fm text = match sg with
    | [] => if decimal d <? 2 ^ 64 then ([LP (KU64 (decimal d))], false) else ([], true)
    | _ => if decimal d <=? 2 ^ 63 then ([LP (KI64 (- Z.of_N (decimal d)))], false) else ([], true)
    end.
Proof.
  intros (g1 & g2 & -> & Hg1 & Hg2 & Hsg & Hd). pose proof (all_digits_b d Hd) as [D1 D2].
  rewrite (gap_lexes F fm g1 Hg1), cat_nil. rewrite app_assoc. set (s := sg ++ d).
  assert (Hp : number_parts sg d [] []) by (split; [exact Hsg|]; auto).
  destruct (number_scan fm sg d [] [] Hp (fun x => x)) as (S1 & S2 & S3 & S4). rewrite !app_nil_r in S1, S2, S3, S4. fold s in S1, S2, S3, S4.
  pose proof (ends_boundary _ (gap_ends g2 [] Hg2 (or_introl eq_refl))) as Hb. rewrite app_nil_r in Hb.
  assert (Hgl : lexs F fm g2 = ([], false)) by (apply (lexes_end F fm g2 []), lexes_weak, gap_lexes; exact Hg2).
  assert (Hgo : forall o, num_tok F s false = o -> lexs F fm (s ++ g2) = match o with Some t => ([LP t], false) | None => ([], true) end).
  { intros o Ho. specialize (S1 g2 Hb). destruct o as [t|].
    - assert (L : lexes F fm s [LP t]).
      { apply lexes_num; [exact S2 | exact S3|]. intros rest Hr. exists false. split; [|exact Ho].
        destruct (number_scan fm sg d [] [] Hp (fun x => x)) as (S1' & _). rewrite !app_nil_r in S1'. apply S1'. exact Hr. }
      rewrite (L g2 Hb), Hgl. reflexivity.
    - destruct s as [|x s'] eqn:Es; [congruence|]. cbn [cur] in S3. destruct (num_start_cases fm _ S3) as (H1 & H2 & H3 & H4). eapply lexs_err. unfold TextToks.lex1. cbn [app length scan].
      rewrite not_ws_drop by assumption. cbn [cur tl]. rewrite H2, H3, H4, S3. cbn [app] in S1. rewrite S1, Ho. reflexivity. }
  unfold num_tok in Hgo. rewrite S4 in Hgo. unfold s in *. destruct Hsg as [-> | ->].
  - cbn [app] in *. rewrite (Hgo _ eq_refl). unfold parse_u64. destruct d as [|y d]; [congruence|].
    replace (y =? c_plus) with false.
    2:{ cbn [forallb] in D2. apply andb_prop in D2 as [Hy _]. apply digit_range in Hy. symmetry. apply N.eqb_neq. unfold c_plus. lia. }
    rewrite D2, <- decimal_val. cbn [andb]. destruct (decimal (y :: d) <? 2 ^ 64); reflexivity.
  - rewrite (Hgo _ eq_refl). cbn [app]. unfold parse_i64. destruct d as [|y d]; [congruence|]. change (45 =? c_minus) with true.
    rewrite D2, <- decimal_val. cbn [andb]. destruct (decimal (y :: d) <=? 2 ^ 63); reflexivity.
Qed.

Section Ints.
  Variables (F : flt) (c : cfg) (G : env) (fm : fmt).

  Lemma int_run_ok t text l v n : lexs F fm text = (l, false) -> snd (de_text tok_lexer F c G fm (S n) t (st0 l false)) = Ok v -> parses F c G fm t text (Ok v).
  Proof.
    intros Hl H. apply (parses_ok F c G fm t text l false v Hl (or_intror eq_refl)). exists (S n). intros m Hm.
    rewrite (de_mono tok_lexer F c G fm (S n) m t _ Hm); [exact H | rewrite H; discriminate].
  Qed.
  (** The exact value if it is in the range of the type, an error otherwise: for
      unsigned types and literals without a sign, and for signed types and
      literals with one or below 2^63. *)
  Theorem C19_int_partial k sg d text : k <> U128 -> k <> I128 -> (k = Usize -> usize_bits c = 64) -> int_text sg d text ->
    (if ik_signed k then sg = [45] \/ ~ 2 ^ 63 <= decimal d < 2 ^ 64 else sg = []) ->
    (int_ok c k (int_val sg d) -> parses F c G fm (TInt k) text (Ok (VZ (int_val sg d)))) /\
    (~ int_ok c k (int_val sg d) -> rejects F c G fm (TInt k) text).
  Proof.
    intros K1 K2 K3 Ht Hs. pose proof (int_lexs F fm sg d text Ht) as Hl.
    assert (Hrej : lexs F fm text = ([], true) -> rejects F c G fm (TInt k) text).
    { intro L. destruct (run_bad F c G fm 1 (TInt k) _ L) as [e He]. exists e. eapply de_text_returns; [exact He | discriminate]. }
    assert (Hsg : sg = [] \/ sg = [45]) by (destruct Ht as (? & ? & _ & _ & _ & H & _); exact H).
    assert (Hrange : ik_signed k = true -> (ik_min k = - i_bound k /\ ik_sup c k = i_bound k /\ i_bound k <= 2 ^ 63)%Z).
    { intro E. destruct k; try discriminate E; try congruence; cbn; lia. }
    assert (Hu : ik_signed k = false -> (ik_min k = 0 /\ ik_sup c k = Z.of_N (u_max k) + 1)%Z /\ u_max k < 2 ^ 64).
    { intro E. destruct k; try discriminate E; try congruence; cbn; try lia. unfold usize_mod. rewrite (K3 eq_refl). cbn. lia. }
    assert (Ed : forall u, de_int tok_lexer c k u = if ik_signed k then pbind (i64_range tok_lexer (- i_bound k) (i_bound k - 1)) (fun v => pbind (l_next tok_lexer) (fun _ => pret (VZ (cast c k v)))) u
       else pbind (u64_range tok_lexer (u_max k)) (fun v => pbind (l_next tok_lexer) (fun _ => pret (VZ (cast c k (Z.of_N v))))) u).
    { intro u. unfold de_int. destruct k; try congruence; reflexivity. }
    unfold int_val. destruct (ik_signed k) eqn:Ek.
    - destruct (Hrange eq_refl) as (R1 & R2 & R3). destruct Hsg as [-> | ->].
      + destruct Hs as [Hs|Hs]; [discriminate|]. destruct (N.ltb_spec (decimal d) (2 ^ 64)) as [H64|H64].
        * assert (H63 : decimal d < 2 ^ 63) by lia. split; intro Hi.
          -- apply (int_run_ok (TInt k) text _ _ 0 Hl). cbn [de_text]. rewrite Ed. unfold pbind, i64_range. cbn [st0 l_tok tok_lexer tok_kind t_toks ltok_kind].
             unfold u64_as_i64. replace (decimal d <? 2 ^ 63) with true by lia. unfold int_ok in Hi. rewrite R1, R2 in Hi.
             replace (i_bound k - 1 <? Z.of_N (decimal d))%Z with false by lia. cbn. rewrite (cast_int c k) by (unfold int_ok; rewrite R1, R2; lia). reflexivity.
          -- apply (parses_err F c G fm (TInt k) text _ false Hl (or_intror eq_refl)). exists 1%nat. eexists. cbn [de_text]. rewrite Ed. unfold pbind, i64_range. cbn [st0 l_tok tok_lexer tok_kind t_toks ltok_kind].
             unfold u64_as_i64. replace (decimal d <? 2 ^ 63) with true by lia. unfold int_ok in Hi. rewrite R1, R2 in Hi.
             replace (i_bound k - 1 <? Z.of_N (decimal d))%Z with true by lia. reflexivity.
        * split; [unfold int_ok; rewrite R1, R2; lia|]. intros _. apply Hrej. exact Hl.
      + destruct (N.leb_spec (decimal d) (2 ^ 63)) as [H63|H63].
        * split; intro Hi; unfold int_ok in Hi; rewrite R1, R2 in Hi.
          -- apply (int_run_ok (TInt k) text _ _ 0 Hl). cbn [de_text]. rewrite Ed. unfold pbind, i64_range. cbn [st0 l_tok tok_lexer tok_kind t_toks ltok_kind].
             replace (- Z.of_N (decimal d) <? - i_bound k)%Z with false by lia. cbn. rewrite (cast_int c k) by (unfold int_ok; rewrite R1, R2; lia). reflexivity.
          -- apply (parses_err F c G fm (TInt k) text _ false Hl (or_intror eq_refl)). exists 1%nat. eexists. cbn [de_text]. rewrite Ed. unfold pbind, i64_range. cbn [st0 l_tok tok_lexer tok_kind t_toks ltok_kind].
             replace (- Z.of_N (decimal d) <? - i_bound k)%Z with true; [reflexivity|]. symmetry. apply Z.ltb_lt. assert (0 < i_bound k)%Z by (clear; destruct k; cbn; lia). lia.
        * split; [unfold int_ok; rewrite R1, R2; lia|]. intros _. apply Hrej. exact Hl.
    - subst sg. destruct (Hu eq_refl) as ((R1 & R2) & R3). destruct (N.ltb_spec (decimal d) (2 ^ 64)) as [H64|H64].
      + split; intro Hi; unfold int_ok in Hi; rewrite R1, R2 in Hi.
        * apply (int_run_ok (TInt k) text _ _ 0 Hl). cbn [de_text]. rewrite Ed. unfold pbind, u64_range. cbn [st0 l_tok tok_lexer tok_kind t_toks ltok_kind].
          replace (u_max k <? decimal d) with false by lia. cbn. rewrite (cast_int c k) by (unfold int_ok; rewrite R1, R2; lia). reflexivity.
        * apply (parses_err F c G fm (TInt k) text _ false Hl (or_intror eq_refl)). exists 1%nat. eexists. cbn [de_text]. rewrite Ed. unfold pbind, u64_range. cbn [st0 l_tok tok_lexer tok_kind t_toks ltok_kind].
          replace (u_max k <? decimal d) with true by lia. reflexivity.
      + split; [unfold int_ok; rewrite R1, R2; lia|]. intros _. apply Hrej. exact Hl.
  Qed.
  (** The rest of the property is false.  A literal from 2^63 on is accepted by
      every signed type, as another number. *)
  Theorem C19_refuted_signed k d text : ik_signed k = true -> k <> I128 -> int_text [] d text -> 2 ^ 63 <= decimal d < 2 ^ 64 ->
    exists z, parses F c G fm (TInt k) text (Ok (VZ z)) /\ z <> Z.of_N (decimal d) /\ ~ int_ok c k (Z.of_N (decimal d)).
  Proof.
    intros Ek K Ht Hd. pose proof (int_lexs F fm [] d text Ht) as Hl. cbn iota in Hl. replace (decimal d <? 2 ^ 64) with true in Hl by lia.
    assert (Ed : forall u, de_int tok_lexer c k u = pbind (i64_range tok_lexer (- i_bound k) (i_bound k - 1)) (fun v => pbind (l_next tok_lexer) (fun _ => pret (VZ (cast c k v)))) u).
    { intro u. unfold de_int. destruct k; try discriminate Ek; try congruence; reflexivity. }
    assert (Hr : (ik_sup c k <= 2 ^ 63 /\ 0 < i_bound k)%Z) by (destruct k; try discriminate Ek; try congruence; cbn; lia).
    exists (cast c k (Z.of_N (decimal d) - 2 ^ 64)). split; [|split].
    - apply (int_run_ok (TInt k) text _ _ 0 Hl). cbn [de_text]. rewrite Ed. unfold pbind, i64_range. cbn [st0 l_tok tok_lexer tok_kind t_toks ltok_kind].
      unfold u64_as_i64. replace (decimal d <? 2 ^ 63) with false by lia. replace (i_bound k - 1 <? Z.of_N (decimal d) - 2 ^ 64)%Z with false by lia. reflexivity.
    - assert (int_ok c k (cast c k (Z.of_N (decimal d) - 2 ^ 64))); [|unfold int_ok in *; lia].
      unfold cast. destruct k; try discriminate Ek; try congruence; apply to_bits_of_bits; try discriminate; apply to_bits_lt.
    - unfold int_ok. lia.
  Qed.
  (** -0 is an integer of every unsigned type, and is refused. *)
  Theorem C19_refuted_minus_zero k d text : ik_signed k = false -> k <> U128 -> int_text [45] d text -> rejects F c G fm (TInt k) text.
  Proof.
    intros Ek K Ht. pose proof (int_lexs F fm [45] d text Ht) as Hl. cbn iota in Hl. destruct (decimal d <=? 2 ^ 63).
    - apply (parses_err F c G fm (TInt k) text _ false Hl (or_intror eq_refl)). exists 1%nat. eexists. destruct k; try discriminate Ek; try congruence; reflexivity.
    - destruct (run_bad F c G fm 1 (TInt k) _ Hl) as [e He]. exists e. eapply de_text_returns; [exact He | discriminate].
  Qed.
  (** On 32-bit targets a usize takes any literal below 2^64, modulo 2^32. *)
  Theorem C19_refuted_usize32 d text : usize_bits c = 32 -> int_text [] d text -> decimal d < 2 ^ 64 ->
    parses F c G fm (TInt Usize) text (Ok (VZ (Z.of_N (decimal d mod 2 ^ 32)))).
  Proof.
    intros H32 Ht Hd. pose proof (int_lexs F fm [] d text Ht) as Hl. cbn iota in Hl. replace (decimal d <? 2 ^ 64) with true in Hl by lia.
    apply (int_run_ok (TInt Usize) text _ _ 0 Hl). cbn [de_text]. unfold de_int, pbind, u64_range. cbn [ik_signed st0 l_tok tok_lexer tok_kind t_toks ltok_kind].
    cbn [u_max]. replace (2 ^ 64 - 1 <? decimal d) with false by lia. cbn. unfold usize_mod. rewrite H32. rewrite N2Z.inj_mod. reflexivity.
  Qed.
End Ints.
Example C19_ex : int_text [45] (chars "128") (chars " -128 ") /\ int_ok c64 I8 (int_val [45] (chars "128")) /\
  deserialize_text toy c64 [] Json 1 (TInt I8) (chars " -128 ") = Ok (VZ (-128)) /\
  (exists e, deserialize_text toy c64 [] Json 1 (TInt I8) (chars "128") = Err e) /\
  deserialize_text toy c64 [] Json 1 (TInt I8) (chars "18446744073709551615") = Ok (VZ (-1)).
Proof.
  split; [exists [32], [32]; split; [reflexivity|]; split; [gap_tac|]; split; [gap_tac|]; split; [auto | digits_tac]|].
  split; [vm_compute; split; [discriminate | reflexivity]|]. split; [vm_compute; reflexivity|]. split; [eexists; vm_compute; reflexivity|]. vm_compute; reflexivity.
Qed.

(** ** C29 *)
(** False of the code: after the text of any value, a comma and anything at all
    (even text that is no JSON) is accepted. *)
Theorem C29_refuted F c G fm n t v : flt_ok F -> cfg_ok c -> text_value c G fm n t v ->
  exists out, writes F c G fm t v out /\ forall rest, parses F c G fm t (out ++ 44 :: rest) (Ok v).
Proof.
  intros HF Hc Hv. destruct (written_ok F c G fm HF Hc n t v Hv) as (w & Hs & [W1 W2 [N W3]] & W4).
  exists (fst w). split; [exists n; exact Hs|]. intro rest.
  assert (L : lexs F fm (fst w ++ 44 :: rest) = (snd w ++ LP KComma :: fst (lexs F fm rest), snd (lexs F fm rest))).
  { rewrite (W1 (44 :: rest)) by (right; reflexivity).
    change (44 :: rest) with ([44] ++ rest). rewrite (lexes_punct F fm 44 KComma ltac:(destruct fm; reflexivity) rest). reflexivity. }
  apply (parses_ok F c G fm t _ _ _ v L); [left; destruct (snd w); discriminate|].
  exists N. intros m Hm. destruct (W3 m Hm (LP KComma :: fst (lexs F fm rest)) (snd (lexs F fm rest)) (st0 (snd w ++ LP KComma :: fst (lexs F fm rest)) (snd (lexs F fm rest)))) as (u' & E & _).
  - reflexivity.
  - apply st0_at.
  - rewrite E. reflexivity.
Qed.
Example C29_ex : deserialize_text toy c64 [] Json 5 (TInt U8) (chars "1 2") = Ok (VZ 1) /\
  deserialize_text toy c64 [] Json 5 (TSeq SVec (TInt U8)) (chars "[1],@@@") = Ok (VSeq [VZ 1]) /\
  text_value c64 [] Json 2 (TSeq SVec (TInt U8)) (VSeq [VZ 1]).
Proof.
  split; [vm_compute; reflexivity|]. split; [vm_compute; reflexivity|]. cbn. split; [|exact I]. constructor; [|constructor].
  split; [discriminate|]. split; [discriminate|]. vm_compute. split; [discriminate | reflexivity].
Qed.

(** ** C33 *)
(** The double a JSON number stands for: what the standard library parses from
    the literal, or, without fraction and exponent, converts from the integer. *)
Definition double_of (F : flt) (s : str) (b : N) : Prop :=
  exists sg ip fr ex, s = sg ++ ip ++ fr ++ ex /\ number_parts sg ip fr ex /\
    (fr = [] -> ex = [] -> b = f64_of_z F (int_val sg ip)) /\
    (fr <> [] \/ ex <> [] -> f64_parse F s = Some b).
Theorem C33_string F c G fm g1 b g2 s : gap g1 -> gap g2 -> chars_of b s ->
  parses F c G fm TStr (g1 ++ quoted b ++ g2) (Ok (VStr s)).
Proof. apply C22_string_literal. Qed.
Theorem C33_number_partial F c G fm g1 s g2 : gap g1 -> gap g2 -> number_ok F s ->
  exists b, double_of F s b /\ parses F c G fm TF64 (g1 ++ s ++ g2) (Ok (VF b)) /\
            parses F c G fm TF32 (g1 ++ s ++ g2) (Ok (VF (f32_of_f64 F b))).
Proof.
  intros Hg1 Hg2 Hs. destruct (number_tok F s Hs) as [t Ht]. destruct (lexes_number F fm s t Ht) as [Hl _].
  assert (L : lexs F fm (g1 ++ s ++ g2) = ([LP t], false)).
  { rewrite (gap_lexes F fm g1 Hg1), cat_nil.
    pose proof (ends_boundary _ (gap_ends g2 [] Hg2 (or_introl eq_refl))) as Hb. rewrite app_nil_r in Hb.
    assert (Hgl : lexs F fm g2 = ([], false)) by (apply (lexes_end F fm g2 []), lexes_weak, gap_lexes; exact Hg2).
    rewrite (Hl g2 Hb), Hgl. reflexivity. }
  assert (Hgo : forall b, as_f64 tok_lexer F (st0 [LP t] false) = (st0 [LP t] false, Ok b) ->
            parses F c G fm TF64 (g1 ++ s ++ g2) (Ok (VF b)) /\ parses F c G fm TF32 (g1 ++ s ++ g2) (Ok (VF (f32_of_f64 F b)))).
  { intros b Hb. split; (apply (parses_ok F c G fm _ _ _ false _ L (or_intror eq_refl)); exists 1%nat; intros n Hn; destruct n as [|n]; [lia|]);
      cbn [de_text]; unfold pmap, de_f64, pbind; rewrite Hb; reflexivity. }
  destruct Ht as (sg & ip & fr & ex & E & Hp & Hn & Hv). destruct fr as [|x fr]; [destruct ex as [|y ex]|].
  - assert (Hsg : sg = [] \/ sg = [45]) by (destruct Hp; assumption).
    exists (f64_of_z F (int_val sg ip)). split.
    { exists sg, ip, [], []. split; [exact E|]. split; [exact Hp|]. split; [auto|]. intros [H|H]; congruence. }
    destruct Hsg as [-> | ->]; destruct Hv as [_ ->]; apply Hgo; reflexivity.
  - destruct Hv as (b & Hb & ->). exists b. split; [|apply Hgo; reflexivity]. exists sg, ip, [], (y :: ex). split; [exact E|]. split; [exact Hp|]. split; [discriminate | auto].
  - destruct Hv as (b & Hb & ->). exists b. split; [|apply Hgo; reflexivity]. exists sg, ip, (x :: fr), ex. split; [exact E|]. split; [exact Hp|]. split; [discriminate | auto].
Qed.
(** False of the code for the remaining RFC 8259 numbers: an integer from 2^64
    on is rejected whatever the type, f64 included ... *)
Theorem C33_refuted_big_integer F c G fm t sg d text : int_text sg d text -> 2 ^ 64 <= decimal d -> rejects F c G fm t text.
Proof.
  intros Ht Hd. assert (L : lexs F fm text = ([], true)).
  { rewrite (int_lexs F fm sg d text Ht). destruct sg; [replace (decimal d <? 2 ^ 64) with false by lia | replace (decimal d <=? 2 ^ 63) with false by lia]; reflexivity. }
  destruct (run_bad F c G fm 1 t _ L) as [e He]. exists e. eapply de_text_returns; [exact He | discriminate].
Qed.
(** ... and so is every number with a plus sign in its exponent ([d] is what
    comes before it; the standard library parses no float from a text that ends
    in e). *)
Theorem C33_refuted_plus F c G fm t sg ip fr e g r : number_parts sg ip fr [] -> e = 101 \/ e = 69 -> gap g ->
  f64_parse F (sg ++ ip ++ fr ++ [e]) = None ->
  rejects F c G fm t (g ++ sg ++ ip ++ fr ++ e :: 43 :: r).
Proof.
  intros (Hsg & Hip & Hfr & _) He Hg Hnone. apply all_digits_b in Hip as [D1 D2].
  assert (Hs : scan_num (sg ++ ip ++ fr ++ e :: 43 :: r) = (sg ++ ip ++ fr ++ [e], 43 :: r, true)).
  { assert (T : forall d x l, forallb is_digit d = true -> is_digit x = false -> take_while is_digit (d ++ x :: l) = d /\ drop_while is_digit (d ++ x :: l) = x :: l).
    { induction d as [|y d IH]; intros x l Hd Hx; cbn; [rewrite Hx; auto|]. cbn in Hd. apply andb_prop in Hd as [Hy Hd]. rewrite Hy.
      destruct (IH x l Hd Hx) as [-> ->]. auto. }
    assert (He1 : is_digit e = false /\ (e =? c_dot) = false /\ ((e =? 101) || (e =? 69)) = true) by (destruct He as [-> | ->]; repeat split).
    destruct He1 as (E1 & E2 & E3).
    assert (Hbody : forall l, l = ip ++ fr ++ e :: 43 :: r -> take_while is_digit l = ip /\ exists b2 l2 f2,
       drop_while is_digit l = fr ++ e :: 43 :: r /\
       (if cur (drop_while is_digit l) =? c_dot then (c_dot :: take_while is_digit (tl (drop_while is_digit l)), drop_while is_digit (tl (drop_while is_digit l)), true) else ([], drop_while is_digit l, false)) = (b2, l2, f2) /\ b2 = fr /\ l2 = e :: 43 :: r).
    { intros l ->. destruct Hfr as [->|(d & -> & Hd)].
      - cbn [app]. destruct (T ip e (43 :: r) D2 E1) as [-> ->]. split; [reflexivity|]. cbn [cur]. rewrite E2. exists [], (e :: 43 :: r), false. auto.
      - apply all_digits_b in Hd as [_ Hd]. destruct (T ip 46 (d ++ e :: 43 :: r) D2 eq_refl) as [T1 T2]. cbn [app] in *. rewrite T1, T2. split; [reflexivity|].
        cbn [cur tl]. change (46 =? c_dot) with true. destruct (T d e (43 :: r) Hd E1) as [-> ->]. exists (46 :: d), (e :: 43 :: r), true. auto. }
    assert (Hc : forall y (l : str), is_digit y = true -> ((y =? c_minus) || (y =? c_plus)) = false).
    { intros y l Hy. apply digit_range in Hy. apply orb_false_intro; apply N.eqb_neq; unfold c_minus, c_plus; lia. }
    unfold scan_num.
    assert (X : exists b0 l0, (if (cur (sg ++ ip ++ fr ++ e :: 43 :: r) =? c_minus) || (cur (sg ++ ip ++ fr ++ e :: 43 :: r) =? c_plus)
        then ([cur (sg ++ ip ++ fr ++ e :: 43 :: r)], tl (sg ++ ip ++ fr ++ e :: 43 :: r)) else ([], sg ++ ip ++ fr ++ e :: 43 :: r)) = (b0, l0) /\ b0 = sg /\ l0 = ip ++ fr ++ e :: 43 :: r).
    { destruct Hsg as [-> | ->].
      - destruct ip as [|y ip]; [congruence|]. cbn [app cur]. cbn [forallb] in D2. apply andb_prop in D2 as [Dy _]. rewrite (Hc y ip Dy). eauto.
      - cbn [app cur tl]. change ((45 =? c_minus) || (45 =? c_plus)) with true. eauto. }
    destruct X as (b0 & l0 & EX & -> & El0). unfold str in *. rewrite EX. destruct (Hbody l0 El0) as (-> & b2 & l2 & f2 & _ & -> & -> & ->). cbn [cur tl]. rewrite E3.
    change (43 =? c_minus) with false. change (take_while is_digit (43 :: r)) with (@nil N). change (drop_while is_digit (43 :: r)) with (43 :: r).
    cbn iota beta. reflexivity. }
  assert (L : lexs F fm (g ++ sg ++ ip ++ fr ++ e :: 43 :: r) = ([], true)).
  { rewrite (gap_lexes F fm g Hg), cat_nil. set (s := sg ++ ip ++ fr ++ e :: 43 :: r) in *.
    assert (S3 : num_start fm (cur s) = true).
    { unfold s. destruct Hsg as [-> | ->]; [|destruct fm; reflexivity]. destruct ip as [|y ip]; [congruence|]. cbn [app cur]. cbn [forallb] in D2. apply andb_prop in D2 as [Dy _].
      unfold num_start. rewrite Dy, orb_true_r. reflexivity. }
    destruct (num_start_cases fm _ S3) as (H1 & H2 & H3 & H4). eapply lexs_err. unfold TextToks.lex1. cbn [scan].
    assert (Ed : drop_while is_ws s = s) by (destruct s; [reflexivity|]; apply not_ws_drop; exact H1). rewrite Ed.
    rewrite H2, H3, H4, S3, Hs. unfold num_tok. rewrite Hnone. reflexivity. }
  destruct (run_bad F c G fm 1 t _ L) as [er He']. exists er. eapply de_text_returns; [exact He' | discriminate].
Qed.

(** ** C40 *)
(** False of the code: a character literal is dropped, wherever a token may start ... *)
Lemma char_literal_lexs F a r : a <> 92 -> lexs F Ron (39 :: a :: 39 :: r) = lexs F Ron r.
Proof.
  intro Ha. rewrite (lexs_unfold F Ron (39 :: a :: 39 :: r)), (lexs_unfold F Ron r).
  assert (E : lex1 F Ron (39 :: a :: 39 :: r) = lex1 F Ron r).
  { transitivity (match scan F Ron (S (S (S (length r)))) (KChar a) r with (l', LTok t) => (l', Some t) | (l', LErr _ _) => (l', None) end).
    { unfold lex1. cbn [length]. cbn [scan]. rewrite not_ws_drop by reflexivity. cbn [cur tl].
      change (39 =? 0) with false. change (39 =? c_slash) with false. change (punct Ron 39) with (@None tok). change (num_start Ron 39) with false.
      change (is_alpha 39) with false. change (39 =? c_quote) with false. change (39 =? c_apos) with true. cbn iota.
      replace (a =? c_bslash) with false by (symmetry; apply N.eqb_neq; exact Ha). cbn [cur tl]. change (39 =? c_apos) with true. cbn iota. reflexivity. }
    unfold lex1.
    destruct (scan_spec F Ron (length r) r (S (S (S (length r)))) (S (length r)) (KChar a) KBof) as (X1 & X2 & _); try lia.
    destruct (scan F Ron (S (S (S (length r)))) (KChar a) r) as [l1 o1], (scan F Ron (S (length r)) KBof r) as [l2 o2]. cbn [fst snd] in *. subst l2.
    destruct o1, o2; cbn in X2; try contradiction; subst; reflexivity. }
  unfold str in *. rewrite E. reflexivity.
Qed.
Theorem C40_refuted_char F c G t g a r v : gap g -> a <> 92 ->
  (parses F c G Ron t (g ++ [39; a; 39] ++ r) (Ok v) <-> parses F c G Ron t r (Ok v)).
Proof.
  intros Hg Ha. assert (E : lexs F Ron (g ++ [39; a; 39] ++ r) = lexs F Ron r).
  { rewrite (gap_lexes F Ron g Hg), cat_nil. apply char_literal_lexs. exact Ha. }
  pose proof (fun n => same_tokens F c G Ron n t _ _ E) as S.
  split; intros [N H]; exists N; intros n Hn; specialize (S n); rewrite (H n Hn) in S.
  - destruct (deserialize_text F c G Ron n t r); try contradiction. cbn in S. congruence.
  - destruct (deserialize_text F c G Ron n t (g ++ [39; a; 39] ++ r)); try contradiction. cbn in S. congruence.
Qed.
(** ... and an unterminated comment hides the rest of the text. *)
Lemma ron_unterminated b : Forall (fun x => x <> 42 /\ x <> 0) b -> forall st, ron_comment st b = [] \/ (st = true /\ cur b = 47).
Proof.
  induction 1 as [|x b [Hx Hz] _ IH]; intro st; [left; reflexivity|]. cbn [ron_comment cur].
  replace (x =? 0) with false by (symmetry; apply N.eqb_neq; exact Hz). destruct st; [destruct (N.eqb_spec x c_slash) as [->|]; [right; auto|]|];
  rewrite ?andb_true_r, ?andb_false_r; cbn iota;
  (replace (x =? c_star) with false by (symmetry; apply N.eqb_neq; exact Hx)); left; destruct (IH false) as [E|[E _]]; congruence.
Qed.
Theorem C40_refuted_comment F c G t n v b : flt_ok F -> cfg_ok c -> text_value c G Ron n t v ->
  Forall (fun x => x <> 42 /\ x <> 0) b ->
  exists out, writes F c G Ron t v out /\ parses F c G Ron t (out ++ chars " /* " ++ b) (Ok v).
Proof.
  intros HF Hc Hv Hb. destruct (written_ok F c G Ron HF Hc n t v Hv) as (w & Hs & [W1 W2 [N W3]] & W4).
  exists (fst w). split; [exists n; exact Hs|].
  assert (L : lexs F Ron (fst w ++ chars " /* " ++ b) = (snd w, false)).
  { rewrite (W1 (chars " /* " ++ b)) by (right; reflexivity).
    rewrite (lexs_eof F Ron (chars " /* " ++ b) []); [unfold cat; cbn [fst snd]; rewrite app_nil_r; reflexivity|].
    unfold lex1. cbn [length scan]. change (drop_while is_ws (chars " /* " ++ b)) with (47 :: 42 :: 32 :: b). cbn [cur tl].
    change (47 =? 0) with false. change (47 =? c_slash) with true. change (42 =? c_slash) with false. change (42 =? c_star) with true. cbn iota.
    change (ron_comment false (42 :: 32 :: b)) with (ron_comment false b).
    destruct (ron_unterminated b Hb false) as [E|[E _]]; [|discriminate]. rewrite E. reflexivity. }
  apply (parses_ok F c G Ron t _ _ _ v L); [right; reflexivity|].
  exists N. intros m Hm. destruct (W3 m Hm [] false (st0 (snd w) false)) as (u' & E & _); [reflexivity | rewrite app_nil_r; apply st0_at |].
  rewrite E. reflexivity.
Qed.
Example C40_ex : deserialize_text toy c64 [] Ron 5 (TSeq SVec (TInt U8)) (chars "['x' 1, 'y' 2] /* 3, 4]") = Ok (VSeq [VZ 1; VZ 2]).
Proof. vm_compute. reflexivity. Qed.
