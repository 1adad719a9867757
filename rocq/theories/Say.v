(** Every error message of the JSON and RON readers is true (SpecSay.v). *)
From Verif Require Import Base Utf8 Types BinModel Text TextModel TextSim TextToks TextPos TextLex TextRead SpecText SpecGram TextGram TextFuel TextLocal TextRun SpecTok TokLex SpecDoc SpecAcc SpecErr SpecPos AccBase AccDoc RonAccDoc PropsErr PropsPos SpecSay.
Local Open Scope N_scope.

(** ** The tokenizer *)
Section Lex.
  Variables (F : flt) (fm : fmt).
  Lemma starts_number_iff x : starts_number fm x <-> num_start fm x = true.
  Proof.
    unfold starts_number, num_start. rewrite <- (digit_range x). unfold c_minus, c_plus, c_dot. rewrite !orb_true_iff, !N.eqb_eq.
    destruct fm; [intuition (discriminate || congruence) | rewrite N.eqb_eq; tauto].
  Qed.
  Definition barred (l : str) (m : tmsg) : Prop := exists g r', l = g ++ r' /\ space fm g /\ lexical fm r' m.
  Lemma barred_skip g l m : space fm g -> barred l m -> barred (g ++ l) m.
  Proof.
    intros Hg (h & r' & -> & Hh & Hm). exists (g ++ h), r'. rewrite app_assoc. split; [reflexivity|]. split; [apply space_app; assumption | exact Hm].
  Qed.
  Lemma barred_here l m : lexical fm l m -> barred l m.
  Proof. intro H. exists [], l. split; [reflexivity|]. split; [constructor | exact H]. Qed.
  Lemma scan_eof n k l : cur l = 0 -> scan F fm (S n) k l = (l, LTok (LP KEof)).
  Proof. destruct l as [|x l]; [reflexivity|]. cbn [cur]. intros ->. reflexivity. Qed.
  Lemma scan_barred : forall N l n k l' k' m, (length l <= N)%nat -> (N < n)%nat -> scan F fm n k l = (l', LErr k' m) -> barred l m.
  Proof.
    induction N as [N IH] using (well_founded_induction lt_wf). intros l n k l' k' m Hl Hn H.
    destruct n as [|n]; [lia|]. cbn [scan] in H.
    destruct (while_split is_ws l) as (w & l0 & E & Hw & Hnw & _ & D). rewrite D in H. subst l. clear D.
    apply space_ws with (fm := fm) in Hw. apply (barred_skip w l0); [exact Hw|]. rewrite app_length in Hl.
    destruct (cur l0 =? 0) eqn:E0; [discriminate|].
    destruct l0 as [|c r]; [discriminate|]. cbn [cur tl length] in *. destruct Hnw as [Hnw|Hnw]; [discriminate|].
    destruct n as [|n]; [lia|].
    destruct (c =? c_slash) eqn:Es.
    { apply N.eqb_eq in Es. unfold c_slash in Es. subst c.
      destruct (cur r =? c_slash) eqn:E1.
      { apply N.eqb_eq in E1. destruct r as [|y r]; [discriminate|]. cbn [cur] in E1. unfold c_slash in E1. subst y. cbn [drop_while] in H.
        change (negb (47 =? c_nl) && negb (47 =? 0)) with true in H. cbn iota in H.
        destruct (while_split (fun c => negb (c =? c_nl) && negb (c =? 0)) r) as (body & r2 & E2 & Hb & Hs & _ & D). rewrite D in H. subst r. clear D.
        assert (Hbody : Forall (fun x => x <> 10 /\ x <> 0) body).
        { apply Forall_forall. intros y Hy. rewrite forallb_forall in Hb. specialize (Hb y Hy). apply andb_prop in Hb as [A B].
          apply negb_true_iff in A, B. apply N.eqb_neq in A, B. auto. }
        assert (Hr2 : cur r2 = 0 \/ exists r3, r2 = 10 :: r3).
        { destruct r2 as [|y r2]; [left; reflexivity|]. destruct Hs as [Hs|Hs]; [discriminate|]. cbn [cur] in Hs.
          apply andb_false_iff in Hs as [Hs|Hs]; apply negb_false_iff in Hs; apply N.eqb_eq in Hs; unfold c_nl in Hs; subst y; [right; eauto | left; reflexivity]. }
        destruct Hr2 as [Ho|[r3 ->]].
        - rewrite scan_eof in H by exact Ho. discriminate.
        - replace (47 :: 47 :: body ++ 10 :: r3) with (([47; 47] ++ body ++ [10] ++ []) ++ r3) by (cbn [app]; rewrite <- app_assoc; reflexivity).
          apply barred_skip; [apply sp_line; [exact Hbody | constructor]|].
          cbn [length] in Hl. rewrite app_length in Hl. cbn [length] in Hl.
          apply (IH (length r3) ltac:(lia) r3 (S n) k l' k' m ltac:(lia) ltac:(lia)). exact H. }
      destruct (cur r =? c_star) eqn:E2.
      2:{ apply N.eqb_neq in E1, E2. unfold c_slash, c_star in E1, E2. apply barred_here. rewrite <- (next_cur r) in E1, E2. destruct fm.
          - injection H as <- <- <-. apply lx_slash; auto.
          - injection H as <- <- <-. apply lx_slash_ron; auto. }
      apply N.eqb_eq in E2. destruct r as [|y r]; [discriminate|]. cbn [cur] in E2. unfold c_star in E2. subst y. cbn [tl] in H.
      assert (Hcl : forall body b r2, r = body ++ 47 :: r2 -> Forall (fun x => x <> 0) body -> 42 :: body = b ++ [42] ->
        (forall a c, 42 :: body <> a ++ [42; 47] ++ c) -> scan F fm (S n) k r2 = (l', LErr k' m) -> barred (47 :: 42 :: r) m).
      { intros body b r2 -> Hz He Hc Hs. 
        replace (47 :: 42 :: body ++ 47 :: r2) with (([47; 42] ++ body ++ [47] ++ []) ++ r2) by (cbn [app]; rewrite <- app_assoc; reflexivity).
        apply barred_skip; [apply (sp_block fm body b); [split; assumption | exact He | constructor]|].
        cbn [length] in Hl. rewrite app_length in Hl. cbn [length] in Hl.
        apply (IH (length r2) ltac:(lia) r2 (S n) k l' k' m ltac:(lia) ltac:(lia)). exact Hs. }
      assert (Hcase : (fm = Json /\ json_comment c_star r = None /\ m = UnexpectedToken k' (chars "MultiLineCommentClose")) \/
                      (fm = Json /\ exists r', json_comment c_star r = Some r' /\ scan F fm (S n) k r' = (l', LErr k' m)) \/
                      (fm = Ron /\ scan F fm (S n) k (ron_comment (c_star =? c_star) r) = (l', LErr k' m))).
      { destruct fm; [|right; right; split; [reflexivity | exact H]].
        destruct (json_comment c_star r) as [r'|]; [right; left; split; [reflexivity | exists r'; auto]|].
        left. injection H as <- <- <-. auto. }
      destruct Hcase as [(Ej & Ec & Em)|[(Ej & r' & Ec & Hs)|(Er & Hs)]].
      - subst m. apply barred_here. apply lx_open; [exact Ej|]. intros body b r' [Hz Hc] He ->.
        cbn [app] in Ec. rewrite (json_comment_close body c_star r' b Hz He Hc) in Ec. discriminate.
      - apply json_comment_inv in Ec as (body & b & -> & Hz & He & Hc). eapply Hcl; eauto.
      - destruct (ron_comment_inv r c_star) as (body & r2 & E3 & Hz & Hc & [[Eb [b He]]|[Eb Ho]]); rewrite E3 in Hs.
        + eapply Hcl; eauto.
        + rewrite scan_eof in Hs by (destruct Ho as [->|[r3 ->]]; reflexivity). discriminate. }
    destruct (punct fm c) as [t0|] eqn:Ep; [discriminate|].
    destruct (num_start fm c) eqn:En.
    { apply starts_number_iff in En. destruct (scan_num (c :: r)) as [[buf l2] fl]. destruct (num_tok F buf fl); [discriminate|]. injection H as <- <- <-.
      apply barred_here. apply lx_number. exact En. }
    destruct (is_alpha c) eqn:Ea.
    { destruct (while_split (id_char fm) (c :: r)) as (a & l2 & El & Hid & Hs & T & D). rewrite T, D in H. injection H as <- H.
      rewrite El. apply barred_here. unfold id_tok in H. destruct (str_eqb a (chars "true")) eqn:Q1; [discriminate|]. destruct (str_eqb a (chars "false")) eqn:Q2; [discriminate|].
      destruct fm; [|discriminate]. destruct (str_eqb a (chars "null")) eqn:Q3; [discriminate|]. injection H as <- <-.
      apply str_eqb_neq in Q1, Q2, Q3. apply lx_word; auto.
      - intros ->. cbn [app] in El. subst l2. destruct Hs as [Hs|Hs]; [discriminate|]. cbn [cur] in Hs. unfold id_char in Hs. rewrite Ea in Hs. discriminate.
      - apply Forall_forall. intros y Hy. rewrite forallb_forall in Hid. specialize (Hid y Hy). unfold id_char in Hid. destruct (is_alpha y) eqn:Ey; [apply letter_iff; exact Ey | discriminate].
      - rewrite next_cur, letter_iff. destruct Hs as [-> | Hs]; [discriminate|]. intro Hc. unfold id_char in Hs. rewrite Hc in Hs. discriminate.
      - unfold json_word. tauto. }
    destruct (c =? c_quote) eqn:Eq.
    { apply N.eqb_eq in Eq. unfold c_quote in Eq. subst c. destruct (scan_str (length r) r) as [l2 [s|]]; [discriminate|]. injection H as <- <- <-.
      apply barred_here. apply lx_string. }
    assert (OTHER : (fm = Ron -> c <> 39) -> m = UnexpectedToken k' (chars "tokenizer") -> barred (c :: r) m).
    { intros H39 ->. apply barred_here. apply N.eqb_neq in E0, Es, Eq. unfold c_slash, c_quote in Es, Eq.
      assert (Hp : ~ (In c [44; 58; 91; 93; 123; 125] \/ fm = Ron /\ In c [40; 41])) by (intro Hc; apply punct_mark in Hc as [t0 Hc]; congruence).
      apply lx_other; auto.
      - intro Hc. apply ws_char_iff in Hc. cbn [cur] in Hnw. congruence.
      - intro Hc. apply starts_number_iff in Hc. congruence.
      - intro Hc. apply letter_iff in Hc. congruence.
      - intros Er Hc. apply Hp. right. split; [exact Er|]. cbn [In] in Hc |- *. specialize (H39 Er). intuition congruence. }
    destruct fm eqn:Efm; [injection H as <- <- <-; apply OTHER; [discriminate | reflexivity]|]. rewrite <- Efm in *.
    destruct (c =? c_apos) eqn:Eap.
    2:{ apply N.eqb_neq in Eap. unfold c_apos in Eap. injection H as <- <- <-. apply OTHER; auto. }
    clear OTHER. apply N.eqb_eq in Eap. unfold c_apos in Eap. subst c. cbn zeta in H.
    assert (CH : forall l1, l1 = (if cur r =? c_bslash then tl r else r) -> cur (tl l1) <> 39 -> barred (39 :: r) (UnexpectedToken k' (chars "char"))).
    { intros l1 E1 E2. apply barred_here. apply lx_char; [exact Efm| |].
      - intros x r' Hx ->. subst l1. cbn [cur] in E2. apply N.eqb_neq in Hx. unfold c_bslash in E2. rewrite Hx in E2. cbn [tl cur] in E2. congruence.
      - intros x r' ->. subst l1. cbn [cur] in E2. change (92 =? c_bslash) with true in E2. cbn [tl cur] in E2. congruence. }
    destruct (cur r =? c_bslash) eqn:Eb.
    - apply N.eqb_eq in Eb. destruct r as [|y r]; [discriminate|]. cbn [cur] in Eb. unfold c_bslash in Eb. subst y. cbn [tl] in H.
      destruct (cur (tl r) =? c_apos) eqn:E3.
      2:{ apply N.eqb_neq in E3. unfold c_apos in E3. injection H as <- <- <-. apply (CH r); [reflexivity | exact E3]. }
      apply N.eqb_eq in E3. destruct r as [|y [|z r]]; try discriminate. cbn [tl cur] in *. unfold c_apos in E3. subst z.
      change (39 :: 92 :: y :: 39 :: r) with (([39; 92; y; 39] ++ []) ++ r). apply barred_skip; [apply sp_char_esc; [exact Efm | constructor]|].
      cbn [length] in Hl. apply (IH (length r) ltac:(lia) r (S n) _ l' k' m ltac:(lia) ltac:(lia) H).
    - destruct (cur (tl r) =? c_apos) eqn:E3.
      2:{ apply N.eqb_neq in E3. unfold c_apos in E3. injection H as <- <- <-. apply (CH r); [reflexivity | exact E3]. }
      apply N.eqb_eq in E3. destruct r as [|y [|z r]]; try discriminate. cbn [tl cur] in *. unfold c_apos in E3. subst z.
      change (39 :: y :: 39 :: r) with (([39; y; 39] ++ []) ++ r). apply N.eqb_neq in Eb. apply barred_skip; [apply sp_char; [exact Efm | exact Eb | constructor]|].
      cbn [length] in Hl. apply (IH (length r) ltac:(lia) r (S n) _ l' k' m ltac:(lia) ltac:(lia) H).
  Qed.
  Lemma scan_unreadable l l' k k' m : scan F fm (S (length l)) k l = (l', LErr k' m) -> unreadable F fm l.
  Proof.
    intro H. assert (E : lexs F fm l = ([], true)).
    { rewrite (lexs_unfold F fm l). unfold TextToks.lex1.
      destruct (scan_spec F fm (length l) l (S (length l)) (S (length l)) KBof k) as (_ & B & _); try lia. rewrite H in B.
      destruct (scan F fm (S (length l)) KBof l) as [l1 [t1|k1 m1]]; cbn [snd same_out] in B; [contradiction | reflexivity]. }
    split.
    - intro He. rewrite (lexs_at_end F fm l He) in E. discriminate.
    - intros g x r' Hg Hx ->. rewrite (lexs_token F fm g x r' Hg Hx) in E. destruct (lexs F fm r') as [a b]. discriminate.
  Qed.

  (** Kinds *)
  Lemma num_kind s r : token_before fm F (XN s) r -> kind_of F fm (XN s) (ltok_kind (tok_of F fm (XN s))).
  Proof.
    intros (sg & ip & fr & ex & -> & Hp & _ & Hv). destruct (tok_of_num F fm _ _ _ _ Hp Hv) as (t & Ht & ->). cbn [ltok_kind].
    destruct Hp as (Hsg & Hip & Hfr & Hex & _). destruct fr as [|y fr]; [destruct ex as [|z ex]|].
    - rewrite !app_nil_r in *. cbn [floaty] in Ht. cbn [literal_value] in Hv. destruct Hv as [Hne Hv].
      assert (Ha : all_digits ip) by (split; [exact Hne | exact Hip]). pose proof Hip as Hb. apply digits_b in Hb.
      destruct ip as [|d ip]; [congruence|].
      assert (Hd : d <> 45 /\ d <> 43) by (inversion Hip; subst; lia). destruct Hd as [Hd1 Hd2]. apply N.eqb_neq in Hd1, Hd2.
      unfold num_tok in Ht. destruct Hsg as [-> | [-> | ->]]; cbn [app cur] in Ht; cbn [str_eqb] in Hv.
      + unfold c_minus in Ht. rewrite Hd1 in Ht. unfold parse_u64 in Ht. unfold c_plus in Ht. rewrite Hd2, Hb, <- decimal_val in Ht. cbn [andb] in Ht.
        destruct (decimal (d :: ip) <? 2 ^ 64) eqn:E; [|discriminate]. injection Ht as <-. cbn [app].
        apply kn_nat. cbn [unplus]. rewrite Hd2. split; [exact Ha | reflexivity].
      + change (45 =? c_minus) with true in Ht. cbn iota in Ht. unfold parse_i64 in Ht. change (45 =? c_minus) with true in Ht. rewrite Hb, <- decimal_val in Ht. cbn [andb] in Ht.
        destruct (decimal (d :: ip) <=? 2 ^ 63) eqn:E; [|discriminate]. injection Ht as <-. cbn [app]. apply kn_neg. exact Ha.
      + change (43 =? c_minus) with false in Ht. cbn iota in Ht. unfold parse_u64 in Ht. change (43 =? c_plus) with true in Ht. cbn iota in Ht. rewrite Hb, <- decimal_val in Ht. cbn [andb] in Ht.
        destruct (decimal (d :: ip) <? 2 ^ 64) eqn:E; [|discriminate]. injection Ht as <-. cbn [app]. apply kn_nat. cbn [unplus]. change (43 =? 43) with true. cbn iota. split; [exact Ha | reflexivity].
    - cbn [floaty] in Ht. unfold num_tok in Ht. destruct (f64_parse F _) as [b|] eqn:E; [|discriminate]. injection Ht as <-. apply kn_flt; [|exact E].
      right. destruct Hex as [|(e & m & d & -> & He & _)]; [discriminate|]. rewrite !in_app_iff. cbn [In]. destruct He; tauto.
    - cbn [floaty] in Ht. unfold num_tok in Ht. destruct (f64_parse F _) as [b|] eqn:E; [|discriminate]. injection Ht as <-. apply kn_flt; [|exact E].
      left. destruct Hfr as [|(d & -> & _)]; [discriminate|]. rewrite !in_app_iff. cbn [In]. tauto.
  Qed.
  Lemma tok_kind x r : token_before fm F x r -> kind_of F fm x (ltok_kind (tok_of F fm x)).
  Proof.
    destruct x as [p|w|s|b s]; intro H; [| |eapply num_kind; exact H | constructor].
    - cbn [token_before] in H. destruct H as [H|[E H]].
      + cbn [In] in H. repeat (destruct H as [<-|H]; [constructor|]). contradiction.
      + subst fm. cbn [In] in H. repeat (destruct H as [<-|H]; [constructor; reflexivity|]). contradiction.
    - cbn [token_before] in H. destruct H as [H _]. destruct (word_chars fm w H) as (x & w' & _ & _ & _ & t & Ht). cbn [tok_of]. rewrite Ht.
      unfold id_tok in Ht. destruct (str_eqb w (chars "true")) eqn:Q1; [apply str_eqb_eq in Q1; injection Ht as <-; subst w; constructor|].
      destruct (str_eqb w (chars "false")) eqn:Q2; [apply str_eqb_eq in Q2; injection Ht as <-; subst w; constructor|].
      apply str_eqb_neq in Q1, Q2. destruct fm.
      + destruct (str_eqb w (chars "null")) eqn:Q3; [|discriminate]. apply str_eqb_eq in Q3. injection Ht as <-. subst w. constructor. reflexivity.
      + injection Ht as <-. apply kn_name; auto.
  Qed.
  Lemma tok_u64 x v : ltok_kind (tok_of F fm x) = KU64 v -> v < 2 ^ 64.
  Proof.
    destruct x as [p|w|t|b t]; cbn [tok_of]; [| | |discriminate].
    - destruct (punct fm p) as [k|] eqn:E; [|discriminate]. unfold punct in E. cbn [ltok_kind]. intros ->.
      repeat (match type of E with context [if ?b then _ else _] => destruct b; [discriminate|] end).
      destruct fm; [discriminate|]. repeat (match type of E with context [if ?b then _ else _] => destruct b; [discriminate|] end). discriminate.
    - unfold id_tok. destruct fm; repeat (match goal with |- context [if ?b then _ else _] => destruct b end); discriminate.
    - destruct (scan_num t) as [[a b] f]. unfold num_tok. destruct f; [destruct (f64_parse F a); discriminate|].
      destruct (cur a =? c_minus); [destruct (parse_i64 a); discriminate|]. unfold parse_u64.
      set (d := match a with [] => _ | _ => _ end). destruct d as [|y d]; [discriminate|].
      destruct (forallb is_digit (y :: d) && (digits_val (y :: d) <? 2 ^ 64)) eqn:E; cbn [option_map ltok_kind]; [|discriminate].
      intro H. injection H as <-. apply andb_prop in E as [_ E]. apply N.ltb_lt in E. exact E.
  Qed.
  (** What a token leaves behind as the name. *)
  Definition buf (s : dst) : str := match fm with Json => s_str s | Ron => s_id s end.
  Lemma tok_name x r (s1 s2 : dst) : token_before fm F x r -> s_str s2 = ltok_str (tok_of F fm x) (s_str s1) -> s_id s2 = ltok_id (tok_of F fm x) (s_id s1) ->
    buf s2 = match name_in fm x with Some n => n | None => buf s1 end.
  Proof.
    unfold buf. intros H E1 E2. rewrite E1, E2. destruct fm eqn:Ef.
    - destruct x as [p|w|t|b t]; cbn [name_in tok_of ltok_str]; try reflexivity.
      + destruct (punct Json p); reflexivity.
      + unfold id_tok. repeat (match goal with |- context [if ?b then _ else _] => destruct b end); reflexivity.
      + destruct (scan_num t) as [[a b] f]. destruct (num_tok F a f); reflexivity.
    - destruct x as [p|w|t|b t]; cbn [name_in tok_of ltok_id]; try reflexivity.
      + destruct (punct Ron p) as [k|] eqn:E; [|reflexivity]. unfold punct in E.
        repeat (match type of E with context [if ?b then _ else _] => destruct b; [injection E as <-; reflexivity|] end). discriminate.
      + unfold id_tok. destruct (str_eqb w (chars "true")) eqn:Q1; [apply str_eqb_eq in Q1; subst w; reflexivity|].
        destruct (str_eqb w (chars "false")) eqn:Q2; [apply str_eqb_eq in Q2; subst w; reflexivity|]. reflexivity.
      + destruct (scan_num t) as [[a b] f]. destruct (num_tok F a f) as [k|] eqn:E; [|reflexivity]. unfold num_tok in E.
        destruct f; [|destruct (cur a =? c_minus)];
          match type of E with option_map _ ?o = _ => destruct o; [injection E as <-; reflexivity | discriminate] end.
  Qed.
End Lex.

(** ** The readers *)
Section Readers.
  Variables (F : flt) (c : cfg) (G : env) (fm : fmt) (T : ty) (text : str).
  Notation L := (text_lexer F fm).
  Notation buf := (buf fm).
  Notation says := (says G fm).

  Definition sees (xs : list lexeme) (s : dst) : Prop :=
    wp fm text s /\ (forall v, s_tok s = KU64 v -> v < 2 ^ 64) /\ exists r, tokens fm F xs text r /\ current F fm xs r (s_tok s) (s_inp s).
  Definition kkey : tok := match fm with Json => KStr | Ron => KIdent end.
  Definition named (xs : list lexeme) (s : dst) : Prop := last_name fm xs (buf s).
  (** Anywhere; between two calls; with a name read. *)
  Definition W (s : dst) : Prop := exists xs, sees xs s.
  Definition fresh (xs : list lexeme) (s : dst) : Prop :=
    (s_tok s = KStr -> exists ys b, xs = ys ++ [XS b (s_str s)]) /\ (s_tok s = KIdent -> exists ys, xs = ys ++ [XW (s_id s)]).
  Definition I (s : dst) : Prop := exists xs, sees xs s /\ fresh xs s.
  Definition J (s : dst) : Prop := exists xs, sees xs s /\ fresh xs s /\ named xs s.
  Definition E (e : terr) : Prop := true_of F G fm T text e.
  Definition lost (s : dst) : Prop := wp fm text s /\ exists xs r q, tokens fm F xs text r /\ unreadable F fm r /\ r = q ++ s_inp s.

  Lemma I_W s : I s -> W s. Proof. intros (xs & H & _). exists xs. exact H. Qed.
  Lemma J_I s : J s -> I s. Proof. intros (xs & H & H2 & _). exists xs. auto. Qed.
  Lemma I_J s : I s -> s_tok s = kkey -> J s.
  Proof.
    intros (xs & H & H2) K. exists xs. split; [exact H|]. split; [exact H2|]. destruct H2 as [A B]. unfold named, last_name, kkey, Say.buf in *. destruct fm.
    - destruct (A K) as (ys & b & E1). exists ys, (XS b (s_str s)), []. auto.
    - destruct (B K) as (ys & E1). exists ys, (XW (s_id s)), []. auto.
  Qed.

  Definition triple {A} (P : dst -> Prop) (m : @pm dst A) (Q : A -> dst -> Prop) : Prop := forall s, P s ->
    match m s with
    | (s', Ok a) => Q a s'
    | (s', Err e) => E e /\ (I s' \/ lost s')
    | _ => True
    end.
  Definition ok {A} (m : @pm dst A) : Prop := triple I m (fun _ => I).

  Lemma t_weak {A} (P P' : dst -> Prop) (m : @pm dst A) (Q Q' : A -> dst -> Prop) : triple P m Q -> (forall s, P' s -> P s) -> (forall a s, Q a s -> Q' a s) -> triple P' m Q'.
  Proof.
    intros H HP HQ s Hs. specialize (H s (HP s Hs)). destruct (m s) as [s' [a|e|p|]]; auto.
  Qed.
  Lemma t_bind {A B} (P : dst -> Prop) (m : @pm dst A) (f : A -> @pm dst B) Q R : triple P m Q -> (forall a, triple (Q a) (f a) R) -> triple P (pbind m f) R.
  Proof.
    intros Hm Hf s Hs. unfold pbind. specialize (Hm s Hs). destruct (m s) as [s' [a|e|p|]]; auto. apply (Hf a s' Hm).
  Qed.
  Lemma t_ret {A} (P : dst -> Prop) (a : A) : triple P (pret a) (fun _ => P).
  Proof. intros s Hs. exact Hs. Qed.
  Lemma t_map {A B} (P : dst -> Prop) (g : A -> B) m Q : triple P m (fun _ => Q) -> triple P (pmap g m) (fun _ => Q).
  Proof. intro H. eapply t_bind; [exact H|]. intro a. exact (t_ret Q (g a)). Qed.
  Lemma t_panic {A} (P : dst -> Prop) (p : panic) (Q : A -> dst -> Prop) : triple P (pfail (Panic p)) Q.
  Proof. intros s _. exact Logic.I. Qed.
  Lemma t_fuel {A} (P : dst -> Prop) (Q : A -> dst -> Prop) : triple P (pfail NoFuel) Q.
  Proof. intros s _. exact Logic.I. Qed.

  (** *** Advancing *)
  Lemma last_name_step xs x n : name_in fm x = Some n -> last_name fm (xs ++ [x]) n.
  Proof. intro H. exists xs, x, []. auto. Qed.
  Lemma last_name_keep xs x n : name_in fm x = None -> last_name fm xs n -> last_name fm (xs ++ [x]) n.
  Proof.
    intros Hx (a & y & b & -> & Hy & Hb). exists a, y, (b ++ [x]). rewrite <- app_assoc. split; [reflexivity|]. split; [exact Hy|].
    apply Forall_app. auto.
  Qed.
  Lemma tokens_snoc xs t0 r g x r' : tokens fm F xs t0 r -> r = g ++ spelled x ++ r' -> space fm g -> token_before fm F x r' -> tokens fm F (xs ++ [x]) t0 r'.
  Proof.
    intro H. revert g x r'. induction H as [r|g0 x0 xs t0 r Hg0 Hx0 H IH]; intros g x r' E0 Hg Hx.
    - subst r. cbn [app]. constructor; [exact Hg | exact Hx | constructor].
    - cbn [app]. constructor; [exact Hg0 | exact Hx0 | eapply IH; eauto].
  Qed.
  Lemma kkey_name x : kind_of F fm x kkey -> exists n, name_in fm x = Some n.
  Proof. unfold kkey. intro H. destruct fm; inversion H; subst; cbn; eauto; discriminate. Qed.
  Lemma wp_points s rest m : wp fm text s -> rest = s_inp s -> points_at fm text rest (mk_err (l_pos L s) m).
  Proof.
    intros (p & Hp & Hpos) ->. exists p. split; [exact Hp|]. cbn [l_pos text_lexer mk_err e_line e_col fst snd].
    unfold pos_of in Hpos. pose proof (pos_line fm (p ++ firstn 1 (s_inp s)) (0, 0)) as Hl. rewrite <- Hpos in Hl. cbn [fst] in Hl. split; [lia|].
    destruct fm.
    - pose proof (pos_col_json (p ++ firstn 1 (s_inp s))) as Hc. rewrite <- Hpos in Hc. exact Hc.
    - pose proof (pos_col_ron (p ++ firstn 1 (s_inp s)) (0, 0) eq_refl) as Hc. rewrite <- Hpos in Hc. exact Hc.
  Qed.
  (** What one step does. *)
  Definition before (xs : list lexeme) (s : dst) : Prop :=
    wp fm text s /\ exists r, tokens fm F xs text r /\ (s_inp s = r \/ (at_end fm r /\ over (s_inp s) /\ exists g, r = g ++ s_inp s)).
  Lemma sees_before xs s : sees xs s -> before xs s.
  Proof.
    intros (Hw & _ & r & Ht & Hc). split; [exact Hw|]. exists r. split; [exact Ht|].
    destruct Hc as [(ys & x & _ & _ & H)|(H1 & _ & H2 & H3)]; auto.
  Qed.
  Lemma next_step xs s : before xs s ->
    match l_next L s with
    | (s', Ok _) => exists ys, sees (xs ++ ys) s' /\ fresh (xs ++ ys) s' /\ (named xs s -> named (xs ++ ys) s')
    | (s', Err e) => E e /\ lost s'
    | _ => False
    end.
  Proof.
    intros [Hw (r & Ht & Hc)]. pose proof (next_wp F fm text s Hw) as Hn. cbn [l_next text_lexer] in *. unfold lex_next in *.
    pose proof (scan_suffix F fm (Datatypes.S (length (s_inp s))) (s_tok s) (s_inp s) ltac:(lia)) as Hsuf.
    destruct (scan_spec F fm (length (s_inp s)) (s_inp s) (Datatypes.S (length (s_inp s))) (Datatypes.S (length (s_inp s))) (s_tok s) (s_tok s)) as (_ & _ & _ & _ & Hsp); try lia.
    destruct (scan F fm (Datatypes.S (length (s_inp s))) (s_tok s) (s_inp s)) as [l' [t|k m]] eqn:Es; cbn [fst snd] in *.
    - destruct Hn as [Hn _]. apply (scan_inv F fm (length (s_inp s))) in Es; [|lia|lia]. destruct Es as [[-> He]|(g & x & Ei & Hg & Hx & Hk)].
      + destruct Hsp as [[_ Hl]|[Hne _]]; [|congruence]. exists []. rewrite app_nil_r. cbn [ltok_kind ltok_str ltok_id] in *. split.
        * split; [exact Hn|]. split; [discriminate|]. exists r. split; [exact Ht|]. right. cbn [s_tok s_inp]. split; [|split; [reflexivity|split; [apply cur0_over; exact Hl|]]].
          { destruct Hc as [<-|(He2 & _)]; assumption. }
          destruct Hsuf as [j Hj]. destruct Hc as [Er|(_ & _ & g & Er)].
          { exists j. rewrite <- Er. exact Hj. }
          { exists (g ++ j). rewrite Er, Hj at 1. apply app_assoc. }
        * split; [split; discriminate|]. unfold named, Say.buf. cbn [s_str s_id]. auto.
      + exists [x]. assert (Hr : s_inp s = r).
        { destruct Hc as [Er|(_ & Ho & _)]; [exact Er|]. exfalso. pose proof (scan_over F fm (length (s_inp s)) KBof (s_inp s) (s_inp s) (LP KEof) Ho) as _.
          destruct (token_lex F fm x l' Hx) as [_ Hne].
          assert (E0 : lexs F fm (s_inp s) = ([], false)) by (apply over_eof; exact Ho).
          rewrite Ei, (lexs_token F fm g x l' Hg Hx) in E0. destruct (lexs F fm l'). discriminate. }
        assert (Ht' : tokens fm F (xs ++ [x]) text l') by (apply (tokens_snoc xs text r g x l'); auto; rewrite <- Hr; exact Ei).
        pose proof (tok_kind F fm x l' Hx) as Hkind. rewrite Hk in Hkind. split.
        * split; [exact Hn|]. split; [cbn [s_tok]; intros v Hv; rewrite <- Hk in Hv; eapply tok_u64; exact Hv|]. exists l'. split; [exact Ht'|]. left. exists xs, x. cbn [s_tok s_inp]. auto.
        * rewrite <- Hk in Hkind. rewrite <- Hk. set (s' := {| s_inp := l' |}).
          assert (Hb : buf s' = match name_in fm x with Some n => n | None => buf s end).
          { apply (tok_name F fm x l' s s' Hx); subst s'; reflexivity. }
          split; [split|].
          { intro K. assert (K' : ltok_kind (tok_of F fm x) = KStr) by (subst s'; exact K). rewrite K' in Hkind. inversion Hkind; subst x. eexists xs, _. reflexivity. }
          { intro K. assert (K' : ltok_kind (tok_of F fm x) = KIdent) by (subst s'; exact K). rewrite K' in Hkind. inversion Hkind as [| | | | | | | | | | |w E1 E2 E3 E4| | | |]. subst x.
            exists xs. unfold Say.buf in Hb. rewrite E1 in Hb. cbn [name_in] in Hb. rewrite Hb. reflexivity. }
          clearbody s'. unfold named. intro H. rewrite Hb. destruct (name_in fm x) as [n|] eqn:En; [apply last_name_step; exact En|].
          apply last_name_keep; [exact En | exact H].
    - destruct Hn as [Hn Hpos]. assert (Hr : s_inp s = r).
      { destruct Hc as [Er|(_ & Ho & _)]; [exact Er|]. exfalso.
        destruct Ho as [Ho|[r3 Ho]]; rewrite Ho in Es; cbn [length scan drop_while] in Es; discriminate. }
      pose proof (scan_unreadable F fm _ _ _ _ _ Es) as Hu. apply (scan_barred F fm (length (s_inp s))) in Es; [|lia|lia].
      destruct Hsuf as [q Hq]. rewrite Hr in *. split; [|split; [exact Hn|]; exists xs, r, q; auto].
      apply (to_lexical F G fm T text _ xs r l' q Ht Hu Hq).
      + pose proof (wp_points _ l' m Hn eq_refl) as Hpt. exact Hpt.
      + left. exact Es.
  Qed.
  Lemma t_next : triple W (l_next L) (fun _ => I).
  Proof.
    intros s [xs Hs]. pose proof (next_step xs s (sees_before xs s Hs)) as H. destruct (l_next L s) as [s' [a|e|p|]]; [|tauto|contradiction|contradiction].
    destruct H as (ys & A & B & _). exists (xs ++ ys). auto.
  Qed.
  Lemma t_next_I : ok (l_next L).
  Proof. eapply t_weak; [exact t_next | exact I_W | auto]. Qed.
  Lemma t_next_J : triple J (l_next L) (fun _ => J).
  Proof.
    intros s (xs & Hs & _ & Hn). pose proof (next_step xs s (sees_before xs s Hs)) as H. destruct (l_next L s) as [s' [a|e|p|]]; [|tauto|contradiction|contradiction].
    destruct H as (ys & A & B & C). exists (xs ++ ys). auto.
  Qed.

  (** *** Complaining *)
  Lemma complain s u m xs : sees xs s -> part G T u -> says xs (s_tok s) u m -> E (mk_err (l_pos L s) m).
  Proof.
    intros [Hw [_ (r & Ht & Hc)]] Hu Hm. apply (to_wrong F G fm T text _ xs r (s_tok s) (s_inp s) u); auto. apply wp_points; auto.
  Qed.
  Lemma t_perr {A} (P : dst -> Prop) u m (Q : A -> dst -> Prop) : part G T u -> (forall s, P s -> I s) ->
    (forall s, P s -> exists xs, sees xs s /\ says xs (s_tok s) u m) -> triple P (perr L m) Q.
  Proof.
    intros Hu HI H s Hs. unfold perr. destruct (H s Hs) as (xs & A1 & A2). split; [exact (complain s u m xs A1 Hu A2) | left; apply HI; exact Hs].
  Qed.
  Lemma t_token {A} (P : dst -> Prop) u w (Q : A -> dst -> Prop) : part G T u -> (forall s, P s -> I s) ->
    (forall s, P s -> forall xs, says xs (s_tok s) u (UnexpectedToken (s_tok s) w)) -> triple P (err_token L w) Q.
  Proof.
    intros Hu HI H s Hs. unfold err_token, perr. destruct (HI s Hs) as (xs & A1 & _). split; [|left; apply HI; exact Hs].
    apply (complain s u _ xs A1 Hu). apply H. exact Hs.
  Qed.
  Definition plain (k : tok) : Prop := tok_is k k = true.
  Lemma tok_isnt a k : plain k -> tok_is a k = false -> a <> k.
  Proof. unfold plain. intros H1 H2 ->. congruence. Qed.
  Lemma t_expect u k w : part G T u -> plain k -> (forall xs a, a <> k -> says xs a u (UnexpectedToken a w)) -> ok (expect L k w).
  Proof.
    intros Hu Hk H s Hs. unfold expect. destruct (tok_is (l_tok L s) k) eqn:Ek; [apply t_next_I; exact Hs|].
    pose proof (t_token (A := unit) (fun s => I s /\ s_tok s <> k) u w (fun _ => I) Hu) as X. apply X; [tauto | | split; [exact Hs | apply (tok_isnt _ _ Hk Ek)]].
    intros s0 [_ H0] xs. apply H. exact H0.
  Qed.
  Lemma t_expect_J u k w : part G T u -> plain k -> (forall xs a, a <> k -> says xs a u (UnexpectedToken a w)) -> triple J (expect L k w) (fun _ => J).
  Proof.
    intros Hu Hk H s Hs. unfold expect. destruct (tok_is (l_tok L s) k) eqn:Ek; [apply t_next_J; exact Hs|].
    pose proof (t_token (A := unit) (fun s => J s /\ s_tok s <> k) u w (fun _ => J) Hu) as X. apply X; [intros s0 [H0 _]; apply J_I; exact H0 | | split; [exact Hs | apply (tok_isnt _ _ Hk Ek)]].
    intros s0 [_ H0] xs. apply H. exact H0.
  Qed.
  Lemma t_expect_key u w : part G T u -> (forall xs a, a <> kkey -> says xs a u (UnexpectedToken a w)) -> triple I (expect L kkey w) (fun _ => J).
  Proof.
    intros Hu H s Hs. unfold expect. destruct (tok_is (l_tok L s) kkey) eqn:Ek.
    - apply tok_is_eq in Ek. apply t_next_J. apply I_J; [exact Hs | exact Ek].
    - pose proof (t_token (A := unit) (fun s => I s /\ s_tok s <> kkey) u w (fun _ => J) Hu) as X.
      apply X; [tauto | | split; [exact Hs | apply tok_isnt; [unfold plain, kkey; destruct fm; reflexivity | exact Ek]]].
      intros s0 [_ H0] xs. apply H. exact H0.
  Qed.
  Lemma t_open u b : part G T u -> written_in G fm u b -> ok (expect L (fst (opens b)) (snd (opens b))).
  Proof. intros Hu Hb. apply (t_expect u); [exact Hu | destruct b; reflexivity|]. intros xs a Ha. apply sy_open; assumption. Qed.
  Lemma t_close u b : part G T u -> written_in G fm u b -> ok (expect L (fst (closes b)) (snd (closes b))).
  Proof. intros Hu Hb. apply (t_expect u); [exact Hu | destruct b; reflexivity|]. intros xs a Ha. apply sy_close; assumption. Qed.
  Lemma t_colon u : part G T u -> has_colon G fm u -> ok (p_colon L).
  Proof. intros Hu Hb. apply (t_expect u); [exact Hu | reflexivity|]. intros xs a Ha. apply sy_colon; assumption. Qed.
  Lemma t_comma u b : part G T u -> written_in G fm u b -> ok (eat_comma L (fst (closes b)) (chars ", or " ++ snd (closes b))).
  Proof.
    intros Hu Hb s Hs. unfold eat_comma. destruct (tok_is (l_tok L s) KComma) eqn:E1; [apply t_next_I; exact Hs|].
    destruct (tok_is (l_tok L s) (fst (closes b))) eqn:E2; [exact Hs|].
    pose proof (t_token (A := unit) (fun s => I s /\ s_tok s <> KComma /\ s_tok s <> fst (closes b)) u (chars ", or " ++ snd (closes b)) (fun _ => I) Hu) as X.
    apply X; [tauto| |].
    - intros s0 (_ & H1 & H2) xs. apply sy_comma; assumption.
    - split; [exact Hs|]. split; apply tok_isnt; auto; [reflexivity | destruct b; reflexivity].
  Qed.
  Lemma t_while {A} n cond (body : A -> @pm dst A) : (forall a, triple (fun s => I s /\ cond s = true) (body a) (fun _ => I)) ->
    forall a, ok (while_ n cond body a).
  Proof.
    intro Hb. induction n as [|n IH]; intros a s Hs; cbn [while_]; [exact Logic.I|].
    destruct (cond s) eqn:Ec; [|exact Hs].
    pose proof (t_bind (fun s => I s /\ cond s = true) (body a) (while_ n cond body) (fun _ => I) (fun _ => I) (Hb a) IH) as X. apply X. auto.
  Qed.
  Lemma ok_while {A} n cond (body : A -> @pm dst A) : (forall a, ok (body a)) -> forall a, ok (while_ n cond body a).
  Proof. intro H. apply t_while. intro a. eapply t_weak; [exact (H a) | tauto | auto]. Qed.
  Lemma ok_bind {A B} (m : @pm dst A) (f : A -> @pm dst B) : ok m -> (forall a, ok (f a)) -> ok (pbind m f).
  Proof. intros H1 H2. exact (t_bind I m f (fun _ => I) (fun _ => I) H1 H2). Qed.
  Lemma ok_ret {A} (a : A) : ok (pret a). Proof. exact (t_ret I a). Qed.
  Lemma ok_map {A B} (g : A -> B) m : ok m -> ok (pmap g m). Proof. exact (t_map I g m I). Qed.

  (** *** Scalars *)
  Lemma t_u64 u q : part G T u -> (forall xs a, no_unsigned a -> says xs a u (UnexpectedToken a (chars "unsigned integer"))) ->
    (forall xs v m, u_max q < v -> m = dec v ++ chars ">" ++ dec (u_max q) -> says xs (KU64 v) u (OutOfRange m)) -> ok (u64_range L (u_max q)).
  Proof.
    intros Hu H1 H2 s Hs. unfold u64_range. cbn [l_tok text_lexer].
    assert (BAD : no_unsigned (s_tok s) -> match err_token (A := N) L (chars "unsigned integer") s with (s', Ok a) => I s' | (s', Err e) => E e /\ (I s' \/ lost s') | _ => True end).
    { intro Hn. apply (t_token (A := N) (fun s => I s /\ no_unsigned (s_tok s)) u (chars "unsigned integer") (fun _ => I) Hu); [tauto | | auto].
      intros s0 [_ H0] xs. apply H1. exact H0. }
    destruct (s_tok s) eqn:Et; try (apply BAD; rewrite ?Et; intros v Hv; discriminate).
    destruct (u_max q <? n) eqn:El; [|exact Hs]. apply N.ltb_lt in El.
    apply (t_perr (A := N) (fun s => I s /\ s_tok s = KU64 n) u _ (fun _ => I) Hu); [tauto | | auto].
    intros s0 [(xs & A & _) B]. exists xs. split; [exact A|]. rewrite B. apply H2; auto.
  Qed.
  Lemma t_i64 u q : part G T u -> (forall xs a, no_integer a -> says xs a u (UnexpectedToken a (chars "signed integer"))) ->
    (forall xs v m, v < 2 ^ 64 -> (i_bound q - 1 < u64_as_i64 v)%Z -> m = dec v ++ chars ">" ++ dec_z (i_bound q - 1) -> says xs (KU64 v) u (OutOfRange m)) ->
    (forall xs z m, (z < - i_bound q)%Z -> m = dec_z z ++ chars "<" ++ dec_z (- i_bound q) -> says xs (KI64 z) u (OutOfRange m)) ->
    ok (i64_range L (- i_bound q) (i_bound q - 1)).
  Proof.
    intros Hu H1 H2 H3 s Hs. unfold i64_range. cbn [l_tok text_lexer].
    assert (BAD : no_integer (s_tok s) -> match err_token (A := Z) L (chars "signed integer") s with (s', Ok a) => I s' | (s', Err e) => E e /\ (I s' \/ lost s') | _ => True end).
    { intro Hn. apply (t_token (A := Z) (fun s => I s /\ no_integer (s_tok s)) u (chars "signed integer") (fun _ => I) Hu); [tauto | | auto].
      intros s0 [_ H0] xs. apply H1. exact H0. }
    destruct (s_tok s) eqn:Et; try (apply BAD; rewrite ?Et; split; intros v Hv; discriminate).
    - destruct (i_bound q - 1 <? u64_as_i64 n)%Z eqn:El; [|exact Hs]. apply Z.ltb_lt in El.
      apply (t_perr (A := Z) (fun s => I s /\ s_tok s = KU64 n) u _ (fun _ => I) Hu); [tauto | | auto].
      intros s0 [(xs & A & _) B]. exists xs. split; [exact A|]. rewrite B. apply H2; auto. apply (proj1 (proj2 A)). exact B.
    - destruct (z <? - i_bound q)%Z eqn:El; [|exact Hs]. apply Z.ltb_lt in El.
      apply (t_perr (A := Z) (fun s => I s /\ s_tok s = KI64 z) u _ (fun _ => I) Hu); [tauto | | auto].
      intros s0 [(xs & A & _) B]. exists xs. split; [exact A|]. rewrite B. apply H3; auto.
  Qed.
  Lemma great_says xs q v m : q <> U128 -> q <> I128 -> ik_signed q = false -> u_max q < v -> m = dec v ++ chars ">" ++ dec (u_max q) -> says xs (KU64 v) (TInt q) (OutOfRange m).
  Proof.
    intros N1 N2 Hs Hv ->. assert (Eg : greatest q = u_max q) by (destruct q; try reflexivity; discriminate || congruence).
    apply (sy_great _ _ _ _ q v); [reflexivity | rewrite Eg; exact Hv | congruence|]. exists (dec v), (dec (u_max q)). rewrite Eg. split; [reflexivity|]. split; apply dec_numeral.
  Qed.
  Lemma i_bound_greatest q : q <> I128 -> ik_signed q = true -> i_bound q = Z.of_N (greatest q + 1).
  Proof. destruct q; try reflexivity; try discriminate; congruence. Qed.
  Lemma ok_int q : part G T (TInt q) -> ok (de_int L c q).
  Proof.
    intro Hu. unfold de_int.
    assert (GO : q <> U128 -> q <> I128 -> ok (if ik_signed q
      then pbind (i64_range L (- i_bound q) (i_bound q - 1)) (fun v => pbind (l_next L) (fun _ => pret (VZ (cast c q v))))
      else pbind (u64_range L (u_max q)) (fun v => pbind (l_next L) (fun _ => pret (VZ (cast c q (Z.of_N v))))))).
    { intros N1 N2. destruct (ik_signed q) eqn:Eq.
      - apply ok_bind; [|intro; apply ok_bind; [apply t_next_I | intro; apply ok_ret]]. pose proof (i_bound_greatest q N2 Eq) as Eb.
        apply (t_i64 (TInt q)); [exact Hu | intros; apply sy_signed; assumption | |].
        + intros xs v m H64 Hv ->. assert (Hg : greatest q < v /\ v < 2 ^ 63).
          { rewrite Eb in Hv. unfold u64_as_i64 in Hv. destruct (v <? 2 ^ 63) eqn:E0; [apply N.ltb_lt in E0; lia|].
            apply N.ltb_ge in E0. lia. }
          apply (sy_great _ _ _ _ q v); [reflexivity | tauto | tauto|]. exists (dec v), (dec (greatest q)). split; [|split; apply dec_numeral].
          replace (i_bound q - 1)%Z with (Z.of_N (greatest q)) by (rewrite Eb; lia). unfold dec_z. replace (Z.of_N (greatest q) <? 0)%Z with false by lia. rewrite N2Z.id. reflexivity.
        + intros xs z m Hz ->. rewrite Eb in Hz. apply (sy_small _ _ _ _ q (Z.to_N (- z))); [f_equal; lia | exact Eq | lia|].
          exists (dec (Z.to_N (- z))), (dec (greatest q + 1)). split; [|split; apply dec_numeral].
          unfold dec_z. replace (z <? 0)%Z with true by lia. replace (- i_bound q <? 0)%Z with true by (rewrite Eb; lia).
          replace (- - i_bound q)%Z with (Z.of_N (greatest q + 1)) by (rewrite Eb; lia). rewrite N2Z.id. unfold c_minus. reflexivity.
      - apply ok_bind; [|intro; apply ok_bind; [apply t_next_I | intro; apply ok_ret]].
        apply (t_u64 (TInt q)); [exact Hu | intros; apply sy_unsigned; assumption|]. intros xs v m Hv Hm. eapply great_says; eauto. }
    destruct q; try (apply GO; discriminate); apply t_panic.
  Qed.
  Lemma ok_dur_u64 t q : q = U64 \/ q = U32 -> a_clock t -> part G T t -> ok (de_u64 L q).
  Proof.
    intros Hq Ht Hu. unfold de_u64. apply ok_bind; [|intro; apply ok_bind; [apply t_next_I | intro; apply ok_ret]].
    intros s Hs. destruct Hq as [-> | ->].
    2:{ revert s Hs. apply (t_u64 t); [exact Hu | intros; apply sy_dur_unsigned; assumption|]. intros xs v m Hv ->. cbn [u_max] in Hv. apply (sy_dur_nanos _ _ _ _ _ v); [exact Ht | reflexivity | lia|].
        exists (dec v), (dec (2 ^ 32 - 1)). split; [reflexivity|]. split; apply dec_numeral. }
    unfold u64_range. cbn [l_tok text_lexer].
    assert (BAD : no_unsigned (s_tok s) -> match err_token (A := N) L (chars "unsigned integer") s with (s', Ok a) => I s' | (s', Err e) => E e /\ (I s' \/ lost s') | _ => True end).
    { intro Hn. apply (t_token (A := N) (fun s => I s /\ no_unsigned (s_tok s)) t (chars "unsigned integer") (fun _ => I) Hu); [tauto | | auto].
      intros s0 [_ H0] xs. apply sy_dur_unsigned; assumption. }
    destruct (s_tok s) eqn:Et; try (apply BAD; rewrite ?Et; intros v Hv; discriminate).
    destruct (u_max U64 <? n) eqn:El; [|exact Hs]. apply N.ltb_lt in El. exfalso.
    destruct Hs as (xs & (_ & Hb & _) & _). specialize (Hb n Et). cbn [u_max] in El. lia.
  Qed.

  Lemma take_W s : W s -> W (l_take L s).
  Proof. intros (xs & Hw & Hb & r & Hr). exists xs. split; [exact Hw|]. split; [exact Hb|]. exists r. exact Hr. Qed.
  (** A string was read. *)
  Definition K (w : str) (s : dst) : Prop := exists xs, sees xs s /\ fresh xs s /\ exists b, In (XS b w) xs.
  Lemma K_I w s : K w s -> I s. Proof. intros (xs & A & B & _). exists xs. auto. Qed.
  Lemma t_str u : part G T u -> u = TStr \/ a_clock u -> triple I (de_str L) K.
  Proof.
    intros Hu Hc s Hs. unfold de_str, pbind, as_string. cbn [l_tok text_lexer]. destruct (tok_is (s_tok s) KStr) eqn:Ek.
    - apply tok_is_eq in Ek. destruct Hs as (xs & A & B & _). destruct (B Ek) as (ys & b & Ex).
      pose proof (take_W s (ex_intro _ xs A)) as _.
      assert (A' : sees xs (l_take L s)) by (destruct A as (Hw & Hb & r & Hr); split; [exact Hw|]; split; [exact Hb|]; exists r; exact Hr).
      pose proof (next_step xs _ (sees_before _ _ A')) as H. destruct (l_next L (l_take L s)) as [s' [x|e|p|]]; [|tauto|contradiction|contradiction].
      destruct H as (zs & H1 & H2 & _). exists (xs ++ zs). split; [exact H1|]. split; [exact H2|]. exists b. rewrite Ex, !in_app_iff. cbn [In]. auto.
    - assert (X : s_tok s <> KStr) by (apply (tok_isnt _ KStr eq_refl Ek)).
      pose proof (t_token (A := unit) (fun s => I s /\ s_tok s <> KStr) u (chars "string") (fun _ => I) Hu) as Y. unfold err_token, perr in *.
      apply Y; [tauto | | auto]. intros s0 [_ H0] ys. apply sy_string; assumption.
  Qed.
  Lemma ok_str : part G T TStr -> ok (de_str L).
  Proof. intro Hu. eapply t_weak; [apply (t_str TStr); auto | auto | apply K_I]. Qed.
  Lemma ok_f64 u : part G T u -> u = TF32 \/ u = TF64 -> ok (de_f64 L F).
  Proof.
    intros Hu Hc. unfold de_f64. apply ok_bind; [|intro; apply ok_bind; [apply t_next_I | intro; apply ok_ret]].
    intros s Hs. unfold as_f64. cbn [l_tok text_lexer].
    assert (BAD : no_number (s_tok s) -> match err_token (A := N) L (chars "floating point") s with (s', Ok a) => I s' | (s', Err e) => E e /\ (I s' \/ lost s') | _ => True end).
    { intro Hn. apply (t_token (A := N) (fun s => I s /\ no_number (s_tok s)) u (chars "floating point") (fun _ => I) Hu); [tauto | | auto].
      intros s0 [_ H0] xs. apply sy_float; assumption. }
    destruct (s_tok s) eqn:Et; try exact Hs; apply BAD; (split; [split|]; intros v Hv; discriminate).
  Qed.
  Lemma ok_bool : part G T TBool -> ok (de_bool L fm).
  Proof.
    intro Hu. unfold de_bool. apply ok_bind; [|intro; apply ok_bind; [apply t_next_I | intro; apply ok_ret]].
    intros s Hs. unfold as_bool. cbn [l_tok text_lexer].
    assert (BAD : (forall b, s_tok s <> KBool b) /\ (fm = Ron -> no_unsigned (s_tok s)) -> match err_token (A := bool) L (chars "boolean") s with (s', Ok a) => I s' | (s', Err e) => E e /\ (I s' \/ lost s') | _ => True end).
    { intro Hn. apply (t_token (A := bool) (fun s => I s /\ (forall b, s_tok s <> KBool b) /\ (fm = Ron -> no_unsigned (s_tok s))) TBool (chars "boolean") (fun _ => I) Hu); [tauto | | auto].
      intros s0 (_ & H0 & H1) xs. apply sy_bool; assumption. }
    destruct (s_tok s) eqn:Et; try exact Hs; try (apply BAD; split; [intros b Hb; discriminate | intros _ v Hv; discriminate]).
    destruct fm eqn:Ef; [|exact Hs]. apply BAD. split; [intros b Hb; discriminate | discriminate].
  Qed.
  Lemma ok_opt de : ok de -> ok (de_opt L fm de).
  Proof.
    intros H s Hs. unfold de_opt. destruct (at_none L fm s); [apply (ok_bind _ _ t_next_I (fun _ => ok_ret VNone)); exact Hs | apply (ok_map VSome _ H); exact Hs].
  Qed.
  Lemma clock_curly u : a_clock u -> written_in G fm u Curly.
  Proof. intros [-> | ->]; constructor. Qed.
  Lemma clock_colon u : a_clock u -> has_colon G fm u.
  Proof. intros [-> | ->]; constructor. Qed.
  Lemma ok_dur u n : part G T u -> a_clock u -> ok (de_dur L n).
  Proof.
    intros Hu Hc. pose proof (clock_curly u Hc) as Hw. unfold de_dur. apply ok_bind; [apply (t_open u Curly); assumption|]. intros _. apply ok_bind.
    - apply ok_while. intro a. unfold dur_body. eapply t_bind; [apply (t_str u); auto|]. intro key. eapply t_bind with (Q := fun _ => I).
      + assert (TWICE : forall w, key = w -> w = chars "secs" \/ w = chars "nanos" -> forall A (Q : A -> dst -> Prop), triple (K key) (perr L (CannotParse (chars "Duration can only have one " ++ w ++ chars " field"))) Q).
        { intros w -> Hw2 A Q. apply (t_perr _ u); [exact Hu | apply K_I|]. intros s (xs & A1 & _ & A3). exists xs. split; [exact A1|]. apply sy_dur_twice; assumption. }
        assert (COLON : triple (K key) (p_colon L) (fun _ => I)) by (eapply t_weak; [apply (t_colon u); [exact Hu | apply clock_colon; exact Hc] | apply K_I | auto]).
        destruct (str_eqb key (chars "secs")) eqn:E1.
        { apply str_eqb_eq in E1. destruct (fst a); [apply (TWICE (chars "secs")); auto|]. eapply t_bind; [exact COLON|]. intro.
          apply ok_bind; [apply (ok_dur_u64 u); auto | intro; apply ok_ret]. }
        destruct (str_eqb key (chars "nanos")) eqn:E2.
        { apply str_eqb_eq in E2. destruct (snd a); [apply (TWICE (chars "nanos")); auto|]. eapply t_bind; [exact COLON|]. intro.
          apply ok_bind; [apply (ok_dur_u64 u); auto | intro; apply ok_ret]. }
        apply str_eqb_neq in E1, E2. apply (t_perr _ u); [exact Hu | apply K_I|]. intros s (xs & A1 & _ & A3). exists xs. split; [exact A1|]. apply sy_dur_other; assumption.
      + intro a'. apply ok_bind; [apply (t_comma u Curly); assumption | intro; apply ok_ret].
    - intro a. apply ok_bind; [apply (t_close u Curly); assumption|]. intros _. destruct (fst a) as [secs|].
      + cbv zeta. destruct (1000000000 <? _).
        { apply (t_perr _ u); [exact Hu | auto|]. intros s (xs & A1 & _). exists xs. split; [exact A1|]. apply sy_dur_range. exact Hc. }
        destruct (_ <? _); [apply ok_ret|]. destruct (_ <? _); [apply ok_ret | apply t_panic].
      + apply (t_perr _ u); [exact Hu | auto|]. intros s (xs & A1 & _). exists xs. split; [exact A1|]. apply sy_dur_secs. exact Hc.
  Qed.
  Lemma ok_time n : part G T TTime -> ok (de_time L c fm n).
  Proof.
    intro Hu. unfold de_time. apply ok_bind; [apply ok_opt, (ok_dur TTime); [exact Hu | right; reflexivity]|].
    intros [| | | | | |v| | | | |]; try apply ok_ret. destruct v; try apply ok_ret. destruct (_ <=? _); [apply ok_ret | apply t_panic].
  Qed.

  (** *** Composed types *)
  Section Composed.
    Variable de : ty -> @pm dst val.
    Hypothesis IH : forall t, part G T t -> ok (de t).
    Variable n : nat.
    Lemma part_of u t : part G T u -> component G u t -> part G T t.
    Proof. intros H1 H2. exact (pa_in G T u t H1 H2). Qed.
    Lemma ok_seq q t : part G T (TSeq q t) -> ok (de_seq L de n q t).
    Proof.
      intro Hu. unfold de_seq. assert (Hw : written_in G fm (TSeq q t) Square) by constructor.
      apply ok_bind; [apply (t_open _ Square Hu Hw)|]. intros _. apply ok_bind.
      - apply ok_while. intro acc. apply ok_bind; [apply IH; eapply part_of; [exact Hu | reflexivity]|]. intro v.
        apply ok_bind; [apply (t_comma _ Square Hu Hw) | intro; apply ok_ret].
      - intro l. apply ok_bind; [apply (t_close _ Square Hu Hw) | intro; apply ok_ret].
    Qed.
    Lemma ok_dmap q tk tv : part G T (TMap q tk tv) -> ok (de_map L de n q tk tv).
    Proof.
      intro Hu. unfold de_map. assert (Hw : written_in G fm (TMap q tk tv) Curly) by constructor.
      apply ok_bind; [apply (t_open _ Curly Hu Hw)|]. intros _. apply ok_bind.
      - apply ok_while. intro acc. apply ok_bind; [apply IH; eapply part_of; [exact Hu | left; reflexivity]|]. intro x.
        apply ok_bind; [apply (t_colon _ Hu); constructor|]. intros _. apply ok_bind; [apply IH; eapply part_of; [exact Hu | right; reflexivity]|]. intro y.
        apply ok_bind; [apply (t_comma _ Curly Hu Hw) | intro; apply ok_ret].
      - intro l. apply ok_bind; [apply (t_close _ Curly Hu Hw) | intro; apply ok_ret].
    Qed.
    Lemma ok_tcomma u : part G T u -> written_in G fm u (for_items fm) -> ok (eat_tcomma L fm).
    Proof. intros Hu Hw. pose proof (t_comma u (for_items fm) Hu Hw) as H. unfold eat_tcomma. destruct fm; exact H. Qed.
    Lemma ok_item u t : part G T u -> written_in G fm u (for_items fm) -> part G T t -> ok (de_item L fm de t).
    Proof.
      intros Hu Hw Ht. unfold de_item. apply ok_bind; [apply IH; exact Ht|]. intro v. apply ok_bind; [exact (ok_tcomma u Hu Hw) | intro; apply ok_ret].
    Qed.
    (* After a failure to read a token, the comma check of a tuple. *)
    Lemma lost_comma ts s1 e : part G T (TTup ts) -> E e -> lost s1 ->
      match eat_tcomma L fm s1 with (s2, Ok _) => lost s2 | (s2, Err e2) => E e2 /\ lost s2 | _ => True end.
    Proof.
      intros Hu He (Hw & xs & r & q & Ht & Hun & Hr).
      pose proof (next_wp F fm text s1 Hw) as Hn. pose proof (scan_suffix F fm (Datatypes.S (length (s_inp s1))) (s_tok s1) (s_inp s1) ltac:(lia)) as Hsuf.
      assert (NEXT : match l_next L s1 with (s2, Ok _) => lost s2 | (s2, Err e2) => E e2 /\ lost s2 | _ => True end).
      { cbn [l_next text_lexer] in *. unfold lex_next in *.
        destruct (scan F fm (Datatypes.S (length (s_inp s1))) (s_tok s1) (s_inp s1)) as [l' [t|k m]] eqn:Es; cbn [fst snd] in *.
        - destruct Hn as [Hn _]. destruct Hsuf as [j Hj]. split; [exact Hn|]. exists xs, r, (q ++ j). split; [exact Ht|]. split; [exact Hun|].
          rewrite Hr, Hj. apply app_assoc.
        - destruct Hn as [Hn _]. destruct Hsuf as [j Hj]. assert (Hr2 : r = (q ++ j) ++ l') by (rewrite Hr, Hj; apply app_assoc).
          split; [|split; [exact Hn|]; exists xs, r, (q ++ j); auto].
          apply (to_lexical F G fm T text _ xs r l' (q ++ j) Ht Hun Hr2); [exact (wp_points _ l' m Hn eq_refl)|].
          right. split; [exists ts; exact Hu|]. left. apply (scan_barred F fm (length (s_inp s1))) in Es; [|lia|lia].
          destruct Es as (g & r' & E1 & _ & E3). exists (q ++ g), r'. split; [|exact E3]. rewrite Hr, E1. apply app_assoc. }
      unfold eat_tcomma, eat_comma. cbn [l_tok text_lexer]. destruct (tok_is (s_tok s1) KComma) eqn:E1; [exact NEXT|].
      assert (LS : lost s1) by (split; [exact Hw|]; exists xs, r, q; auto).
      destruct (tok_is (s_tok s1) (k_tclose fm)) eqn:E2; [exact LS|].
      unfold err_token, perr. split; [|exact LS].
      apply (to_lexical F G fm T text _ xs r (s_inp s1) q Ht Hun Hr); [exact (wp_points _ (s_inp s1) _ Hw eq_refl)|].
      right. split; [exists ts; exact Hu|]. right. exists (s_tok s1). split; [apply (tok_isnt _ KComma eq_refl E1)|]. split.
      - apply tok_isnt; [destruct fm; reflexivity|]. destruct fm; exact E2.
      - cbn [e_reason mk_err l_tok text_lexer]. destruct fm; reflexivity.
    Qed.
    Lemma ok_comma_block ts t : part G T (TTup ts) -> In t ts -> ok (comma_block L fm de t).
    Proof.
      intros Hu Ht s Hs. unfold comma_block. pose proof (IH t (part_of _ t Hu Ht) s Hs) as H. pose proof (ok_tcomma _ Hu (wi_tup G fm ts)) as HC.
      destruct (de t s) as [s1 [v|e|p|]]; auto.
      - specialize (HC s1 H). destruct (eat_tcomma L fm s1) as [s2 [v2|e|p|]]; auto.
      - destruct H as [He [Hi|Hl]].
        + specialize (HC s1 Hi). destruct (eat_tcomma L fm s1) as [s2 [v2|e2|p|]]; auto.
        + pose proof (lost_comma ts s1 e Hu He Hl) as X. destruct (eat_tcomma L fm s1) as [s2 [v2|e2|p|]]; tauto.
    Qed.
    Lemma ok_list l : Forall ok l -> ok (de_list l).
    Proof.
      induction 1 as [|p l Hp Hl IHl]; [apply ok_ret|]. cbn [de_list]. apply ok_bind; [exact Hp|]. intro v. apply ok_bind; [exact IHl | intro; apply ok_ret].
    Qed.
    Lemma ok_bracketed u l : part G T u -> written_in G fm u (for_items fm) -> Forall ok l -> ok (de_bracketed L fm l).
    Proof.
      intros Hu Hw Hl. unfold de_bracketed. pose proof (t_open u _ Hu Hw) as HO. pose proof (t_close u _ Hu Hw) as HC.
      apply ok_bind; [destruct fm; exact HO|]. intros _. apply ok_bind; [apply ok_list; exact Hl|]. intro vs.
      apply ok_bind; [destruct fm; exact HC | intro; apply ok_ret].
    Qed.

    Lemma ok_whole k : ok (whole_field L k).
    Proof.
      assert (LOOP : forall k d, ok (whole_loop L k d)).
      { clear k. induction k as [|k IHk]; intro d; cbn [whole_loop]; [apply t_fuel|]. intros s Hs. cbv zeta.
        apply (ok_bind (l_next L) (fun _ => if _ =? 0 then pret tt else whole_loop L k _) t_next_I); [|exact Hs].
        intros _. destruct (_ =? 0); [apply ok_ret | apply IHk]. }
      intros s Hs. unfold whole_field. destruct (l_tok L s); try (apply t_next_I; exact Hs); try (apply LOOP; exact Hs); exact Logic.I.
    Qed.
    Lemma find_field_some key : forall fs i j f, find_field key fs i = Some (j, f) -> In f fs /\ f_skip f = false.
    Proof.
      induction fs as [|g fs IHf]; intros i j f H; [discriminate|]. cbn [find_field] in H.
      destruct (negb (f_skip g) && str_eqb (field_key g) key) eqn:Eq.
      - injection H as _ <-. apply andb_prop in Eq as [E1 _]. apply negb_true_iff in E1. cbn [In]. auto.
      - destruct (IHf _ _ _ H). cbn [In]. auto.
    Qed.
    Lemma find_field_none key : forall fs i, find_field key fs i = None -> forall f, In f fs -> f_skip f = false -> key_of_field f <> key.
    Proof.
      induction fs as [|g fs IHf]; intros i H f Hf Hs; [contradiction|]. cbn [find_field] in H.
      destruct (negb (f_skip g) && str_eqb (field_key g) key) eqn:Eq; [discriminate|]. destruct Hf as [<-|Hf]; [|eapply IHf; eauto].
      rewrite Hs in Eq. cbn [negb andb] in Eq. apply str_eqb_neq in Eq. exact Eq.
    Qed.
    Lemma field_part u dflt fs f : has_fields G u dflt fs -> In f fs -> component G u (f_ty f).
    Proof.
      intros (i & -> & [[nl H]|(vs & v & H & Hv & Hb & _)]) Hf; cbn [component]; eexists; (split; [exact H|]); cbn [types_of].
      - apply in_map. exact Hf.
      - apply in_flat_map. exists v. split; [exact Hv|]. rewrite Hb. apply in_map. exact Hf.
    Qed.
    Lemma ok_next_colon u : part G T u -> has_colon G fm u -> ok (p_next_colon L).
    Proof. intros Hu Hc. unfold p_next_colon. apply ok_bind; [exact t_next_I | intros _; apply (t_colon u); assumption]. Qed.
    Lemma ok_named u dflt fs : part G T u -> has_fields G u dflt fs -> ok (de_named L fm de n dflt fs).
    Proof.
      intros Hu Hf. assert (Hw : written_in G fm u (for_fields fm)) by (econstructor; exact Hf). assert (Hc : has_colon G fm u) by (econstructor; exact Hf).
      unfold de_named. pose proof (t_open u _ Hu Hw) as HO. pose proof (t_close u _ Hu Hw) as HC. pose proof (t_comma u _ Hu Hw) as HM.
      apply ok_bind; [destruct fm; exact HO|]. intros _. apply ok_bind.
      - apply t_while. intro acc. unfold named_body. eapply t_bind with (Q := fun _ => I).
        + intros s [Hs Hk]. destruct (find_field (key_of L fm s) fs 0) as [[i f]|] eqn:Ef.
          * destruct (find_field_some _ _ _ _ _ Ef) as [Hin _].
            apply (ok_bind (p_next_colon L) (fun _ => pbind (de_field de f) (fun v => pret (set_nth i (Some v) acc)))); [apply (ok_next_colon u); assumption | | exact Hs].
            intros _. apply ok_bind; [|intro; apply ok_ret]. unfold de_field.
            assert (Hd : ok (de (f_ty f))) by (apply IH; eapply part_of; [exact Hu | eapply field_part; eassumption]).
            destruct (f_isopt f && f_hasproxy f); [apply ok_map; exact Hd | exact Hd].
          * assert (SKIP : fm = Json -> match pbind (p_next_colon L) (fun _ => pbind (whole_field L n) (fun _ => pret acc)) s with
               (s', Ok a) => I s' | (s', Err e) => E e /\ (I s' \/ lost s') | _ => True end).
            { intros _. apply (ok_bind (p_next_colon L) (fun _ => pbind (whole_field L n) (fun _ => pret acc))); [apply (ok_next_colon u); assumption | | exact Hs].
              intros _. apply ok_bind; [apply ok_whole | intro; apply ok_ret]. }
            assert (KEY : fm = Ron -> match perr (A := list (option val)) L (UnexpectedKey (l_id L s)) s with
               (s', Ok a) => I s' | (s', Err e) => E e /\ (I s' \/ lost s') | _ => True end).
            { intro Er. apply (t_perr (A := list (option val)) (fun s0 => s0 = s) u _ (fun _ => I) Hu); [intros s0 ->; exact Hs | | reflexivity].
              intros s0 ->. destruct Hs as (xs & A & B & C). exists xs. split; [exact A|].
              assert (Kt : s_tok s = KIdent) by (apply tok_is_eq in Hk; unfold k_key in Hk; rewrite Er in Hk; exact Hk).
              destruct (C Kt) as [ys Ex]. eapply (sy_unknown_key _ _ _ _ u dflt fs ys); [exact Er | exact Hf | exact Ex | exact Kt|].
              unfold key_of in Ef. rewrite Er in Ef. exact (find_field_none _ _ _ Ef). }
            destruct fs as [|f0 fs']; [exact Hs|]. destruct fm; [apply SKIP | apply KEY]; reflexivity.
        + intro acc'. apply ok_bind; [unfold eat_scomma; destruct fm; exact HM | intro; apply ok_ret].
      - intro l. apply ok_bind; [destruct fm; exact HC|]. intros _.
        assert (UN : forall gs l, (forall g, In g gs -> In g fs) -> ok (unwrap_fields L dflt gs l)).
        { induction gs as [|g gs IHg]; intros l' Hgs; [apply ok_ret|]. destruct l' as [|o l']; [apply ok_ret|]. cbn [unwrap_fields].
          apply ok_bind; [|intro; apply ok_bind; [apply IHg; intros; apply Hgs; right; assumption | intro; apply ok_ret]].
          unfold unwrap_field. destruct o as [v|]; [destruct (f_skip g); apply ok_ret|]. destruct (f_default g) as [d|] eqn:Ed; [apply ok_ret|].
          destruct (f_skip g || f_isopt g || dflt) eqn:Eo; [apply ok_ret|]. apply orb_false_iff in Eo as [Eo E3]. apply orb_false_iff in Eo as [E1 E2].
          apply (t_perr _ u _ _ Hu); [auto|]. intros s (xs & A & _). exists xs. split; [exact A|].
          eapply sy_missing; eauto. apply Hgs. left. reflexivity. }
        apply UN. auto.
    Qed.
    Lemma find_variant_some p : forall vs i j v, find_variant p vs i = Some (j, v) -> In v vs /\ p v = true.
    Proof.
      induction vs as [|w vs IHv]; intros i j v H; [discriminate|]. cbn [find_variant] in H. destruct (p w) eqn:Eq.
      - injection H as _ <-. cbn [In]. auto.
      - destruct (IHv _ _ _ H). cbn [In]. auto.
    Qed.
    Lemma find_variant_none p : forall vs i, find_variant p vs i = None -> Forall (fun v => p v = false) vs.
    Proof.
      induction vs as [|w vs IHv]; intros i H; [constructor|]. cbn [find_variant] in H. destruct (p w) eqn:Eq; [discriminate|]. constructor; [exact Eq | eapply IHv; exact H].
    Qed.
    Lemma unit_b v : is_unit v = true <-> unit_variant v.
    Proof. unfold is_unit, unit_variant. destruct (v_body v); split; congruence. Qed.
    Lemma ok_body i vs v tag : part G T (TNamed i) -> nth_error G i = Some (DEnum vs) -> In v vs -> ok (de_body L fm de n tag (v_body v)).
    Proof.
      intros Hu Hi Hv. unfold de_body. destruct (v_body v) as [|ts|fs] eqn:Eb; [apply ok_ret| |].
      - apply ok_map. assert (Hw : written_in G fm (TNamed i) (for_items fm)) by (eapply wi_variant; eauto).
        apply (ok_bracketed _ _ Hu Hw). apply Forall_forall. intros m Hm. apply in_map_iff in Hm as (t & <- & Ht). apply (ok_item _ t Hu Hw).
        eapply part_of; [exact Hu|]. cbn [component]. eexists. split; [exact Hi|]. cbn [types_of]. apply in_flat_map. exists v. rewrite Eb. auto.
      - apply ok_map. apply (ok_named (TNamed i)); [exact Hu|]. exists i. split; [reflexivity|]. right. exists vs, v. auto.
    Qed.
    Lemma ok_enum_json i vs : part G T (TNamed i) -> nth_error G i = Some (DEnum vs) -> fm = Json -> ok (de_enum_json L fm de n vs).
    Proof.
      intros Hu Hi Ej s Hs. unfold de_enum_json. assert (Hw : written_in G fm (TNamed i) Curly) by (eapply wi_enum; eauto).
      assert (KEY : triple I (expect L KStr (chars "String")) (fun _ => J)).
      { assert (Ek : KStr = kkey) by (unfold kkey; rewrite Ej; reflexivity). rewrite Ek. apply (t_expect_key (TNamed i)); [exact Hu|]. rewrite <- Ek. intros xs a Ha. eapply sy_variant; eauto. }
      assert (COL : triple J (p_colon L) (fun _ => J)).
      { unfold p_colon. apply (t_expect_J (TNamed i)); [exact Hu | reflexivity|]. intros xs a Ha. apply sy_colon; [|exact Ha]. eapply hc_enum; eauto. }
      assert (NONE : forall A s1, J s1 -> Forall (fun v => unit_variant v -> key_of_variant Json v <> l_str L s1) vs \/ Forall (fun v => ~ unit_variant v -> key_of_variant Json v <> l_str L s1) vs ->
        match perr (A := A) L (NoSuchEnum (l_str L s1)) s1 with (s', Ok a) => I s' | (s', Err e) => E e /\ (I s' \/ lost s') | _ => True end).
      { intros A s1 H1 Hno. apply (t_perr (A := A) (fun s0 => s0 = s1) (TNamed i) _ (fun _ => I) Hu); [intros s0 ->; apply J_I; exact H1 | | reflexivity].
        intros s0 ->. destruct H1 as (xs & A1 & _ & A3). exists xs. split; [exact A1|]. eapply sy_unknown_variant; [exact Hi| |].
        - unfold named, Say.buf in A3. rewrite Ej in A3 at 2. rewrite Ej. rewrite Ej in A3. exact A3.
        - rewrite Ej. exact Hno. }
      destruct (tok_is (l_tok L s) KCurlyOpen && existsb (fun v => negb (is_unit v)) vs) eqn:E1.
      { apply (t_bind I (expect L KCurlyOpen (chars "{")) _ (fun _ => I) (fun _ => I) (t_open _ Curly Hu Hw)); [|exact Hs]. intros _.
        eapply t_bind; [exact KEY|]. intro. cbv beta. eapply t_bind; [exact COL|]. intro. cbv beta. intros s1 H1.
        destruct (find_variant _ vs 0) as [[j v]|] eqn:Ef.
        - destruct (find_variant_some _ _ _ _ _ Ef) as [Hv _].
          apply (ok_bind (de_body L fm de n j (v_body v)) (fun r => pbind (expect L KCurlyClose (chars "}")) (fun _ => pret r))); [eapply ok_body; eauto | | apply J_I; exact H1].
          intro r. apply ok_bind; [apply (t_close _ Curly Hu Hw) | intro; apply ok_ret].
        - apply NONE; [exact H1|]. right. apply find_variant_none in Ef. eapply Forall_impl; [|exact Ef]. cbv beta. intros v Hp Hn.
          assert (Eu : is_unit v = false) by (destruct (is_unit v) eqn:Eq; [apply unit_b in Eq; contradiction | reflexivity]).
          rewrite Eu in Hp. cbn [negb andb] in Hp. apply str_eqb_neq in Hp. intro Hk. apply Hp. rewrite <- Hk. unfold variant_key, key_of_variant. destruct (v_rename v); reflexivity. }
      destruct (tok_is (l_tok L s) KStr && existsb is_unit vs) eqn:E2.
      { apply (t_bind I (expect L KStr (chars "String")) _ (fun _ => J) (fun _ => I) KEY); [|exact Hs]. intro. cbv beta. intros s1 H1.
        destruct (find_variant _ vs 0) as [[j v]|] eqn:Ef; [apply J_I; exact H1|].
        apply NONE; [exact H1|]. left. apply find_variant_none in Ef. eapply Forall_impl; [|exact Ef]. cbv beta. intros v Hp Hn.
        apply unit_b in Hn. rewrite Hn in Hp. cbn [andb] in Hp. apply str_eqb_neq in Hp. intro Hk. apply Hp. rewrite <- Hk. unfold variant_key, key_of_variant. destruct (v_rename v); reflexivity. }
      cbn [l_tok text_lexer] in E1, E2.
      apply (t_token (A := val) (fun s0 => s0 = s) (TNamed i) _ (fun _ => I) Hu); [intros s0 ->; exact Hs | | reflexivity].
      intros s0 -> xs. eapply sy_enum; [exact Hi | exact Ej | |]; intro Hk; rewrite Hk in *; cbn [tok_is andb] in *.
      - apply Forall_forall. intros v Hv Hn. apply unit_b in Hn. assert (existsb is_unit vs = true) by (apply existsb_exists; eauto). congruence.
      - apply Forall_forall. intros v Hv. destruct (is_unit v) eqn:Eq; [apply unit_b; exact Eq|].
        assert (existsb (fun v => negb (is_unit v)) vs = true) by (apply existsb_exists; exists v; rewrite Eq; auto). congruence.
    Qed.
    Lemma ok_enum_ron i vs : part G T (TNamed i) -> nth_error G i = Some (DEnum vs) -> fm = Ron -> ok (de_enum_ron L fm de n vs).
    Proof.
      intros Hu Hi Er. unfold de_enum_ron. assert (Ek : KIdent = kkey) by (unfold kkey; rewrite Er; reflexivity).
      apply (t_bind I _ _ (fun _ => J) (fun _ => I)).
      - rewrite Ek. apply (t_expect_key (TNamed i)); [exact Hu|]. rewrite <- Ek. intros xs a Ha. eapply sy_name; eauto.
      - intros _ s1 H1. destruct (find_variant _ vs 0) as [[j v]|] eqn:Ef.
        + destruct (find_variant_some _ _ _ _ _ Ef) as [Hv _]. apply (ok_body i vs v j Hu Hi Hv). apply J_I. exact H1.
        + apply (t_perr (A := val) (fun s0 => s0 = s1) (TNamed i) _ (fun _ => I) Hu); [intros s0 ->; apply J_I; exact H1 | | reflexivity].
          intros s0 ->. destruct H1 as (xs & A1 & _ & A3). exists xs. split; [exact A1|]. eapply sy_unknown_variant; [exact Hi| |].
          * unfold named, Say.buf in A3. rewrite Er in A3. rewrite Er. exact A3.
          * assert (Q : Forall (fun v => key_of_variant Ron v <> l_id L s1) vs).
            { apply find_variant_none in Ef. eapply Forall_impl; [|exact Ef]. cbv beta. intros v Hp. apply str_eqb_neq in Hp. intro Hk. apply Hp.
              rewrite <- Hk. unfold variant_key, key_of_variant. reflexivity. }
            assert (Z : forall f z, f = Ron -> Forall (fun v => key_of_variant Ron v <> z) vs ->
              match f with Json => Forall (fun v => unit_variant v -> key_of_variant Json v <> z) vs \/ Forall (fun v => ~ unit_variant v -> key_of_variant Json v <> z) vs
                         | Ron => Forall (fun v => key_of_variant Ron v <> z) vs end) by (intros f z -> HZ; exact HZ).
            exact (Z fm _ Er Q).
    Qed.
    Lemma ok_unnamed i tr fs : part G T (TNamed i) -> nth_error G i = Some (DTuple tr fs) -> ok (de_unnamed L fm de tr fs).
    Proof.
      intros Hu Hi. assert (Hp : forall f, In f fs -> part G T (f_ty f)).
      { intros f Hf. eapply part_of; [exact Hu|]. cbn [component]. eexists. split; [exact Hi|]. cbn [types_of]. apply in_map. exact Hf. }
      assert (Hw : written_in G fm (TNamed i) (for_items fm)) by (eapply wi_tuple; exact Hi).
      assert (ALL : ok (de_bracketed L fm (map (fun f => de_item L fm de (f_ty f)) fs))).
      { apply (ok_bracketed _ _ Hu Hw). apply Forall_forall. intros m Hm. apply in_map_iff in Hm as (f & <- & Hf). apply (ok_item _ _ Hu Hw). auto. }
      assert (JS : fm = Json -> fs = [] -> ok (pbind (expect L KCurlyOpen (chars "{")) (fun _ => pbind (expect L KCurlyClose (chars "}")) (fun _ => pret (@nil val))))).
      { intros Ej ->. assert (Hc : written_in G fm (TNamed i) Curly) by (eapply wi_empty; [exact Ej | exact Hi]).
        apply ok_bind; [apply (t_open _ Curly Hu Hc)|]. intros _. apply ok_bind; [apply (t_close _ Curly Hu Hc)|]. intros _. apply ok_ret. }
      assert (ONE : forall f, fs = [f] -> ok (if tr then pmap (fun v => [v]) (de (f_ty f)) else de_bracketed L fm [de (f_ty f)])).
      { intros f ->. assert (Hf : ok (de (f_ty f))) by (apply IH, Hp; left; reflexivity). destruct tr; [apply ok_map; exact Hf|].
        apply (ok_bracketed _ _ Hu Hw). constructor; [exact Hf | constructor]. }
      unfold de_unnamed. destruct fm; [|exact ALL]. destruct fs as [|f [|g fs]]; [exact (JS eq_refl eq_refl) | exact (ONE f eq_refl) | exact ALL].
    Qed.
  End Composed.

  Theorem ok_de_text : forall n t, part G T t -> ok (de_text L F c G fm n t).
  Proof.
    induction n as [|n IH]; intros t Hu; cbn [de_text]; [apply t_fuel|].
    destruct t as [q| | | | | |u|q u|q a b|m u|ts|u| | |p u|i].
    - apply ok_int. exact Hu.
    - apply ok_map. eapply ok_f64; [exact Hu | auto].
    - apply ok_map. eapply ok_f64; [exact Hu | auto].
    - apply ok_bool. exact Hu.
    - apply ok_map, ok_str. exact Hu.
    - destruct fm eqn:Ef; rewrite <- Ef.
      + apply ok_bind; [|intro; apply ok_ret]. apply (t_expect TUnit); [exact Hu | reflexivity|]. intros xs a Ha. apply sy_null; assumption.
      + assert (Hw : written_in G fm TUnit Round) by (apply wi_unit; exact Ef).
        apply ok_bind; [apply (t_open _ Round Hu Hw)|]. intros _. apply ok_bind; [apply (t_close _ Round Hu Hw) | intro; apply ok_ret].
    - apply ok_opt, IH. eapply pa_in; [exact Hu | reflexivity].
    - apply ok_map. apply ok_seq; [exact IH | exact Hu].
    - apply ok_map. apply ok_dmap; [exact IH | exact Hu].
    - apply ok_map. assert (Hw : written_in G fm (TArr m u) (for_items fm)) by constructor. apply (ok_bracketed _ _ Hu Hw).
      apply Forall_forall. intros x Hx. apply repeat_spec in Hx as ->. apply (ok_item _ IH _ _ Hu Hw). eapply pa_in; [exact Hu | reflexivity].
    - destruct (tuple_arity (length ts)); [|apply t_panic]. apply ok_map.
      assert (Hw : written_in G fm (TTup ts) (for_items fm)) by constructor. apply (ok_bracketed _ _ Hu Hw).
      apply Forall_forall. intros x Hx. apply in_map_iff in Hx as (w & <- & Hw2). apply (ok_comma_block _ IH ts w Hu Hw2).
    - apply IH. eapply pa_in; [exact Hu | reflexivity].
    - apply (ok_dur TDur); [exact Hu | left; reflexivity].
    - apply ok_time. exact Hu.
    - assert (X : ok (pmap (p_from p) (de_text L F c G fm n u))) by (apply ok_map, IH; eapply pa_in; [exact Hu | reflexivity]).
      destruct fm; [exact X | apply t_panic].
    - destruct (nth_error G i) as [[dflt nl fs|tr fs|vs|p u]|] eqn:Hi; [| | | |apply t_panic].
      + apply ok_map. eapply ok_named; [exact IH | exact Hu|]. exists i. split; [reflexivity|]. left. exists nl. exact Hi.
      + destruct (existsb f_hasproxy fs); [apply t_panic|].
        assert (X : ok (pmap VSeq (de_unnamed L fm (de_text L F c G fm n) tr fs))) by (apply ok_map; eapply ok_unnamed; [exact IH | exact Hu | exact Hi]).
        destruct fm; [exact X|]. destruct fs; [apply t_panic | exact X].
      + assert (X1 : fm = Json -> ok (de_enum_json L fm (de_text L F c G fm n) n vs)) by (intro; eapply ok_enum_json; eauto).
        assert (X2 : fm = Ron -> ok (de_enum_ron L fm (de_text L F c G fm n) n vs)) by (intro; eapply ok_enum_ron; eauto).
        destruct fm; auto.
      + assert (X : ok (pmap (p_from p) (de_text L F c G fm n u))).
        { apply ok_map, IH. eapply pa_in; [exact Hu|]. eexists. split; [exact Hi | left; reflexivity]. }
        destruct fm; [exact X | apply t_panic].
  Qed.
  Theorem first_says n s' e : de_first L F c G fm n T (start fm text) = (s', Err e) -> E e.
  Proof.
    intro H. unfold de_first, pbind in H.
    assert (HB : before [] (start fm text)).
    { split; [apply start_wp|]. exists text. split; [constructor|]. left. reflexivity. }
    pose proof (next_step _ _ HB) as Hn. destruct (l_next L (start fm text)) as [s1 [a|e1|p|]]; [|injection H as _ <-; tauto|discriminate|discriminate].
    destruct Hn as (ys & A & B & _). assert (HI : I s1) by (exists ([] ++ ys); auto).
    pose proof (ok_de_text n T (pa_self G T) s1 HI) as X. rewrite H in X. tauto.
  Qed.
End Readers.
