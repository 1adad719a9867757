(** The texts of SpecGram.v and their tokens. *)
From Verif Require Import Base Utf8 Types BinModel Text TextModel TextSim TextToks TextLex TextRead SpecText SpecGram TextRound.
Local Open Scope N_scope.

Section Gram.
  Variables (F : flt) (fm : fmt).
  Notation lexs := (lexs F fm).
  Notation lex1 := (lex1 F fm).
  Notation lexes := (lexes F fm).
  Notation lexes_any := (lexes_any F fm).

  (** ** Space and comments *)
  Lemma ws_char_b x : ws_char x -> is_ws x = true.
  Proof. intros [-> | [-> | [-> | ->]]]; reflexivity. Qed.
  (** A scan that starts by skipping. *)
  Lemma lexs_skip a r : (forall n, (length a <= n)%nat -> scan F fm (S n) KBof a = scan F fm n KBof r) ->
    (length r < length a)%nat -> lexs a = lexs r.
  Proof.
    intros H Hlt. rewrite (lexs_unfold F fm a), (lexs_unfold F fm r).
    assert (E : lex1 a = lex1 r).
    { unfold TextToks.lex1. rewrite H by lia.
      destruct (scan_spec F fm (length r) r (S (length r)) (length a) KBof KBof) as (_ & _ & A & _); try lia.
      rewrite (A eq_refl). reflexivity. }
    rewrite E. reflexivity.
  Qed.
  Lemma drop_line body r : Forall (fun x => x <> 10 /\ x <> 0) body ->
    drop_while (fun c => negb (c =? c_nl) && negb (c =? 0)) (body ++ 10 :: r) = 10 :: r.
  Proof.
    induction 1 as [|x body [H1 H2] H IH]; [reflexivity|]. cbn [app drop_while].
    apply N.eqb_neq in H1, H2. unfold c_nl. rewrite H1, H2. cbn [negb andb]. exact IH.
  Qed.
  Lemma no_close_split x body : (forall a b, x :: body <> a ++ [42; 47] ++ b) -> (forall a b, body <> a ++ [42; 47] ++ b) /\ (x = 42 -> forall r, body <> 47 :: r).
  Proof.
    intro H. split.
    - intros a b E. apply (H (x :: a) b). rewrite E. reflexivity.
    - intros -> r E. apply (H [] r). rewrite E. reflexivity.
  Qed.
  Lemma json_comment_end : forall body last r, Forall (fun x => x <> 0) body -> (last = 42 -> forall r, body <> 47 :: r) ->
    (forall a b, body <> a ++ [42; 47] ++ b) -> json_comment last (body ++ [42; 47] ++ r) = Some r.
  Proof.
    induction body as [|x body IH]; intros last r Hz Hl Hc.
    - cbn. rewrite andb_false_r. reflexivity.
    - inversion Hz as [|? ? H1 H2]; subst. cbn [app json_comment]. apply N.eqb_neq in H1. rewrite H1.
      destruct (no_close_split _ _ Hc) as [C1 C2].
      destruct ((last =? c_star) && (x =? c_slash)) eqn:E.
      + exfalso. apply andb_prop in E as [E1 E2]. apply N.eqb_eq in E1, E2. unfold c_star, c_slash in *. subst. exact (Hl eq_refl _ eq_refl).
      + apply IH; assumption.
  Qed.
  Lemma ron_comment_end : forall body st r, Forall (fun x => x <> 0) body -> (st = true -> forall r, body <> 47 :: r) ->
    (forall a b, body <> a ++ [42; 47] ++ b) -> ron_comment st (body ++ [42; 47] ++ r) = r.
  Proof.
    induction body as [|x body IH]; intros st r Hz Hl Hc.
    - cbn. reflexivity.
    - inversion Hz as [|? ? H1 H2]; subst. cbn [app ron_comment]. apply N.eqb_neq in H1. rewrite H1.
      destruct (no_close_split _ _ Hc) as [C1 C2].
      destruct ((x =? c_slash) && st) eqn:E.
      + exfalso. apply andb_prop in E as [E1 E2]. apply N.eqb_eq in E1. unfold c_slash in *. subst. exact (Hl eq_refl _ eq_refl).
      + apply IH; auto. intro E3. apply N.eqb_eq in E3. auto.
  Qed.
  Lemma gap_lexes g : gap g -> lexes_any g [].
  Proof.
    induction 1 as [|x g Hx Hg IH|body g Hb Hg IH|body g Hb Hb1 Hb2 Hg IH]; intro rest.
    - apply lexes_any_nil.
    - cbn [app]. rewrite lexs_ws by (apply ws_char_b; exact Hx). apply IH.
    - rewrite <- IH. cbn [app]. rewrite <- !app_assoc. cbn [app].
      transitivity (lexs (10 :: g ++ rest)); [|apply lexs_ws; reflexivity].
      apply lexs_skip; [|cbn [length]; rewrite !app_length; cbn [length]; rewrite ?app_length; lia].
      intros n _. cbn [scan]. rewrite not_ws_drop by reflexivity. cbn [cur tl].
      change (47 =? 0) with false. change (47 =? c_slash) with true. cbn [drop_while]. change (negb (47 =? c_nl) && negb (47 =? 0)) with true. cbn iota.
      rewrite drop_line by exact Hb. reflexivity.
    - rewrite <- IH. cbn [app]. rewrite <- !app_assoc.
      apply lexs_skip; [|cbn [length app]; rewrite ?app_length; cbn [length app]; rewrite ?app_length; lia].
      intros n _. cbn [scan]. rewrite not_ws_drop by reflexivity. cbn [cur tl].
      change (47 =? 0) with false. change (47 =? c_slash) with true. change (42 =? c_slash) with false. change (42 =? c_star) with true. cbn iota.
      destruct fm.
      + change ((42 :: 47 :: g) ++ rest) with ([42; 47] ++ (g ++ rest)). rewrite json_comment_end; auto.
      + cbn [ron_comment]. change (42 =? 0) with false. change (42 =? c_slash) with false. change (42 =? c_star) with true. cbn [andb].
        change ((42 :: 47 :: g) ++ rest) with ([42; 47] ++ (g ++ rest)). rewrite ron_comment_end; auto.
  Qed.

  (** ** Strings *)
  Lemma hex_digit_val x d : hex_digit x d -> hexval x = Some d /\ d < 16 /\ x <> 0.
  Proof.
    unfold hexval. intros [[H ->]|[[H ->]|[H ->]]].
    - rewrite (proj2 (digit_range x)) by lia. split; [reflexivity|]; lia.
    - replace (is_digit x) with false by (symmetry; destruct (is_digit x) eqn:E; [apply digit_range in E; lia | reflexivity]).
      replace (97 <=? x) with true by (symmetry; lia). replace (x <=? 102) with true by (symmetry; lia). cbn [andb].
      split; [f_equal; lia | lia].
    - replace (is_digit x) with false by (symmetry; destruct (is_digit x) eqn:E; [apply digit_range in E; lia | reflexivity]).
      replace (97 <=? x) with false by (symmetry; lia). replace (65 <=? x) with true by (symmetry; lia). replace (x <=? 70) with true by (symmetry; lia). cbn [andb].
      split; [f_equal; lia | lia].
  Qed.
  Lemma quad_xdigits h n rest : hex_quad h n -> xdigits 4 0 (h ++ rest) = (rest, Some n) /\ n < 65536.
  Proof.
    intros (a & b & c & d & x & y & z & w & -> & Ha & Hb & Hc & Hd & ->).
    apply hex_digit_val in Ha as (Ha & A2 & _). apply hex_digit_val in Hb as (Hb & B2 & _).
    apply hex_digit_val in Hc as (Hc & C2 & _). apply hex_digit_val in Hd as (Hd & D2 & _).
    cbn [app xdigits cur tl]. rewrite Ha, Hb, Hc, Hd. split; [|lia]. do 2 f_equal. lia.
  Qed.
  Lemma hex_scalar h n rest : hex_quad h n -> ~ high_surrogate n -> ~ low_surrogate n -> hex_unescape (h ++ rest) = (rest, Some n).
  Proof.
    intros H Hh Hl. unfold hex_unescape. rewrite (proj1 (quad_xdigits h n rest H)).
    unfold high_surrogate, low_surrogate in *. replace ((n <? 0xd800) || (0xdfff <? n)) with true by lia. reflexivity.
  Qed.
  Lemma hex_pair h1 a h2 b rest : hex_quad h1 a -> hex_quad h2 b -> high_surrogate a -> low_surrogate b ->
    hex_unescape (h1 ++ [92; 117] ++ h2 ++ rest) = (rest, Some ((a - 0xd800) * 1024 + (b - 0xdc00) + 0x10000)).
  Proof.
    intros H1 H2 Ha Hb. unfold hex_unescape. rewrite (proj1 (quad_xdigits h1 a _ H1)).
    unfold high_surrogate, low_surrogate in *. replace ((a <? 0xd800) || (0xdfff <? a)) with false by lia.
    cbn [app cur tl]. replace (a <? 0xdc00) with true by lia. change (92 =? c_bslash) with true. cbn [andb].
    change (117 =? 117) with true. cbn iota. rewrite (proj1 (quad_xdigits h2 b rest H2)).
    replace ((0xdc00 <=? b) && (b <? 0xe000)) with true by lia. reflexivity.
  Qed.
  Lemma quad_length h n : hex_quad h n -> length h = 4%nat.
  Proof. intros (a & b & c & d & x & y & z & w & -> & _). reflexivity. Qed.
  (** Scanning over a well-formed piece of literal; the fuel is the number of
      characters still there. *)
  Lemma scan_chars t s : chars_of t s -> forall n rest, (length s <= n)%nat ->
    exists m, (n = length s + m)%nat /\ scan_str n (t ++ rest) =
      match scan_str m rest with (l, Some r) => (l, Some (s ++ r)) | e => e end.
  Proof.
    induction 1 as [|x t s H1 H2 H3 H IH|e x t s He H IH|h n t s Hh Hhi Hlo H IH|h1 a h2 b t s Hh1 Hh2 Ha Hb H IH]; intros k rest Hk.
    - exists k. split; [reflexivity|]. cbn [app]. destruct (scan_str k rest) as [l [r|]]; reflexivity.
    - destruct k as [|k]; [simpl in Hk; lia|]. destruct (IH k rest) as (m & -> & E); [simpl in Hk; lia|]. exists m. split; [reflexivity|].
      apply N.eqb_neq in H1, H2, H3. cbn [app scan_str]. unfold c_quote, c_bslash. rewrite H1, H2, H3. rewrite E.
      destruct (scan_str m rest) as [l [r|]]; reflexivity.
    - destruct k as [|k]; [simpl in Hk; lia|]. destruct (IH k rest) as (m & -> & E); [simpl in Hk; lia|]. exists m. split; [reflexivity|].
      cbn [app scan_str]. change (92 =? c_quote) with false. change (92 =? c_bslash) with true. cbn [cur tl].
      assert (Hu : (e =? 0) = false /\ (e =? 117) = false /\ unescape e = x).
      { destruct He as [He|[[-> ->]|[-> He]]].
        - unfold escape in He. cbn [In] in He.
          repeat (destruct He as [He|He]; [injection He as <- <-; repeat split; reflexivity|]). contradiction.
        - repeat split; reflexivity.
        - cbn [In] in He. unfold unescape. repeat split; try (apply N.eqb_neq; intros ->; tauto).
          repeat (match goal with |- (if ?a =? ?b then _ else _) = _ => rewrite (proj2 (N.eqb_neq a b)) by (intros ->; tauto) end). reflexivity. }
      destruct Hu as (U1 & U2 & U3). rewrite U1, U2, E, U3. destruct (scan_str m rest) as [l [r|]]; reflexivity.
    - destruct k as [|k]; [simpl in Hk; lia|]. destruct (IH k rest) as (m & -> & E); [simpl in Hk; lia|]. exists m. split; [reflexivity|].
      cbn [app scan_str]. change (92 =? c_quote) with false. change (92 =? c_bslash) with true. cbn [cur tl].
      change (117 =? 0) with false. change (117 =? 117) with true. cbn iota. rewrite <- app_assoc.
      rewrite (hex_scalar h n _ Hh Hhi Hlo). rewrite E. destruct (scan_str m rest) as [l [r|]]; reflexivity.
    - destruct k as [|k]; [simpl in Hk; lia|]. destruct (IH k rest) as (m & -> & E); [simpl in Hk; lia|]. exists m. split; [reflexivity|].
      cbn [app scan_str]. change (92 =? c_quote) with false. change (92 =? c_bslash) with true. cbn [cur tl].
      change (117 =? 0) with false. change (117 =? 117) with true. cbn iota.
      rewrite <- !app_assoc. cbn [app]. rewrite <- app_assoc.
      pose proof (hex_pair h1 a h2 b (t ++ rest) Hh1 Hh2 Ha Hb) as HP. cbn [app] in HP. unfold str in *. rewrite HP.
      rewrite E. destruct (scan_str m rest) as [l [r|]]; reflexivity.
  Qed.
  Lemma chars_len t s : chars_of t s -> (length s <= length t)%nat.
  Proof. induction 1; cbn [length] in *; rewrite ?app_length in *; cbn [length] in *; rewrite ?app_length in *; cbn [length] in *; rewrite ?app_length; lia. Qed.
  Lemma rfc_chars b s : chars_by escape b s -> chars_of b s.
  Proof.
    induction 1; [apply ch_end | apply ch_plain | apply ch_esc; [left|] | apply ch_hex | apply ch_pair]; assumption.
  Qed.
  Lemma lexes_quoted b s : chars_of b s -> lexes_any (quoted b) [LStr s].
  Proof.
    intros H rest. unfold quoted. cbn [app]. rewrite <- app_assoc. cbn [app].
    apply lexs_cons; [|discriminate]. apply lex_quote.
    pose proof (chars_len _ _ H) as Hl.
    destruct (scan_chars b s H (length (b ++ c_quote :: rest)) (c_quote :: rest)) as (m & Em & E).
    { rewrite app_length. lia. }
    rewrite E. destruct m as [|m].
    - exfalso. rewrite app_length in Em. cbn [length] in Em. lia.
    - rewrite scan_str_quote. rewrite app_nil_r. reflexivity.
  Qed.

  (** ** Numbers *)
  Lemma ends_boundary r : ends r -> boundary r.
  Proof.
    intros [->|H]; [left; reflexivity|right]. cbn [In] in H.
    repeat (destruct H as [<-|H]; [reflexivity|]). contradiction.
  Qed.
  Lemma number_scan sg ip fr ex : number_parts sg ip fr ex -> no_plus ex ->
    (forall rest, boundary rest -> scan_num ((sg ++ ip ++ fr ++ ex) ++ rest) = (sg ++ ip ++ fr ++ ex, rest, match fr, ex with [], [] => false | _, _ => true end)) /\
    sg ++ ip ++ fr ++ ex <> [] /\ num_start fm (cur (sg ++ ip ++ fr ++ ex)) = true /\
    (cur (sg ++ ip ++ fr ++ ex) =? c_minus) = match sg with [] => false | _ => true end.
  Proof.
    intros (Hsg & Hip & Hfr & Hex) Hnp. apply all_digits_b in Hip as [Hi1 Hi2].
    assert (Hfr' : fr = [] \/ exists d, fr = c_dot :: d /\ forallb is_digit d = true).
    { destruct Hfr as [->|(d & -> & Hd)]; [left; reflexivity|]. right. exists d. split; [reflexivity|]. apply all_digits_b; assumption. }
    assert (Hex' : ex = [] \/ exists e s d, ex = e :: s ++ d /\ (e = 101 \/ e = 69) /\ (s = [] \/ s = [c_minus]) /\ d <> [] /\ forallb is_digit d = true).
    { destruct Hex as [->|(e & es & d & -> & He & Hs & Hd)]; [left; reflexivity|]. right. exists e, es, d.
      apply all_digits_b in Hd as [D1 D2]. repeat (split; [auto|]); auto.
      destruct Hs as [Hs|[Hs|Hs]]; auto. exfalso. apply Hnp. subst es. cbn. auto. }
    destruct ip as [|x ip]; [congruence|]. pose proof Hi2 as Hx. cbn [forallb] in Hx. apply andb_prop in Hx as [Hx _].
    split; [|split; [|split]].
    - intros rest Hr. rewrite <- !app_assoc. apply scan_num_parts; auto.
    - destruct sg; discriminate.
    - destruct Hsg as [-> | ->]; [|reflexivity]. cbn [app cur]. unfold num_start. rewrite Hx, !orb_true_r. reflexivity.
    - destruct Hsg as [-> | ->]; [|reflexivity]. cbn [app cur]. apply digit_range in Hx. apply N.eqb_neq. unfold c_minus. lia.
  Qed.
  Lemma decimal_val d : decimal d = digits_val d.
  Proof.
    unfold decimal, digits_val. generalize 0. induction d as [|x d IH]; intro a; [reflexivity|]. cbn [decimal_from fold_left]. apply IH.
  Qed.
  Definition num_value (s : str) (t : tok) : Prop :=
    exists sg ip fr ex, s = sg ++ ip ++ fr ++ ex /\ number_parts sg ip fr ex /\ no_plus ex /\
    match fr, ex with
    | [], [] => match sg with [] => decimal ip < 2 ^ 64 /\ t = KU64 (decimal ip) | _ => decimal ip <= 2 ^ 63 /\ t = KI64 (- Z.of_N (decimal ip)) end
    | _, _ => exists b, f64_parse F s = Some b /\ t = KF64 b
    end.
  Lemma number_tok s : number_ok F s -> exists t, num_value s t.
  Proof.
    intros (sg & ip & fr & ex & -> & Hp & Hn & Hi & Hf).
    destruct fr as [|x fr]; [destruct ex as [|y ex]|].
    - specialize (Hi eq_refl eq_refl). destruct sg as [|z sg].
      + exists (KU64 (decimal ip)), [], ip, [], []. auto.
      + exists (KI64 (- Z.of_N (decimal ip))), (z :: sg), ip, [], []. auto.
    - destruct (f64_parse F (sg ++ ip ++ [] ++ y :: ex)) as [b|] eqn:E; [|exfalso; apply Hf; [right; discriminate | reflexivity]].
      exists (KF64 b), sg, ip, [], (y :: ex). eauto 7.
    - destruct (f64_parse F (sg ++ ip ++ (x :: fr) ++ ex)) as [b|] eqn:E; [|exfalso; apply Hf; [left; discriminate | reflexivity]].
      exists (KF64 b), sg, ip, (x :: fr), ex. eauto 7.
  Qed.
  Lemma lexes_number s t : num_value s t -> lexes s [LP t] /\ scalar_tok fm (LP t) = true.
  Proof.
    intros (sg & ip & fr & ex & -> & Hp & Hn & Hv). destruct (number_scan _ _ _ _ Hp Hn) as (S1 & S2 & S3 & S4).
    split.
    - apply lexes_num; [exact S2 | exact S3|]. intros rest Hr. eexists. split; [apply S1; exact Hr|].
      unfold num_tok. destruct Hp as (Hsg & Hip & _). apply all_digits_b in Hip as [Hi1 Hi2].
      destruct fr as [|x fr]; [destruct ex as [|y ex]|].
      + rewrite S4. rewrite !app_nil_r. destruct Hsg as [-> | ->].
        * destruct Hv as [Hv ->]. cbn [app]. unfold parse_u64. destruct ip as [|y ip]; [congruence|].
          replace (y =? c_plus) with false.
          2:{ cbn [forallb] in Hi2. apply andb_prop in Hi2 as [Hy _]. apply digit_range in Hy. symmetry. apply N.eqb_neq. unfold c_plus. lia. }
          rewrite Hi2. rewrite <- decimal_val. replace (decimal (y :: ip) <? 2 ^ 64) with true by lia. reflexivity.
        * destruct Hv as [Hv ->]. cbn [app]. unfold parse_i64. destruct ip as [|y ip]; [congruence|]. change (45 =? c_minus) with true.
          rewrite Hi2. rewrite <- decimal_val. replace (decimal (y :: ip) <=? 2 ^ 63) with true by lia. reflexivity.
      + destruct Hv as (b & -> & ->). reflexivity.
      + destruct Hv as (b & -> & ->). reflexivity.
    - destruct fr; [destruct ex; [destruct sg|]|]; try (destruct Hv as (? & _ & ->); reflexivity); destruct Hv as [_ ->]; reflexivity.
  Qed.

  (** ** Words *)
  Lemma letter_b x : letter x -> is_alpha x = true.
  Proof. unfold letter, is_alpha. rewrite !orb_true_iff, !andb_true_iff, !N.leb_le, N.eqb_eq. lia. Qed.
  Lemma lexes_words s : word fm s -> exists t, lexes s [t] /\ scalar_tok fm t = true /\
    (s <> chars "true" -> s <> chars "false" -> fm = Ron -> t = LId s).
  Proof.
    unfold word. intro H.
    assert (Hcase : fm = Json /\ json_word s \/ fm = Ron /\ ron_word s) by (destruct fm; auto). clear H.
    destruct Hcase as [[Ej [-> | [-> | ->]]]|[Er H]].
    - exists (LP KNull). rewrite Ej. split; [apply lexes_word; try reflexivity; discriminate | split; [reflexivity | discriminate]].
    - exists (LP (KBool true)). rewrite Ej. split; [apply lexes_word; try reflexivity; discriminate | split; [reflexivity | discriminate]].
    - exists (LP (KBool false)). rewrite Ej. split; [apply lexes_word; try reflexivity; discriminate | split; [reflexivity | discriminate]].
    - rewrite Er. destruct H as (x & r & -> & Hx & Hr). apply letter_b in Hx.
      assert (Hid : forallb (id_char Ron) (x :: r) = true).
      { cbn [forallb]. unfold id_char at 1. rewrite Hx. cbn [orb andb]. apply forallb_forall. intros y Hy.
        rewrite Forall_forall in Hr. destruct (Hr y Hy) as [Hl|Hd]; unfold id_char; [rewrite (letter_b _ Hl); reflexivity|].
        rewrite (proj2 (digit_range y) Hd). apply orb_true_r. }
      destruct (id_tok Ron (x :: r) KBof) as [t|] eqn:Et.
      2:{ exfalso. unfold id_tok in Et. destruct (str_eqb _ _); [discriminate|]. destruct (str_eqb _ _); discriminate. }
      exists t. split; [apply lexes_word; auto; discriminate|]. unfold id_tok in Et.
      destruct (str_eqb (x :: r) (chars "true")) eqn:E1; [injection Et as <-; split; [reflexivity|]; intros H; exfalso; apply H; apply str_eqb_eq; exact E1|].
      destruct (str_eqb (x :: r) (chars "false")) eqn:E2; [injection Et as <-; split; [reflexivity|]; intros _ H; exfalso; apply H; apply str_eqb_eq; exact E2|].
      injection Et as <-. split; reflexivity.
  Qed.

  (** ** Values *)
  Lemma lexes_nil : lexes [] []. Proof. apply lexes_weak, lexes_any_nil. Qed.
  Definition kopen (o : N) : tok := if o =? 91 then KBlockOpen else if o =? 123 then KCurlyOpen else KParenOpen.
  Definition kclose (o : N) : tok := if o =? 93 then KBlockClose else if o =? 125 then KCurlyClose else KParenClose.
  Lemma brackets_lex o cl : brackets fm o cl -> lexes_any [o] [LP (kopen o)] /\ lexes_any [cl] [LP (kclose cl)] /\ bracket (kopen o) (kclose cl) /\ boundary [cl].
  Proof.
    intros [[-> ->]|[[-> ->]|(Er & -> & ->)]]; (split; [apply lexes_punct|split; [apply lexes_punct|split]]); try (destruct fm; reflexivity);
      try (right; reflexivity); try (rewrite Er; reflexivity); unfold bracket; cbn; auto.
  Qed.
  Lemma bal_single t : scalar_tok fm t = true -> bal [t].
  Proof. intro H. apply bal_leaf. destruct t as [| |[]]; try reflexivity; discriminate. Qed.
  Lemma inside_lexes s : inside F fm s -> exists l, lexes s l /\ bal l.
  Proof.
    induction 1 as [|g r Hg H IH|x r Hx H IH|b r [s Hb] H IH|s r Hs He H IH|s r Hs He H IH|o cl a r Hbr Ha IHa Hr IHr].
    - exists []. split; [apply lexes_nil | constructor].
    - destruct IH as (l & H1 & H2). exists l. split; [|exact H2]. apply (lexes_app_r F fm g r [] l); [apply gap_lexes; exact Hg | exact H1].
    - destruct IH as (l & H1 & H2). destruct Hx as [-> | ->].
      + exists (LP KComma :: l). split; [|apply bal_cons; [reflexivity | exact H2]].
        apply (lexes_app_r F fm [44] r [LP KComma] l); [apply lexes_punct; destruct fm; reflexivity | exact H1].
      + exists (LP KColon :: l). split; [|apply bal_cons; [reflexivity | exact H2]].
        apply (lexes_app_r F fm [58] r [LP KColon] l); [apply lexes_punct; destruct fm; reflexivity | exact H1].
    - destruct IH as (l & H1 & H2). exists (LStr s :: l). split; [|apply bal_cons; [reflexivity | exact H2]].
      apply (lexes_app_r F fm _ r [LStr s] l); [apply lexes_quoted; exact Hb | exact H1].
    - destruct IH as (l & H1 & H2). destruct (number_tok _ Hs) as (t & Ht). destruct (lexes_number _ _ Ht) as [L1 L2].
      exists (LP t :: l). split; [|apply (bal_app [LP t] l); [apply bal_single; exact L2 | exact H2]].
      apply (lexes_app F fm s r [LP t] l); [exact L1 | exact H1 | apply ends_boundary; exact He].
    - destruct IH as (l & H1 & H2). destruct (lexes_words _ Hs) as (t & L1 & L2 & _).
      exists (t :: l). split; [|apply (bal_app [t] l); [apply bal_single; exact L2 | exact H2]].
      apply (lexes_app F fm s r [t] l); [exact L1 | exact H1 | apply ends_boundary; exact He].
    - destruct IHa as (la & A1 & A2). destruct IHr as (lr & R1 & R2). destruct (brackets_lex _ _ Hbr) as (B1 & B2 & B3 & B4).
      exists ((LP (kopen o) :: la ++ [LP (kclose cl)]) ++ lr). split; [|apply bal_app; [apply bal_wrap; assumption | exact R2]].
      pose proof (lexes_app_l F fm a [cl] la [LP (kclose cl)] A1 B2 ltac:(discriminate) B4) as H1.
      pose proof (lexes_any_app F fm [o] _ _ _ B1 H1) as H2.
      pose proof (lexes_app_r F fm _ r _ lr H2 R1) as H3. cbn [app] in H3 |- *. rewrite <- !app_assoc in H3. rewrite <- !app_assoc. exact H3.
  Qed.
  Lemma value_lexes s : value_text F fm s -> exists l, lexes s l /\ vtoks fm l.
  Proof.
    intros [b [x Hb]|s0 Hs|s0 Hs|o cl a Hbr Ha|s0 g a Er Hs Hn1 Hn2 Hg Ha].
    - exists [LStr x]. split; [apply lexes_weak, lexes_quoted; exact Hb | apply vt_scalar; reflexivity].
    - destruct (number_tok _ Hs) as (t & Ht). destruct (lexes_number _ _ Ht) as [L1 L2]. exists [LP t]. split; [exact L1 | apply vt_scalar; exact L2].
    - destruct (lexes_words _ Hs) as (t & L1 & L2 & _). exists [t]. split; [exact L1 | apply vt_scalar; exact L2].
    - destruct (inside_lexes _ Ha) as (la & A1 & A2). destruct (brackets_lex _ _ Hbr) as (B1 & B2 & B3 & B4).
      exists (LP (kopen o) :: la ++ [LP (kclose cl)]). split; [|apply vt_group; assumption].
      pose proof (lexes_app_l F fm a [cl] la [LP (kclose cl)] A1 B2 ltac:(discriminate) B4) as H1.
      apply lexes_weak. exact (lexes_any_app F fm [o] _ _ _ B1 H1).
    - destruct (inside_lexes _ Ha) as (la & A1 & A2).
      destruct (brackets_lex 40 41) as (B1 & B2 & B3 & B4); [right; right; auto|].
      assert (Hw : word fm s0) by (rewrite Er; exact Hs).
      destruct (lexes_words _ Hw) as (t & L1 & L2 & L3). specialize (L3 Hn1 Hn2 Er). subst t.
      exists (LId s0 :: LP KParenOpen :: la ++ [LP KParenClose]). split; [|apply vt_named; auto; right; right; auto].
      pose proof (lexes_app_l F fm a [41] la [LP KParenClose] A1 B2 ltac:(discriminate) B4) as H1.
      pose proof (lexes_any_app F fm [40] _ _ _ B1 H1) as H2.
      pose proof (lexes_any_app F fm g _ [] _ (gap_lexes _ Hg) H2) as H3.
      apply lexes_weak. refine (lexes_app_l F fm s0 _ [LId s0] _ L1 H3 _ _).
      + destruct g; discriminate.
      + destruct Hg as [|x g Hx|body g|body g]; right; try reflexivity. cbn [app cur]. destruct Hx as [-> | [-> | [-> | ->]]]; reflexivity.
  Qed.
  Lemma value_numbers s t : num_value s t -> value_text F fm s.
  Proof.
    intros (sg & ip & fr & ex & E & Hp & Hn & Hv). apply va_num. exists sg, ip, fr, ex. repeat (split; [assumption|]). split.
    - intros -> ->. destruct sg; tauto.
    - intros H. destruct fr as [|x fr]; [destruct ex as [|y ex]|]; try (destruct Hv as (b & -> & _); discriminate).
      destruct H; congruence.
  Qed.
End Gram.

(** JSON texts are values. *)
Lemma inside_app F fm a b : inside F fm a -> ends b -> inside F fm b -> inside F fm (a ++ b).
Proof.
  intros Ha He Hb. induction Ha as [|g r Hg H IH|x r Hx H IH|b0 r Hb0 H IH|s r Hs He0 H IH|s r Hs He0 H IH|o cl a r Hbr Ha IHa Hr IHr]; try (rewrite <- app_assoc).
  - exact Hb.
  - apply in_gap; assumption.
  - cbn [app]. apply in_mark; assumption.
  - apply in_str; assumption.
  - apply in_num; auto. destruct r as [|x r]; [exact He|]. destruct He0 as [E|E]; [discriminate | right; exact E].
  - apply in_word; auto. destruct r as [|x r]; [exact He|]. destruct He0 as [E|E]; [discriminate | right; exact E].
  - cbn [app]. rewrite <- !app_assoc. apply in_group; assumption.
Qed.
Lemma gap_ends g r : gap g -> ends r -> ends (g ++ r).
Proof.
  intros Hg Hr. destruct Hg as [|x g Hx|body g|body g]; [exact Hr|right..]; cbn [app cur In]; [|tauto|tauto].
  destruct Hx as [-> | [-> | [-> | ->]]]; tauto.
Qed.
Lemma json_inside F : let num := number_ok F in
  (forall s, json gap num any_body s -> value_text F Json s /\ forall r, ends r -> inside F Json r -> inside F Json (s ++ r)) /\
  (forall s, elements gap num any_body s -> inside F Json s) /\ (forall s, members gap num any_body s -> inside F Json s).
Proof.
  intro num. apply (json_mutind gap num any_body (fun s => value_text F Json s /\ forall r, ends r -> inside F Json r -> inside F Json (s ++ r)) (inside F Json) (inside F Json)).
  - intros s H. split; [apply va_word; exact H|]. intros r He Hr. apply in_word; auto.
  - intros s H. split; [apply va_num; exact H|]. intros r He Hr. apply in_num; auto.
  - intros b H. split; [apply va_str; exact H|]. intros r He Hr. apply in_str; auto.
  - intros g H. assert (Hb : brackets Json 91 93) by (left; auto). split; [apply va_group; auto|].
    + rewrite <- (app_nil_r g). apply in_gap; [exact H | constructor].
    + intros r He Hr. cbn [app]. rewrite <- app_assoc. apply in_group; auto. rewrite <- (app_nil_r g). apply in_gap; [exact H | constructor].
  - intros s _ H. assert (Hb : brackets Json 91 93) by (left; auto). split; [apply va_group; auto|].
    intros r He Hr. cbn [app]. rewrite <- app_assoc. apply in_group; auto.
  - intros g H. assert (Hb : brackets Json 123 125) by (right; left; auto). split; [apply va_group; auto|].
    + rewrite <- (app_nil_r g). apply in_gap; [exact H | constructor].
    + intros r He Hr. cbn [app]. rewrite <- app_assoc. apply in_group; auto. rewrite <- (app_nil_r g). apply in_gap; [exact H | constructor].
  - intros s _ H. assert (Hb : brackets Json 123 125) by (right; left; auto). split; [apply va_group; auto|].
    intros r He Hr. cbn [app]. rewrite <- app_assoc. apply in_group; auto.
  - intros a x b Ha _ [_ Hx] Hb. apply in_gap; [exact Ha|]. apply Hx.
    + rewrite <- (app_nil_r b). apply gap_ends; [exact Hb | left; reflexivity].
    + rewrite <- (app_nil_r b). apply in_gap; [exact Hb | constructor].
  - intros a x b s Ha _ [_ Hx] Hb _ Hs. apply in_gap; [exact Ha|].
    assert (E : ends ([44] ++ s)) by (right; cbn; tauto).
    apply Hx; [apply gap_ends; assumption|]. apply in_gap; [exact Hb|]. apply in_mark; [left; reflexivity | exact Hs].
  - intros a k b c x d Ha Hk Hb Hc _ [_ Hx] Hd. apply in_gap; [exact Ha|]. apply in_str; [exact Hk|]. apply in_gap; [exact Hb|].
    apply in_mark; [right; reflexivity|]. apply in_gap; [exact Hc|]. apply Hx.
    + rewrite <- (app_nil_r d). apply gap_ends; [exact Hd | left; reflexivity].
    + rewrite <- (app_nil_r d). apply in_gap; [exact Hd | constructor].
  - intros a k b c x d s Ha Hk Hb Hc _ [_ Hx] Hd _ Hs. apply in_gap; [exact Ha|]. apply in_str; [exact Hk|]. apply in_gap; [exact Hb|].
    apply in_mark; [right; reflexivity|]. apply in_gap; [exact Hc|].
    assert (E : ends ([44] ++ s)) by (right; cbn; tauto).
    apply Hx; [apply gap_ends; assumption|]. apply in_gap; [exact Hd|]. apply in_mark; [left; reflexivity | exact Hs].
Qed.
