(** A value inside a larger text and the same value alone. *)
From Verif Require Import Base Utf8 Types BinModel Text TextModel TextSim TextToks TextLex TextRead SpecText SpecGram TextRound TextGram TextFuel TextLocal TextRun SpecObj.
Local Open Scope N_scope.

(** ** Tokens that come out of the lexer *)
Section Real.
  Variables (F : flt) (fm : fmt).
  Lemma punct_real x t : punct fm x = Some t -> real fm (LP t) = true.
  Proof.
    unfold punct. intro H.
    repeat match type of H with (if ?b then _ else _) = _ => destruct b; [injection H as <-; destruct fm; reflexivity|] end.
    destruct fm; [discriminate|].
    repeat match type of H with (if ?b then _ else _) = _ => destruct b; [injection H as <-; reflexivity|] end. discriminate.
  Qed.
  Lemma scan_real : forall n k l t, snd (scan F fm n k l) = LTok t -> t = LP KEof \/ real fm t = true.
  Proof.
    induction n as [|n IH]; intros k l t; [discriminate|]. cbn [scan]. set (l0 := drop_while is_ws l).
    destruct (cur l0 =? 0); [intro H; injection H as <-; left; reflexivity|].
    destruct (cur l0 =? c_slash).
    { destruct (cur (tl l0) =? c_slash); [apply IH|]. destruct (cur (tl l0) =? c_star).
      - destruct fm eqn:Ef; [|apply IH]. destruct (json_comment _ _); [apply IH | discriminate].
      - destruct fm; discriminate. }
    destruct (punct fm (cur l0)) as [t0|] eqn:Ep.
    { intro H; injection H as <-. right. eapply punct_real; exact Ep. }
    destruct (num_start fm (cur l0)).
    { destruct (scan_num l0) as [[buf l'] fl]. destruct (num_tok F buf fl) as [t0|] eqn:Et; [|discriminate]. intro H; injection H as <-. right.
      unfold num_tok in Et. destruct fl; [|destruct (cur buf =? c_minus)].
      - destruct (f64_parse F buf); inversion Et; reflexivity.
      - destruct (parse_i64 buf); inversion Et; reflexivity.
      - destruct (parse_u64 buf); inversion Et; reflexivity. }
    destruct (is_alpha (cur l0)).
    { cbn [snd]. unfold id_tok. destruct (str_eqb _ _); [intro H; injection H as <-; right; reflexivity|].
      destruct (str_eqb _ _); [intro H; injection H as <-; right; reflexivity|].
      destruct fm; [|intro H; injection H as <-; right; reflexivity].
      destruct (str_eqb _ _); [intro H; injection H as <-; right; reflexivity|discriminate]. }
    destruct (cur l0 =? c_quote).
    { destruct (scan_str _ _) as [l' [s|]]; [intro H; injection H as <-; right; reflexivity | discriminate]. }
    destruct fm eqn:Ef; [discriminate|]. destruct (cur l0 =? c_apos); [|discriminate].
    destruct (_ =? c_apos); [apply IH | discriminate].
  Qed.
  Lemma lexs_real text : forallb (real fm) (fst (lexs F fm text)) = true.
  Proof.
    unfold lexs. generalize (S (length text)). intro n. revert text. induction n as [|n IH]; intro text; [reflexivity|]. cbn [lexs_f].
    destruct (lex1 F fm text) as [l' [t|]] eqn:E; [|reflexivity].
    assert (Ht : t = LP KEof \/ real fm t = true).
    { unfold lex1 in E. destruct (scan F fm (S (length text)) KBof text) as [l2 [t2|]] eqn:Es; inversion E; subst.
      eapply scan_real. rewrite Es. reflexivity. }
    destruct Ht as [-> | Ht]; [reflexivity|]. destruct t as [x|x|[]]; try discriminate Ht; cbn [fst forallb]; rewrite IH; rewrite Ht; reflexivity.
  Qed.
  Lemma lexs_real' text l b : lexs F fm text = (l, b) -> forallb (real fm) l = true.
  Proof. intro H. pose proof (lexs_real text) as R. rewrite H in R. exact R. Qed.
  Lemma st0_at2 text l b : lexs F fm text = (l, b) -> at2 fm (st0 l b) l b.
  Proof. intro H. split; [apply st0_at | eapply lexs_real'; exact H]. Qed.
End Real.

(** ** Shapes *)
Lemma bal_low l : bal l -> low l.
Proof.
  induction 1 as [|a b Ha IHa Hb IHb|t Ht|o cl l Hb Hl IH].
  - apply low_nil.
  - apply low_app; assumption.
  - apply strict_low, one_strict. destruct t as [| |[]]; try reflexivity; discriminate.
  - apply strict_low. apply (group_strict o cl [LP o] (l ++ [LP cl])).
    + destruct Hb as [[-> _]|[[-> _]|[-> _]]]; reflexivity.
    + destruct Hb as [[_ ->]|[[_ ->]|[_ ->]]]; reflexivity.
    + exists (LP o). auto.
    + exists l, [LP cl]. split; [reflexivity|]. split; [exact IH|]. exists (LP cl). auto.
Qed.
Lemma wrap_strict o cl l : bracket o cl -> bal l -> strict (LP o :: l ++ [LP cl]).
Proof.
  intros Hb Hl. apply (group_strict o cl [LP o] (l ++ [LP cl])).
  - destruct Hb as [[-> _]|[[-> _]|[-> _]]]; reflexivity.
  - destruct Hb as [[_ ->]|[[_ ->]|[_ ->]]]; reflexivity.
  - exists (LP o). auto.
  - exists l, [LP cl]. split; [reflexivity|]. split; [apply bal_low; exact Hl|]. exists (LP cl). auto.
Qed.
Lemma vtoks_single fm l : vtoks fm l -> single fm l.
Proof.
  intros [t H|o cl l0 H Hb|s o cl l0 Hr H Hb].
  - apply strict_single, one_strict. destruct t as [| |[]]; try reflexivity; discriminate.
  - apply strict_single, wrap_strict; assumption.
  - pose proof (wrap_strict o cl l0 H Hb) as (H1 & H2 & H3). split; [|split].
    + cbn [wt fold_right]. fold (wt (LP o :: l0 ++ [LP cl])). cbn [ltok_kind wtk] in *. exact H1.
    + discriminate.
    + intros p q E Hp Hq. destruct p as [|y p]; [congruence|]. injection E as <- E. destruct p as [|z p].
      * right. split; [exact Hr|]. exists s, (LP o), (l0 ++ [LP cl]). split; [reflexivity|]. split; [symmetry; exact E|].
        destruct H as [[-> _]|[[-> _]|[-> _]]]; reflexivity.
      * left. change (0 < wt (z :: p))%Z. apply (H3 _ _ E); [discriminate | exact Hq].
Qed.
(** Of two values at the same place one is the name of the other, or they are the same. *)
Lemma single_prefix fm a b t t' : single fm a -> single fm b -> a ++ t = b ++ t' ->
  a = b \/ fm = Ron /\ exists s o r, wtk (ltok_kind o) = 1%Z /\
    (a = [LId s] /\ b = LId s :: o :: r \/ b = [LId s] /\ a = LId s :: o :: r).
Proof.
  intros (A1 & A2 & A3) (B1 & B2 & B3) H.
  destruct (prefix_app _ _ _ _ H) as [(r & -> & _)|(r & -> & _ & Hr)].
  - destruct r as [|x r]; [left; rewrite app_nil_r; reflexivity|]. right.
    destruct (A3 b (x :: r) eq_refl B2) as [H1|(Hr & s & o & q & -> & E & Ho)]; [discriminate | lia|].
    split; [exact Hr|]. exists s, o, q. split; [exact Ho|]. right. rewrite E. auto.
  - right. destruct (B3 a r eq_refl A2 Hr) as [H1|(Hro & s & o & q & -> & E & Ho)]; [lia|].
    split; [exact Hro|]. exists s, o, q. split; [exact Ho|]. left. rewrite E. auto.
Qed.

Section Embed.
  Variables (F : flt) (c : cfg) (G : env) (fm : fmt).
  Notation de := (de_text tok_lexer F c G fm).
  Notation lexs := (lexs F fm).
  Notation lexes := (lexes F fm).
  Notation at2 := (at2 fm).

  Definition reads2 {A} (m : @pm tst A) (l : list ltok) (v : A) : Prop :=
    forall tail b u, delim tail b -> at2 u (l ++ tail) b -> exists u', m u = (u', Ok v) /\ at2 u' tail b.

  (** The tokens of a value, and when they are a name and a group. *)
  Definition vtext (x : str) (l : list ltok) : Prop :=
    lexes x l /\ vtoks fm l /\
    (forall s o r, l = LId s :: o :: r -> exists g a, x = s ++ g ++ 40 :: a ++ [41] /\ ron_word s /\ gap g) /\
    (fm = Ron -> forall s g a, x = s ++ g ++ 40 :: a ++ [41] -> ron_word s -> gap g ->
       exists o r, l = LId s :: o :: r /\ lexs s = ([LId s], false)).
  Lemma gap_boundary g x : gap g -> bound_char x = true -> boundary (g ++ [x]).
  Proof. intros Hg Hx. destruct Hg as [|y g Hy|body g|body g]; right; try reflexivity; [exact Hx|]. cbn [app cur]. destruct Hy as [-> | [-> | [-> | ->]]]; reflexivity. Qed.
  Lemma value_vtext x : value_text F fm x -> exists l, vtext x l.
  Proof.
    intro H. destruct (value_lexes F fm x H) as (l & L1 & L2). exists l. split; [exact L1|]. split; [exact L2|].
    pose proof (lexes_end F fm _ _ L1) as Hl.
    assert (Hd : fm = Ron -> forall s g a, x = s ++ g ++ 40 :: a ++ [41] -> ron_word s -> gap g ->
       exists t l', lexes s [t] /\ l = t :: LP KParenOpen :: l' /\ (s <> chars "true" -> s <> chars "false" -> t = LId s) /\
       (s = chars "true" \/ s = chars "false" -> exists b, t = LP (KBool b))).
    { intros Er s g a -> Hs Hg. assert (Hw : word fm s) by (rewrite Er; exact Hs).
      destruct (lexes_words F fm s Hw) as (t & T1 & T2 & T3).
      assert (E : lexs (s ++ g ++ 40 :: a ++ [41]) = cat [t] (cat [] (cat [LP KParenOpen] (lexs (a ++ [41]))))).
      { rewrite T1.
        - f_equal. rewrite (gap_lexes F fm g Hg). f_equal. apply (lexes_punct F fm 40 KParenOpen). rewrite Er. reflexivity.
        - destruct (gap_boundary g 40 Hg eq_refl) as [E|E]; [destruct g; discriminate|]. right. destruct g; exact E. }
      exists t, (fst (lexs (a ++ [41]))). split; [exact T1|]. split; [|split].
      - rewrite Hl in E. injection E as -> _. reflexivity.
      - intros; apply T3; auto.
      - intros [-> | ->]; [exists true | exists false].
        + assert (E2 : lexes (chars "true") [LP (KBool true)]) by (apply lexes_word; try reflexivity; [discriminate | rewrite Er; reflexivity]).
          apply lexes_end in E2, T1. rewrite E2 in T1. congruence.
        + assert (E2 : lexes (chars "false") [LP (KBool false)]) by (apply lexes_word; try reflexivity; [discriminate | rewrite Er; reflexivity]).
          apply lexes_end in E2, T1. rewrite E2 in T1. congruence. }
    split.
    - intros s o r E. destruct H as [b [y Hb]|s0 Hs|s0 Hs|o0 cl a Hbr Ha|s0 g a Er Hs Hn1 Hn2 Hg Ha].
      + rewrite (lexes_end F fm _ _ (lexes_weak F fm _ _ (lexes_quoted F fm _ _ Hb))) in Hl. congruence.
      + destruct (number_tok F _ Hs) as (t & Ht). rewrite (lexes_end F fm _ _ (proj1 (lexes_number F fm _ _ Ht))) in Hl. congruence.
      + destruct (lexes_words F fm _ Hs) as (t & T1 & _). rewrite (lexes_end F fm _ _ T1) in Hl. congruence.
      + destruct (brackets_lex F fm _ _ Hbr) as (B1 & _). specialize (B1 (a ++ [cl])). cbn [app] in B1. rewrite B1 in Hl. unfold cat in Hl. injection Hl as Hl _.
        rewrite E in Hl. discriminate.
      + exists g, a. destruct (Hd Er s0 g a eq_refl Hs Hg) as (t & l' & _ & E2 & E3 & _). rewrite (E3 Hn1 Hn2) in E2.
        rewrite E in E2. injection E2 as -> _. auto.
    - intros Er s g a E Hs Hg. destruct (Hd Er s g a E Hs Hg) as (t & l' & T1 & E2 & E3 & E4).
      assert (Hnb : forall b, t <> LP (KBool b)).
      { intros b ->. rewrite E2 in L2. inversion L2 as [|o0 c0 l0 Hb0|]; subst. destruct Hb0 as [[Q _]|[[Q _]|[Q _]]]; discriminate. }
      assert (Ht : t = LId s).
      { apply E3; intro Es; destruct E4 as [b Eb]; auto; exact (Hnb b Eb). }
      subst t. exists (LP KParenOpen), l'. split; [exact E2 | apply lexes_end; exact T1].
  Qed.

  Lemma delim_dl tail b : delim tail b -> dl tail.
  Proof. destruct tail as [|x r]; [reflexivity|]. cbn. destruct x as [| |[]]; try discriminate; reflexivity. Qed.
  Lemma open_neutral o : wtk (ltok_kind o) = 1%Z -> neutral o = true.
  Proof. destruct o as [| |[]]; try discriminate; reflexivity. Qed.

  (** A successful read at a value: all of the value was used, or only its name. *)
  Lemma embed_split n t l tail b u u' v : vtoks fm l -> delim tail b -> at2 u (l ++ tail) b -> de n t u = (u', Ok v) ->
    (at2 u' tail b /\
      forall tail2 b2 u2, dl tail2 -> go_on tail2 b2 -> at2 u2 (l ++ tail2) b2 -> exists u2', de n t u2 = (u2', Ok v) /\ at2 u2' tail2 b2) \/
    (fm = Ron /\ exists s o r, l = LId s :: o :: r /\ wtk (ltok_kind o) = 1%Z /\ at2 u' (o :: r ++ tail) b /\
      forall tail2 b2 u2, dl tail2 -> go_on tail2 b2 -> at2 u2 (LId s :: tail2) b2 -> exists u2', de n t u2 = (u2', Ok v) /\ at2 u2' tail2 b2).
  Proof.
    intros Hv Hd Ha E. destruct (loc_de fm F c G n t u u' v b _ Ha E) as (l' & t' & H1 & H2 & _ & H3 & H4).
    destruct (single_prefix fm l l' tail t' (vtoks_single _ _ Hv) H3 H1) as [<-|(Hr & s & o & r & Ho & [[-> ->]|[-> ->]])].
    - left. apply app_inv_head in H1. subst t'. split; [exact H2|]. intros tail2 b2 u2 Hd2. apply H4. right. split; [eapply delim_dl; exact Hd | exact Hd2].
    - exfalso. injection H1 as H1. destruct tail as [|x tail]; [discriminate|]. injection H1 as -> H1.
      destruct o as [| |[]]; discriminate.
    - right. split; [exact Hr|]. exists s, o, r. injection H1 as <-. split; [reflexivity|]. split; [exact Ho|]. split; [exact H2|].
      intros tail2 b2 u2 Hd2. apply H4. right. split; [exact (open_neutral o Ho) | exact Hd2].
  Qed.

  Lemma entire_reads t x l v : vtext x l -> entire F c G fm t x v -> exists N, forall n, (N <= n)%nat -> reads2 (de n t) l v.
  Proof.
    intros (L & Hv & Hn1 & Hn2) [Hp He]. pose proof (lexes_end F fm _ _ L) as Hl.
    destruct (parses_inv_ok F c G fm t x l false v Hl (or_intror eq_refl) Hp) as (N & u' & HN).
    exists N. intros n Hn. specialize (HN n Hn). pose proof (st0_at2 F fm _ _ _ Hl) as A0.
    destruct (embed_split n t l [] false (st0 l false) u' v Hv eq_refl) as [[A1 H]|(Hr & s & o & r & -> & Ho & A1 & H)].
    - rewrite app_nil_r. exact A0.
    - exact HN.
    - intros tail b u Hd Ha. apply H; [eapply delim_dl; exact Hd | apply delim_go; exact Hd | exact Ha].
    - exfalso. destruct (Hn1 s o r eq_refl) as (g & a & E & Hs & Hg).
      destruct (Hn2 Hr s g a E Hs Hg) as (o' & r' & _ & Ls).
      apply (He Hr s g a v E Hs Hg). eapply (parses_ok F c G fm t s _ _ v Ls); [right; reflexivity|].
      destruct (H [] false (st0 [LId s] false) I (or_intror eq_refl) (st0_at2 F fm _ _ _ Ls)) as (u2 & E2 & _).
      exists n. intros m Hm. rewrite (de_mono _ F c G fm n m t _ Hm); rewrite E2; [reflexivity | discriminate].
  Qed.
  Lemma embed_entire n t x l tail b u u' v : vtext x l -> delim tail b -> at2 u (l ++ tail) b -> de n t u = (u', Ok v) ->
    (entire F c G fm t x v /\ at2 u' tail b) \/ (fm = Ron /\ exists o r, wtk (ltok_kind o) = 1%Z /\ at2 u' (o :: r) b).
  Proof.
    intros (L & Hv & Hn1 & Hn2) Hd Ha E. pose proof (lexes_end F fm _ _ L) as Hl. pose proof (st0_at2 F fm _ _ _ Hl) as A0.
    destruct (embed_split n t l tail b u u' v Hv Hd Ha E) as [[A1 H]|(Hr & s & o & r & -> & Ho & A1 & H)].
    2:{ right. split; [exact Hr|]. exists o, (r ++ tail). auto. }
    left. split; [|exact A1]. split.
    - eapply (parses_ok F c G fm t x _ _ v Hl); [right; reflexivity|].
      destruct (H [] false (st0 l false) I (or_intror eq_refl)) as (u2 & E2 & _); [rewrite app_nil_r; exact A0|].
      exists n. intros m Hm. rewrite (de_mono _ F c G fm n m t _ Hm); rewrite E2; [reflexivity | discriminate].
    - intros Hr s g a w Ex Hs Hg Hp. destruct (Hn2 Hr s g a Ex Hs Hg) as (o & r & -> & Ls).
      assert (Ho : wtk (ltok_kind o) = 1%Z).
      { inversion Hv as [|o0 c0 l0 Hb0|s0 o0 c0 l0 Hro Hb0]; subst. destruct Hb0 as [[-> _]|[[-> _]|[-> _]]]; reflexivity. }
      destruct (parses_inv_ok F c G fm t s _ false w Ls (or_intror eq_refl) Hp) as (N & u2 & HN).
      pose proof (HN N (le_n N)) as E2.
      destruct (embed_split N t [LId s] [] false (st0 [LId s] false) u2 w) as [[A2 H2]|(_ & s2 & o2 & r2 & El & _)].
      + apply vt_scalar. rewrite Hr. reflexivity.
      + reflexivity.
      + apply st0_at2 in Ls. exact Ls.
      + exact E2.
      + assert (Hgo : go_on (o :: r ++ tail) b) by (left; discriminate).
        assert (Hdl : dl (o :: r ++ tail)) by exact (open_neutral o Ho).
        specialize (H2 (o :: r ++ tail) b u Hdl Hgo). change ([LId s] ++ o :: r ++ tail) with ((LId s :: o :: r) ++ tail) in H2.
        destruct (H2 Ha) as (u3 & E3 & A3).
        assert (Em : de (Nat.max n N) t u = (u', Ok v)) by (rewrite (de_mono _ F c G fm n _ t u (Nat.le_max_l _ _)); rewrite E; [reflexivity | discriminate]).
        assert (Em2 : de (Nat.max n N) t u = (u3, Ok w)) by (rewrite (de_mono _ F c G fm N _ t u (Nat.le_max_r _ _)); rewrite E3; [reflexivity | discriminate]).
        rewrite Em in Em2. injection Em2 as <- _. destruct A1 as [(T1 & _) _]. destruct A3 as [(T3 & _) _]. rewrite T1 in T3.
        apply (f_equal (@length ltok)) in T3. cbn [length] in T3. rewrite app_length in T3. lia.
      + discriminate.
  Qed.
End Embed.
