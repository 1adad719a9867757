(** Lists, tuples, maps, enums: the parts of the text and the parts of the value. *)
From Verif Require Import Base Utf8 Types BinModel Text TextModel TextSim TextToks TextLex TextRead SpecText SpecGram SpecList TextRound TextGram TextFuel TextLocal TextRun SpecObj TextEmbed TextObj.
Local Open Scope N_scope.

Section Lists.
  Variables (F : flt) (c : cfg) (G : env) (fm : fmt).
  Notation de := (de_text tok_lexer F c G fm).
  Notation lexs := (lexs F fm).
  Notation lexes := (lexes F fm).
  Notation lexes_any := (lexes_any F fm).
  Notation at2 := (at2 fm).
  Notation reads2 := (reads2 fm).
  Notation entire := (entire F c G fm).
  Notation vtext := (vtext F fm).

  (** ** Tokens *)
  Lemma jt_cons2 l ls tr : ls <> [] -> jt (l :: ls) tr = l ++ [LP KComma] ++ jt ls tr.
  Proof. intro H. cbn [jt]. destruct ls; [congruence | reflexivity]. Qed.
  Lemma jt_true ls : ls <> [] -> jt ls true = jt ls false ++ [LP KComma].
  Proof.
    induction ls as [|l ls IH]; [congruence|]. intros _. destruct ls as [|y ls].
    - cbn [jt]. rewrite app_nil_r. reflexivity.
    - rewrite (jt_cons2 l (y :: ls) true), (jt_cons2 l (y :: ls) false) by discriminate. rewrite IH by discriminate. rewrite !app_assoc. reflexivity.
  Qed.
  Lemma item_lexes a x b l : gap a -> gap b -> vtext x l -> lexes (a ++ x ++ b) l.
  Proof.
    intros Ha Hb Hv. apply (lexes_app_r F fm a (x ++ b) [] l); [apply gap_lexes; exact Ha|].
    rewrite <- (app_nil_r l). apply (lexes_app F fm x b l []); [apply Hv | apply lexes_weak, gap_lexes; exact Hb | apply gap_bound; exact Hb].
  Qed.
  Lemma items_lexes xs s : items_text F fm xs s -> exists ls, lexes s (jt ls false) /\ Forall2 vtext xs ls /\ ls <> [].
  Proof.
    induction 1 as [a x b Ha Hb Hx|a x b xs r Ha Hb Hx Hr (ls & I1 & I2 & I3)].
    - destruct (value_vtext F fm x Hx) as (l & Hl). exists [l]. split; [|split; [auto | discriminate]]. cbn [jt]. rewrite app_nil_r. apply item_lexes; assumption.
    - destruct (value_vtext F fm x Hx) as (l & Hl). exists (l :: ls). split; [|split; [auto | discriminate]].
      rewrite jt_cons2 by assumption. pose proof (item_lexes a x b l Ha Hb Hl) as L1.
      replace (a ++ x ++ b ++ [44] ++ r) with ((a ++ x ++ b) ++ [44] ++ r) by (rewrite <- !app_assoc; reflexivity).
      apply lexes_app; [exact L1 | apply lexes_app_r; [apply lexes_comma | exact I1] | right; reflexivity].
  Qed.
  Lemma wrapped_any o ko cl kc g1 g2 s l : punct fm o = Some ko -> punct fm cl = Some kc -> bound_char cl = true -> gap g1 -> gap g2 -> lexes s l ->
    lexes_any (g1 ++ o :: s ++ [cl] ++ g2) (LP ko :: l ++ [LP kc]).
  Proof.
    intros P1 P2 P3 Hg1 Hg2 L1. pose proof (lexes_wrap F fm _ _ _ _ s _ P1 P2 P3 L1) as LW. unfold wrap in LW.
    pose proof (lexes_any_app F fm g1 _ [] _ (gap_lexes F fm g1 Hg1) LW) as L3.
    pose proof (lexes_any_app F fm _ g2 _ [] L3 (gap_lexes F fm g2 Hg2)) as L4. rewrite app_nil_r in L4. cbn [app] in L4.
    replace (g1 ++ o :: s ++ [cl] ++ g2) with ((g1 ++ o :: s ++ [cl]) ++ g2) by (rewrite <- app_assoc; cbn [app]; rewrite <- app_assoc; reflexivity).
    exact L4.
  Qed.
  Lemma trailing_lexes ls s g : lexes s (jt ls false) -> ls <> [] -> gap g -> lexes (s ++ [44] ++ g) (jt ls true).
  Proof.
    intros L1 Hne Hg. rewrite jt_true by exact Hne. apply lexes_app; [exact L1| |right; reflexivity].
    rewrite <- (app_nil_r [LP KComma]). apply lexes_app_r; [apply lexes_comma | apply lexes_weak, gap_lexes; exact Hg].
  Qed.
  Lemma list_lexes o ko cl kc xs text : punct fm o = Some ko -> punct fm cl = Some kc -> bound_char cl = true -> list_text F fm o cl xs text ->
    exists ls tr, lexes_any text (LP ko :: jt ls tr ++ [LP kc]) /\ Forall2 vtext xs ls.
  Proof.
    intros P1 P2 P3 (g1 & g2 & s & -> & Hg1 & Hg2 & Hs).
    assert (H : exists ls tr, lexes s (jt ls tr) /\ Forall2 vtext xs ls).
    { destruct Hs as [Hs|[(s' & g & Hs & Hg & ->)|[-> Hs]]].
      - destruct (items_lexes _ _ Hs) as (ls & L1 & L2 & _). exists ls, false. auto.
      - destruct (items_lexes _ _ Hs) as (ls & L1 & L2 & L3). exists ls, true. split; [apply trailing_lexes; assumption | exact L2].
      - exists [], false. split; [apply lexes_weak, gap_lexes; exact Hs | constructor]. }
    destruct H as (ls & tr & L1 & L2). exists ls, tr. split; [apply wrapped_any; assumption | exact L2].
  Qed.
  Definition etok (e : str * str) (l : list ltok) : Prop :=
    exists lk lv, vtext (fst e) lk /\ vtext (snd e) lv /\ l = lk ++ LP KColon :: lv.
  Lemma entry_lexes e s : entry_text F fm e s -> exists l, lexes s l /\ etok e l.
  Proof.
    destruct e as [k x]. intros (a & b & c0 & d & -> & Ha & Hb & Hc & Hd & Hk & Hx). cbn [fst snd] in *.
    destruct (value_vtext F fm k Hk) as (lk & Hlk). destruct (value_vtext F fm x Hx) as (lv & Hlv).
    exists (lk ++ LP KColon :: lv). split; [|exists lk, lv; auto].
    pose proof (item_lexes a k b lk Ha Hb Hlk) as L1. pose proof (item_lexes c0 x d lv Hc Hd Hlv) as L2.
    replace (a ++ k ++ b ++ [58] ++ c0 ++ x ++ d) with ((a ++ k ++ b) ++ [58] ++ c0 ++ x ++ d) by (rewrite <- !app_assoc; reflexivity).
    apply lexes_app; [exact L1| |right; reflexivity]. apply (lexes_app_r F fm [58] _ [LP KColon] lv); [apply lexes_colon | exact L2].
  Qed.
  Lemma entries_lexes es s : entries_text F fm es s -> exists ls, lexes s (jt ls false) /\ Forall2 etok es ls /\ ls <> [].
  Proof.
    induction 1 as [e s H|e s es r H Hr (ls & I1 & I2 & I3)]; destruct (entry_lexes _ _ H) as (l & L1 & L2).
    - exists [l]. split; [|split; [auto | discriminate]]. cbn [jt]. rewrite app_nil_r. exact L1.
    - exists (l :: ls). split; [|split; [auto | discriminate]]. rewrite jt_cons2 by assumption.
      apply lexes_app; [exact L1 | apply lexes_app_r; [apply lexes_comma | exact I1] | right; reflexivity].
  Qed.
  Lemma map_lexes es text : map_text F fm es text ->
    exists ls tr, lexes_any text (LP KCurlyOpen :: jt ls tr ++ [LP KCurlyClose]) /\ Forall2 etok es ls.
  Proof.
    intros (g1 & g2 & s & -> & Hg1 & Hg2 & Hs).
    assert (H : exists ls tr, lexes s (jt ls tr) /\ Forall2 etok es ls).
    { destruct Hs as [Hs|[(s' & g & Hs & Hg & ->)|[-> Hs]]].
      - destruct (entries_lexes _ _ Hs) as (ls & L1 & L2 & _). exists ls, false. auto.
      - destruct (entries_lexes _ _ Hs) as (ls & L1 & L2 & L3). exists ls, true. split; [apply trailing_lexes; assumption | exact L2].
      - exists [], false. split; [apply lexes_weak, gap_lexes; exact Hs | constructor]. }
    destruct H as (ls & tr & L1 & L2). exists ls, tr. split; [|exact L2].
    apply wrapped_any; try assumption; destruct fm; reflexivity.
  Qed.

  (** ** Sequences *)
  Lemma expect_b2 k w u x tail b : at2 u (x :: tail) b -> tok_is (ltok_kind x) k = true -> go_on tail b -> exists u', expect tok_lexer k w u = (u', Ok tt) /\ at2 u' tail b.
  Proof. apply expect2. Qed.
  Lemma close_cond close u x r tail b : vtoks fm (x :: r) -> closing close -> at2 u ((x :: r) ++ tail) b -> negb (tok_is (l_tok tok_lexer u) close) = true.
  Proof.
    intros Hv Hc Ha. cbn [app] in Ha. rewrite (at2_tok _ _ _ _ _ Ha). destruct (vtoks_head _ _ Hv) as (x0 & r0 & E & Hx). injection E as <- <-.
    assert (H : forall t, closing t -> tok_is (ltok_kind x) t = false).
    { intros t Ht. inversion Hv as [t0 Hs|o0 c0 l0 Hb|s0 o0 c0 l0 Hr Hb]; subst.
      - destruct Ht as [-> | [-> | ->]]; destruct x as [| |[]]; try discriminate Hs; reflexivity.
      - destruct Ht as [-> | [-> | ->]]; destruct Hb as [[-> _]|[[-> _]|[-> _]]]; reflexivity.
      - destruct Ht as [-> | [-> | ->]]; reflexivity. }
    rewrite (H _ Hc). reflexivity.
  Qed.
  Lemma close_cond' close u l tail b : vtoks fm l -> closing close -> at2 u (l ++ tail) b -> negb (tok_is (l_tok tok_lexer u) close) = true.
  Proof. intros Hv Hc Ha. destruct (vtoks_head _ _ Hv) as (x & r & -> & _). eapply close_cond; eassumption. Qed.
  Lemma close_stop close u tail b : closing close -> at2 u (LP close :: tail) b -> negb (tok_is (l_tok tok_lexer u) close) = false.
  Proof. intros Hc Ha. rewrite (at2_tok _ _ _ _ _ Ha). cbn [ltok_kind]. rewrite (closing_self _ Hc). reflexivity. Qed.

  Section Seq.
    Variables (k : seqk) (t : ty).
    Definition sitem (n : nat) (acc : list val) : @pm tst (list val) := pbind (de n t) (fun v => pret (seq_add k v acc)).
    Definition sbody (n : nat) (acc : list val) : @pm tst (list val) :=
      pbind (de n t) (fun v => pbind (eat_comma tok_lexer KBlockClose (chars ", or ]")) (fun _ => pret (seq_add k v acc))).
    Definition sstep (acc : list val) (x : str) (acc' : list val) : Prop := exists v, entire t x v /\ acc' = seq_add k v acc.
    Lemma sbody_item n a u : sbody n a u = pbind (sitem n a) (fun a' => pbind (eat_comma tok_lexer KBlockClose (chars ", or ]")) (fun _ => pret a')) u.
    Proof. unfold sbody, sitem, pbind. destruct (de n t u) as [u1 [v|e|p|]]; reflexivity. Qed.
    Lemma sitem_inv n a x l tail b u u' a' : vtext x l -> delim tail b -> at2 u (l ++ tail) b -> sitem n a u = (u', Ok a') ->
      (sstep a x a' /\ at2 u' tail b) \/ (forall u2, eat_comma tok_lexer KBlockClose (chars ", or ]") u' <> (u2, Ok tt)).
    Proof.
      intros Hv Hd Ha E. unfold sitem, pbind in E. destruct (de n t u) as [u1 [v|e|p|]] eqn:E1; try discriminate. unfold pret in E. injection E as <- <-.
      destruct (embed_entire F c G fm n t x l tail b u u1 v Hv Hd Ha E1) as [[H1 H2]|(Hr & o & r & Ho & A2)].
      - left. split; [exists v; auto | exact H2].
      - right. intros u3 Q. eapply (eat_open fm KBlockClose); [left; reflexivity | exact A2 | exact Ho | exact Q].
    Qed.
    Lemma sitem_fwd a x l a' : vtext x l -> sstep a x a' -> exists N, forall n, (N <= n)%nat -> reads2 (sitem n a) l a'.
    Proof.
      intros Hv (v & He & ->). destruct (entire_reads F c G fm t x l v Hv He) as [N HN]. exists N. intros n Hn tail b u Hd Ha.
      destruct (HN n Hn tail b u Hd Ha) as (u' & E & A). exists u'. unfold sitem, pbind. rewrite E. auto.
    Qed.
    Lemma chain_seq xs : forall acc acc', chain sstep acc xs acc' <-> exists ws, Forall2 (entire t) xs ws /\ acc' = fold_left (fun a v => seq_add k v a) ws acc.
    Proof.
      induction xs as [|x xs IH]; intros acc acc'; split.
      - intro H. inversion H; subst. exists []. auto.
      - intros (ws & H & ->). inversion H; subst. constructor.
      - intro H. inversion H as [|? ? a1 ? ? HR HC]; subst. destruct HR as (v & He & ->). apply IH in HC as (ws & H1 & ->). exists (v :: ws). auto.
      - intros (ws & H & ->). inversion H as [|? v ? ws' Hv Hws]; subst. econstructor; [exists v; eauto|]. apply IH. exists ws'. auto.
    Qed.
    Lemma seq_fwd xs ls tr ws : Forall2 vtext xs ls -> Forall2 (entire t) xs ws ->
      exists N, forall n, (N <= n)%nat -> reads2 (de_seq tok_lexer (de n) n k t) (LP KBlockOpen :: jt ls tr ++ [LP KBlockClose]) (fold_left (fun a v => seq_add k v a) ws []).
    Proof.
      intros Hls Hws. assert (C : chain sstep [] xs (fold_left (fun a v => seq_add k v a) ws [])) by (apply chain_seq; eauto).
      destruct (loop_fwd fm (fun s => negb (tok_is (l_tok tok_lexer s) KBlockClose)) sitem sbody KBlockClose (chars ", or ]") sbody_item (or_introl eq_refl)
        (fun u tail b => close_stop KBlockClose u tail b (or_introl eq_refl)) vtext sstep (fun x l tail b u Hv => close_cond' KBlockClose u l tail b (proj1 (proj2 Hv)) (or_introl eq_refl))
        sitem_inv sitem_fwd tr xs ls _ _ C Hls) as [N HN].
      exists (Nat.max N (S (length ls))). intros n Hn tail b u Hd Hu. cbn [app] in Hu. rewrite <- app_assoc in Hu. cbn [app] in Hu.
      destruct (expect_b2 KBlockOpen (chars "[") u _ _ b Hu eq_refl) as (u1 & E1 & A1); [left; destruct (jt ls tr); discriminate|].
      destruct (HN n n ltac:(lia) ltac:(lia) tail b u1 A1) as (u2 & E2 & A2).
      destruct (expect_b2 KBlockClose (chars "]") u2 _ _ b A2 eq_refl (delim_go _ _ Hd)) as (u3 & E3 & A3).
      exists u3. split; [|exact A3]. unfold de_seq, pbind at 1. rewrite E1. unfold pbind at 1. unfold sbody in E2. rewrite E2. unfold pbind. rewrite E3. reflexivity.
    Qed.
    Lemma seq_inv2 n xs ls tr r tail b u u' : Forall2 vtext xs ls -> at2 u ((LP KBlockOpen :: jt ls tr ++ [LP KBlockClose]) ++ tail) b -> go_on tail b ->
      de_seq tok_lexer (de n) n k t u = (u', Ok r) -> exists ws, Forall2 (entire t) xs ws /\ r = fold_left (fun a v => seq_add k v a) ws [] /\ at2 u' tail b.
    Proof.
      intros Hls Hu Hg E. cbn [app] in Hu. rewrite <- app_assoc in Hu. cbn [app] in Hu.
      destruct (expect_b2 KBlockOpen (chars "[") u _ _ b Hu eq_refl) as (u1 & E1 & A1); [left; destruct (jt ls tr); discriminate|].
      unfold de_seq, pbind at 1 in E. rewrite E1 in E. unfold pbind at 1 in E. destruct (while_ n _ _ _ u1) as [u2 [acc'|e|p|]] eqn:E2; try discriminate.
      destruct (loop_inv fm (fun s => negb (tok_is (l_tok tok_lexer s) KBlockClose)) sitem sbody KBlockClose (chars ", or ]") sbody_item (or_introl eq_refl)
        (fun u tail b => close_stop KBlockClose u tail b (or_introl eq_refl)) vtext sstep (fun x l tail b u Hv => close_cond' KBlockClose u l tail b (proj1 (proj2 Hv)) (or_introl eq_refl))
        sitem_inv n n tr xs ls Hls _ _ _ _ tail b A1 E2) as [C A2].
      destruct (expect_b2 KBlockClose (chars "]") u2 _ _ b A2 eq_refl Hg) as (u3 & E3 & A3).
      unfold pbind in E. rewrite E3 in E. unfold pret in E. injection E as <- <-. apply chain_seq in C as (ws & H1 & ->). exists ws. auto.
    Qed.
  End Seq.
  (** ** Maps *)
  Section Map.
    Variables (k : mapk) (tk tv : ty).
    Notation eat := (eat_comma tok_lexer KCurlyClose (chars ", or }")).
    Definition kitem (n : nat) (acc : list (val * val)) : @pm tst (list (val * val)) :=
      pbind (de n tk) (fun x => pbind (p_colon tok_lexer) (fun _ => pbind (de n tv) (fun y => pret (map_add k x y acc)))).
    Definition kbody (n : nat) (acc : list (val * val)) : @pm tst (list (val * val)) :=
      pbind (de n tk) (fun x => pbind (p_colon tok_lexer) (fun _ => pbind (de n tv) (fun y => pbind eat (fun _ => pret (map_add k x y acc))))).
    Definition kstep (acc : list (val * val)) (e : str * str) (acc' : list (val * val)) : Prop :=
      exists x y, entire tk (fst e) x /\ entire tv (snd e) y /\ acc' = map_add k x y acc.
    Lemma kbody_item n a u : kbody n a u = pbind (kitem n a) (fun a' => pbind eat (fun _ => pret a')) u.
    Proof.
      unfold kbody, kitem, pbind. destruct (de n tk u) as [u1 [x|e|p|]]; try reflexivity. destruct (p_colon tok_lexer u1) as [u2 [[]|e|p|]]; try reflexivity.
      destruct (de n tv u2) as [u3 [y|e|p|]]; reflexivity.
    Qed.
    Lemma colon2 u tail b : at2 u (LP KColon :: tail) b -> go_on tail b -> exists u', p_colon tok_lexer u = (u', Ok tt) /\ at2 u' tail b.
    Proof. intros Ha Hg. apply (expect2 fm KColon _ u (LP KColon) tail b Ha eq_refl Hg). Qed.
    Lemma vgo l tail b : vtoks fm l -> go_on (l ++ tail) b.
    Proof. intro H. destruct (vtoks_head _ _ H) as (x & r & -> & _). left. discriminate. Qed.
    Lemma kitem_inv n a e l tail b u u' a' : etok e l -> delim tail b -> at2 u (l ++ tail) b -> kitem n a u = (u', Ok a') ->
      (kstep a e a' /\ at2 u' tail b) \/ (forall u2, eat u' <> (u2, Ok tt)).
    Proof.
      intros (lk & lv & Hk & Hv & ->) Hd Ha E. rewrite <- app_assoc in Ha. cbn [app] in Ha.
      unfold kitem, pbind at 1 in E. destruct (de n tk u) as [u1 [x|er|p|]] eqn:E1; try discriminate.
      destruct (embed_entire F c G fm n tk _ lk (LP KColon :: lv ++ tail) b u u1 x Hk eq_refl Ha E1) as [[H1 H2]|(Hr & o & r & Ho & A2)].
      - destruct (colon2 u1 _ b H2 (vgo _ _ _ (proj1 (proj2 Hv)))) as (u2 & E2 & A2). unfold pbind at 1 in E. rewrite E2 in E.
        unfold pbind at 1 in E. destruct (de n tv u2) as [u3 [y|er|p|]] eqn:E3; try discriminate. unfold pret in E. injection E as <- <-.
        destruct (embed_entire F c G fm n tv _ lv tail b u2 u3 y Hv Hd A2 E3) as [[H3 H4]|(Hr & o & r & Ho & A4)].
        + left. split; [exists x, y; auto | exact H4].
        + right. intros u4 Q. eapply (eat_open fm KCurlyClose); [right; left; reflexivity | exact A4 | exact Ho | exact Q].
      - exfalso. unfold pbind at 1, p_colon, expect in E. rewrite (at2_tok _ _ _ _ _ A2) in E. destruct o as [| |[]]; cbn in Ho, E; discriminate.
    Qed.
    Lemma kitem_fwd a e l a' : etok e l -> kstep a e a' -> exists N, forall n, (N <= n)%nat -> reads2 (kitem n a) l a'.
    Proof.
      intros (lk & lv & Hk & Hv & ->) (x & y & He1 & He2 & ->). destruct (entire_reads F c G fm tk _ lk x Hk He1) as [N1 H1]. destruct (entire_reads F c G fm tv _ lv y Hv He2) as [N2 H2].
      exists (Nat.max N1 N2). intros n Hn tail b u Hd Ha. rewrite <- app_assoc in Ha. cbn [app] in Ha.
      destruct (H1 n ltac:(lia) (LP KColon :: lv ++ tail) b u eq_refl Ha) as (u1 & E1 & A1).
      destruct (colon2 u1 _ b A1 (vgo _ _ _ (proj1 (proj2 Hv)))) as (u2 & E2 & A2).
      destruct (H2 n ltac:(lia) tail b u2 Hd A2) as (u3 & E3 & A3).
      exists u3. split; [|exact A3]. unfold kitem, pbind at 1. rewrite E1. unfold pbind at 1. rewrite E2. unfold pbind. rewrite E3. reflexivity.
    Qed.
    Definition ent2 (e : str * str) (w : val * val) : Prop := entire tk (fst e) (fst w) /\ entire tv (snd e) (snd w).
    Lemma chain_map es : forall acc acc', chain kstep acc es acc' <-> exists ws, Forall2 ent2 es ws /\ acc' = fold_left (fun a e => map_add k (fst e) (snd e) a) ws acc.
    Proof.
      induction es as [|x xs IH]; intros acc acc'; split.
      - intro H. inversion H; subst. exists []. auto.
      - intros (ws & H & ->). inversion H; subst. constructor.
      - intro H. inversion H as [|? ? a1 ? ? HR HC]; subst. destruct HR as (v & w & He1 & He2 & ->). apply IH in HC as (ws & H1 & ->). exists ((v, w) :: ws). split; [constructor; [split; assumption | exact H1] | reflexivity].
      - intros (ws & H & ->). inversion H as [|? v ? ws' Hv Hws]; subst. econstructor; [exists (fst v), (snd v); destruct Hv; eauto|]. apply IH. exists ws'. auto.
    Qed.
    Lemma kcond e l tail b u : etok e l -> at2 u (l ++ tail) b -> negb (tok_is (l_tok tok_lexer u) KCurlyClose) = true.
    Proof. intros (lk & lv & Hk & Hv & ->) Ha. rewrite <- app_assoc in Ha. eapply (close_cond' KCurlyClose); [exact (proj1 (proj2 Hk)) | right; left; reflexivity | exact Ha]. Qed.
    Lemma map_fwd es ls tr ws : Forall2 etok es ls -> Forall2 ent2 es ws ->
      exists N, forall n, (N <= n)%nat -> reads2 (de_map tok_lexer (de n) n k tk tv) (LP KCurlyOpen :: jt ls tr ++ [LP KCurlyClose]) (fold_left (fun a e => map_add k (fst e) (snd e) a) ws []).
    Proof.
      intros Hls Hws. assert (C : chain kstep [] es (fold_left (fun a e => map_add k (fst e) (snd e) a) ws [])) by (apply chain_map; eauto).
      destruct (loop_fwd fm (fun s => negb (tok_is (l_tok tok_lexer s) KCurlyClose)) kitem kbody KCurlyClose (chars ", or }") kbody_item (or_intror (or_introl eq_refl))
        (fun u tail b => close_stop KCurlyClose u tail b (or_intror (or_introl eq_refl))) etok kstep kcond
        kitem_inv kitem_fwd tr es ls _ _ C Hls) as [N HN].
      exists (Nat.max N (S (length ls))). intros n Hn tail b u Hd Hu. cbn [app] in Hu. rewrite <- app_assoc in Hu. cbn [app] in Hu.
      destruct (expect_b2 KCurlyOpen (chars "{") u _ _ b Hu eq_refl) as (u1 & E1 & A1); [left; destruct (jt ls tr); discriminate|].
      destruct (HN n n ltac:(lia) ltac:(lia) tail b u1 A1) as (u2 & E2 & A2).
      destruct (expect_b2 KCurlyClose (chars "}") u2 _ _ b A2 eq_refl (delim_go _ _ Hd)) as (u3 & E3 & A3).
      exists u3. split; [|exact A3]. unfold de_map, pbind at 1. rewrite E1. unfold pbind at 1. unfold kbody in E2. rewrite E2. unfold pbind. rewrite E3. reflexivity.
    Qed.
    Lemma map_inv2 n es ls tr r tail b u u' : Forall2 etok es ls -> at2 u ((LP KCurlyOpen :: jt ls tr ++ [LP KCurlyClose]) ++ tail) b -> go_on tail b ->
      de_map tok_lexer (de n) n k tk tv u = (u', Ok r) -> exists ws, Forall2 ent2 es ws /\ r = fold_left (fun a e => map_add k (fst e) (snd e) a) ws [] /\ at2 u' tail b.
    Proof.
      intros Hls Hu Hg E. cbn [app] in Hu. rewrite <- app_assoc in Hu. cbn [app] in Hu.
      destruct (expect_b2 KCurlyOpen (chars "{") u _ _ b Hu eq_refl) as (u1 & E1 & A1); [left; destruct (jt ls tr); discriminate|].
      unfold de_map, pbind at 1 in E. rewrite E1 in E. unfold pbind at 1 in E. destruct (while_ n _ _ _ u1) as [u2 [acc'|e|p|]] eqn:E2; try discriminate.
      destruct (loop_inv fm (fun s => negb (tok_is (l_tok tok_lexer s) KCurlyClose)) kitem kbody KCurlyClose (chars ", or }") kbody_item (or_intror (or_introl eq_refl))
        (fun u tail b => close_stop KCurlyClose u tail b (or_intror (or_introl eq_refl))) etok kstep kcond
        kitem_inv n n tr es ls Hls _ _ _ _ tail b A1 E2) as [C A2].
      destruct (expect_b2 KCurlyClose (chars "}") u2 _ _ b A2 eq_refl Hg) as (u3 & E3 & A3).
      unfold pbind in E. rewrite E3 in E. unfold pret in E. injection E as <- <-. apply chain_map in C as (ws & H1 & ->). exists ws. auto.
    Qed.
  End Map.

  (** ** A fixed number of elements in brackets *)
  Notation tclose := (k_tclose fm).
  Notation topen := (k_topen fm).
  Lemma tclose_c : closing tclose. Proof. apply tclose_closing. Qed.
  (** No value starts with a closing bracket. *)
  Lemma no_close n t u x tail b u' v : at2 u (x :: tail) b -> (wtk (ltok_kind x) < 0)%Z -> de n t u = (u', Ok v) -> False.
  Proof.
    intros Ha Hx E. destruct (loc_de fm F c G n t u u' v b _ Ha E) as (l' & t' & H1 & _ & _ & (S1 & S2 & S3) & _).
    destruct l' as [|y l']; [congruence|]. injection H1 as <- H1. destruct l' as [|z l'].
    - cbn in S1. lia.
    - destruct (S3 [x] (z :: l') eq_refl ltac:(discriminate) ltac:(discriminate)) as [H|(_ & s & o & q & E1 & _)].
      + cbn in H. lia.
      + injection E1 as ->. cbn in Hx. lia.
  Qed.
  Definition good_item (p : nat -> @pm tst val) (t : ty) : Prop :=
    forall n u u' v, p n u = (u', Ok v) <-> exists u1, de n t u = (u1, Ok v) /\ eat_tcomma tok_lexer fm u1 = (u', Ok tt).
  Lemma item_good t : good_item (fun n => de_item tok_lexer fm (de n) t) t.
  Proof.
    intros n u u' v. unfold de_item, pbind. destruct (de n t u) as [u1 [w|e|p|]].
    - destruct (eat_tcomma tok_lexer fm u1) as [u2 [[]|e|p|]] eqn:E2; split; try (intro H; discriminate); try (intros (u3 & E & E3); injection E as <- <-; rewrite E2 in E3; inversion E3; subst; reflexivity).
      intro H. injection H as <- <-. exists u1. auto.
    - split; [discriminate | intros (u3 & E & _); discriminate].
    - split; [discriminate | intros (u3 & E & _); discriminate].
    - split; [discriminate | intros (u3 & E & _); discriminate].
  Qed.
  Lemma block_good t : good_item (fun n => comma_block tok_lexer fm (de n) t) t.
  Proof.
    intros n u u' v. unfold comma_block. destruct (de n t u) as [u1 [w|e|p|]].
    - destruct (eat_tcomma tok_lexer fm u1) as [u2 [[]|e|p|]] eqn:E2; split; try (intro H; discriminate); try (intros (u3 & E & E3); injection E as <- <-; congruence).
      intro H. injection H as <- <-. exists u1. auto.
    - split; [destruct (eat_tcomma tok_lexer fm u1) as [u2 [[]|e2|p|]]; discriminate | intros (u3 & E & _); discriminate].
    - split; [discriminate | intros (u3 & E & _); discriminate].
    - split; [discriminate | intros (u3 & E & _); discriminate].
  Qed.
  Notation all3 := (tuple_value F c G fm).
  Lemma all3_nil : all3 [] [] []. Proof. split; [reflexivity | constructor]. Qed.
  Lemma all3_cons t x v ts xs vs : entire t x v -> all3 ts xs vs -> all3 (t :: ts) (x :: xs) (v :: vs).
  Proof. intros H [H1 H2]. split; [cbn; congruence | cbn; constructor; assumption]. Qed.
  Lemma elems_inv n ps : forall ts, Forall2 good_item ps ts ->
    forall xs ls tr vs tail b u u', Forall2 vtext xs ls -> at2 u (jt ls tr ++ LP tclose :: tail) b -> de_list (map (fun p => p n) ps) u = (u', Ok vs) ->
    tok_is (l_tok tok_lexer u') tclose = true -> all3 ts xs vs /\ at2 u' (LP tclose :: tail) b.
  Proof.
    induction ps as [|q ps IH]; intros ts Hps xs ls tr vs tail b u u' Hls Ha E Hc; inversion Hps as [|? t ? ts' Hq Hps']; subst.
    - unfold de_list, pret in E. injection E as <- <-. destruct Hls as [|x l xs ls Hx Hls].
      + split; [apply all3_nil | exact Ha].
      + exfalso. destruct (jt_cons tclose l ls tr tail) as (tl1 & E1 & _). rewrite E1 in Ha.
        pose proof (close_cond' tclose u l tl1 b (proj1 (proj2 Hx)) tclose_c Ha) as Q. rewrite Hc in Q. discriminate.
    - cbn [map de_list] in E. unfold pbind at 1 in E. destruct (q n u) as [u1 [v|e|p|]] eqn:E1; try discriminate.
      apply Hq in E1 as (u0 & E0 & E1). unfold pbind in E. destruct (de_list (map (fun p => p n) ps) u1) as [u2 [r|e|p|]] eqn:E2; try discriminate. unfold pret in E. injection E as <- <-.
      destruct Hls as [|x l xs ls Hx Hls].
      + exfalso. cbn [jt app] in Ha. eapply no_close; [exact Ha| |exact E0]. destruct tclose_c as [-> | [-> | ->]]; reflexivity.
      + destruct (jt_cons tclose l ls tr tail) as (tl1 & Ej & Ht). rewrite Ej in Ha.
        assert (Hd : delim tl1 b) by (destruct Ht as [(_ & _ & ->)| ->]; [apply closing_delim, tclose_c | reflexivity]).
        destruct (embed_entire F c G fm n t x l tl1 b u u0 v Hx Hd Ha E0) as [[H1 H2]|(Hr & o & r0 & Ho & A2)].
        2:{ exfalso. eapply (eat_open fm tclose); [apply tclose_c | exact A2 | exact Ho | exact E1]. }
        destruct (eat_ok fm tclose (w_tcomma fm) u0 tl1 b u1 tclose_c H2 Hd E1) as [(r0 & Er & A2)|(r0 & Er & ->)].
        * destruct Ht as [(_ & _ & Ht)|Ht]; rewrite Ht in Er; injection Er as Er.
          { exfalso. pose proof tclose_c as [Q|[Q|Q]]; rewrite Q in Er; discriminate. }
          subst r0. destruct (IH ts' Hps' xs ls tr r tail b u1 u2 Hls A2 E2 Hc) as [H3 H4]. split; [apply all3_cons; assumption | exact H4].
        * destruct Ht as [(-> & -> & Ht)|Ht]; rewrite Ht in Er; injection Er as Er.
          2:{ exfalso. pose proof tclose_c as [Q|[Q|Q]]; rewrite Q in Er; discriminate. }
          inversion Hls; subst. destruct (IH ts' Hps' [] [] false r r0 b u0 u2 (Forall2_nil _) H2 E2 Hc) as [H3 H4]. split; [apply all3_cons; assumption | exact H4].
  Qed.
  Lemma eat_t2 u tail b : at2 u (LP KComma :: tail) b -> go_on tail b -> exists u', eat_tcomma tok_lexer fm u = (u', Ok tt) /\ at2 u' tail b.
  Proof.
    intros [H Hr] Hg. destruct (eat_comma_comma tclose (w_tcomma fm) u tail b H Hg) as (u' & E & A1). exists u'. split; [exact E|].
    split; [exact A1|]. apply real_cons in Hr. tauto.
  Qed.
  Lemma all3_inv t ts xs vs : all3 (t :: ts) xs vs -> exists x xs' v vs', xs = x :: xs' /\ vs = v :: vs' /\ entire t x v /\ all3 ts xs' vs'.
  Proof.
    intros [H1 H2]. destruct xs as [|x xs]; [discriminate|]. cbn [combine] in H2. inversion H2 as [|? v ? vs' Hv Hvs]; subst. exists x, xs, v, vs'.
    split; [reflexivity|]. split; [reflexivity|]. split; [exact Hv|]. split; [cbn in H1; congruence | exact Hvs].
  Qed.
  Lemma elems_fwd ps : forall ts, Forall2 good_item ps ts -> forall xs ls tr vs, Forall2 vtext xs ls -> all3 ts xs vs ->
    exists N, forall n, (N <= n)%nat -> forall tail b u, at2 u (jt ls tr ++ LP tclose :: tail) b ->
      exists u', de_list (map (fun p => p n) ps) u = (u', Ok vs) /\ at2 u' (LP tclose :: tail) b.
  Proof.
    induction ps as [|q ps IH]; intros ts Hps xs ls tr vs Hls H3; inversion Hps as [|? t ? ts' Hq Hps']; subst.
    - destruct H3 as [H1 H2]. destruct xs; [|discriminate]. cbn in H2. inversion H2; subst. inversion Hls; subst. exists O. intros n _ tail b u Ha. exists u. auto.
    - apply all3_inv in H3 as (x & xs' & v & vs' & -> & -> & He & H3). inversion Hls as [|? l ? ls' Hx Hls']; subst.
      destruct (IH ts' Hps' xs' ls' tr vs' Hls' H3) as [N1 H1]. destruct (entire_reads F c G fm t x l v Hx He) as [N2 H2].
      exists (Nat.max N1 N2). intros n Hn tail b u Ha. destruct (jt_cons tclose l ls' tr tail) as (tl1 & Ej & Ht). rewrite Ej in Ha.
      assert (Hd : delim tl1 b) by (destruct Ht as [(_ & _ & ->)| ->]; [apply closing_delim, tclose_c | reflexivity]).
      destruct (H2 n ltac:(lia) tl1 b u Hd Ha) as (u0 & E0 & A0).
      assert (Hx2 : exists u1, eat_tcomma tok_lexer fm u0 = (u1, Ok tt) /\ at2 u1 (jt ls' tr ++ LP tclose :: tail) b).
      { destruct Ht as [(-> & -> & ->)| ->].
        - exists u0. split; [|exact A0]. eapply eat_comma_close; [apply tclose_c | exact (proj1 A0)].
        - apply eat_t2; [exact A0|]. left. destruct (jt ls' tr); discriminate. }
      destruct Hx2 as (u1 & E1 & A1). destruct (H1 n ltac:(lia) tail b u1 A1) as (u2 & E2 & A2).
      exists u2. split; [|exact A2]. cbn [map de_list]. unfold pbind at 1. rewrite (proj2 (Hq n u u1 v)) by (exists u0; auto). unfold pbind. rewrite E2. reflexivity.
  Qed.
  Definition brk_toks (ls : list (list ltok)) (tr : bool) : list ltok := LP topen :: jt ls tr ++ [LP tclose].
  Lemma topen_is : tok_is (ltok_kind (LP topen)) topen = true. Proof. unfold k_topen. destruct fm; reflexivity. Qed.
  Lemma tclose_is : tok_is (ltok_kind (LP tclose)) tclose = true. Proof. unfold k_tclose. destruct fm; reflexivity. Qed.
  Lemma brk_fwd ps ts xs ls tr vs : Forall2 good_item ps ts -> Forall2 vtext xs ls -> all3 ts xs vs ->
    exists N, forall n, (N <= n)%nat -> reads2 (de_bracketed tok_lexer fm (map (fun p => p n) ps)) (brk_toks ls tr) vs.
  Proof.
    intros Hps Hls H3. destruct (elems_fwd ps ts Hps xs ls tr vs Hls H3) as [N HN]. exists N. intros n Hn tail b u Hd Hu.
    unfold brk_toks in Hu. cbn [app] in Hu. rewrite <- app_assoc in Hu. cbn [app] in Hu.
    destruct (expect_b2 topen (w_topen fm) u _ _ b Hu topen_is) as (u1 & E1 & A1); [left; destruct (jt ls tr); discriminate|].
    destruct (HN n Hn tail b u1 A1) as (u2 & E2 & A2).
    destruct (expect_b2 tclose (w_tclose fm) u2 _ _ b A2 tclose_is (delim_go _ _ Hd)) as (u3 & E3 & A3).
    exists u3. split; [|exact A3]. unfold de_bracketed, pbind at 1. rewrite E1. unfold pbind at 1. rewrite E2. unfold pbind. rewrite E3. reflexivity.
  Qed.
  Lemma brk_inv n ps ts xs ls tr vs tail b u u' : Forall2 good_item ps ts -> Forall2 vtext xs ls -> at2 u (brk_toks ls tr ++ tail) b -> go_on tail b ->
    de_bracketed tok_lexer fm (map (fun p => p n) ps) u = (u', Ok vs) -> all3 ts xs vs /\ at2 u' tail b.
  Proof.
    intros Hps Hls Hu Hg E. unfold brk_toks in Hu. cbn [app] in Hu. rewrite <- app_assoc in Hu. cbn [app] in Hu.
    destruct (expect_b2 topen (w_topen fm) u _ _ b Hu topen_is) as (u1 & E1 & A1); [left; destruct (jt ls tr); discriminate|].
    unfold de_bracketed, pbind at 1 in E. rewrite E1 in E. unfold pbind at 1 in E. destruct (de_list _ u1) as [u2 [r|e|p|]] eqn:E2; try discriminate.
    assert (Hc : tok_is (l_tok tok_lexer u2) tclose = true).
    { destruct (tok_is (l_tok tok_lexer u2) tclose) eqn:Q; [reflexivity|]. unfold pbind, expect in E. rewrite Q in E. discriminate. }
    destruct (elems_inv n ps ts Hps xs ls tr r tail b u1 u2 Hls A1 E2 Hc) as [H3 A2].
    destruct (expect_b2 tclose (w_tclose fm) u2 _ _ b A2 tclose_is Hg) as (u3 & E3 & A3).
    unfold pbind in E. rewrite E3 in E. unfold pret in E. injection E as <- <-. auto.
  Qed.
  (** ** Enums *)
  Lemma object_any ms text : object_text F fm ms text ->
    exists ls tr, lexes_any text (obj_toks fm ls tr) /\ Forall2 (mtok F fm) ms ls.
  Proof.
    intros (g1 & g2 & s & -> & Hg1 & Hg2 & Hs).
    destruct (members_any F fm ms s Hs) as (ls & tr & L1 & L2). exists ls, tr. split; [|exact L2]. unfold obj_toks.
    apply wrapped_any; try assumption; destruct fm; reflexivity.
  Qed.
  Lemma find_variant_first p vs : forall i tag v, nth_error vs tag = Some v -> p v = true -> (forall j w, (j < tag)%nat -> nth_error vs j = Some w -> p w = false) ->
    find_variant p vs i = Some (i + N.of_nat tag, v).
  Proof.
    induction vs as [|w vs IH]; intros i tag v Hn Hp Hb; [destruct tag; discriminate|]. cbn [find_variant]. destruct tag as [|tag]; cbn [nth_error] in Hn.
    - injection Hn as ->. rewrite Hp. f_equal. f_equal. lia.
    - rewrite (Hb O w ltac:(lia) eq_refl). rewrite (IH (i + 1) tag v Hn Hp); [f_equal; f_equal; lia|]. intros j w' Hj. apply (Hb (S j)). lia.
  Qed.
  Lemma find_variant_none p vs : forall i, (forall v, In v vs -> p v = false) -> find_variant p vs i = None.
  Proof.
    induction vs as [|w vs IH]; intros i H; [reflexivity|]. cbn [find_variant]. rewrite (H w (or_introl eq_refl)). apply IH. intros v Hv. apply H. right. exact Hv.
  Qed.
End Lists.
