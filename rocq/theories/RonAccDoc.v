(** The RON readers take exactly the token sequences of SpecRonAcc.v (the counterpart of
    AccDoc.v). *)
From Verif Require Import Base Utf8 Types BinModel Text TextModel TextSim TextToks TextLex TextRead SpecText SpecGram SpecObj SpecList TextGram TextFuel TextLocal TextRun TextEmbed TextObj SpecTok TokLex SpecDoc Doc SpecAcc AccBase SpecRonAcc.
Local Open Scope N_scope.

(** ** Kinds of tokens *)
Section Kinds.
  Variable F : flt.
  Notation kd := (kd F Ron).
  Notation kh := (kh F Ron).
  Notation good := (good F Ron).
  Notation tof := (tok_of F Ron).

  Lemma kd_inv x : match kd x with
    | KComma => x = XP 44 | KColon => x = XP 58 | KBlockOpen => x = XP 91 | KBlockClose => x = XP 93 | KCurlyOpen => x = XP 123 | KCurlyClose => x = XP 125
    | KParenOpen => x = XP 40 | KParenClose => x = XP 41
    | KStr => exists b s, x = XS b s | KIdent => exists w, x = XW w /\ a_name w | KBool b => x = XW (if b then chars "true" else chars "false")
    | KU64 _ | KI64 _ | KF64 _ => exists s, x = XN s | _ => kd x = KEof end.
  Proof.
    unfold AccBase.kd. destruct x as [p|w|s|b s]; cbn [tok_of].
    - unfold punct. destruct (p =? c_colon) eqn:E1; [apply N.eqb_eq in E1; subst; reflexivity|]. destruct (p =? c_comma) eqn:E2; [apply N.eqb_eq in E2; subst; reflexivity|].
      destruct (p =? c_lbr) eqn:E3; [apply N.eqb_eq in E3; subst; reflexivity|]. destruct (p =? c_rbr) eqn:E4; [apply N.eqb_eq in E4; subst; reflexivity|].
      destruct (p =? c_lcur) eqn:E5; [apply N.eqb_eq in E5; subst; reflexivity|]. destruct (p =? c_rcur) eqn:E6; [apply N.eqb_eq in E6; subst; reflexivity|].
      destruct (p =? c_lpar) eqn:E7; [apply N.eqb_eq in E7; subst; reflexivity|]. destruct (p =? c_rpar) eqn:E8; [apply N.eqb_eq in E8; subst; reflexivity|]. reflexivity.
    - unfold id_tok. destruct (str_eqb w (chars "true")) eqn:E1; [apply str_eqb_eq in E1; subst; reflexivity|].
      destruct (str_eqb w (chars "false")) eqn:E2; [apply str_eqb_eq in E2; subst; reflexivity|]. cbn [ltok_kind]. exists w. split; [reflexivity|].
      split; intros ->; discriminate.
    - destruct (scan_num s) as [[b0 r0] f0]. unfold num_tok. destruct f0; [destruct (f64_parse F b0); cbn; eauto|].
      destruct (cur b0 =? c_minus); [destruct (parse_i64 b0); cbn; eauto | destruct (parse_u64 b0); cbn; eauto].
    - cbn. eauto.
  Qed.
  Lemma tof_name w : a_name w -> tof (XW w) = LId w.
  Proof.
    intros [H1 H2]. cbn [tok_of]. unfold id_tok. destruct (str_eqb w (chars "true")) eqn:E1; [apply str_eqb_eq in E1; contradiction|].
    destruct (str_eqb w (chars "false")) eqn:E2; [apply str_eqb_eq in E2; contradiction|]. reflexivity.
  Qed.
  Lemma kd_comma x : kd x = KComma <-> x = XP 44. Proof. split; [intro H; pose proof (kd_inv x) as Q; rewrite H in Q; exact Q | intros ->; reflexivity]. Qed.
  Lemma kd_colon x : kd x = KColon <-> x = XP 58. Proof. split; [intro H; pose proof (kd_inv x) as Q; rewrite H in Q; exact Q | intros ->; reflexivity]. Qed.
  Lemma kd_lbr x : kd x = KBlockOpen <-> x = XP 91. Proof. split; [intro H; pose proof (kd_inv x) as Q; rewrite H in Q; exact Q | intros ->; reflexivity]. Qed.
  Lemma kd_rbr x : kd x = KBlockClose <-> x = XP 93. Proof. split; [intro H; pose proof (kd_inv x) as Q; rewrite H in Q; exact Q | intros ->; reflexivity]. Qed.
  Lemma kd_lcur x : kd x = KCurlyOpen <-> x = XP 123. Proof. split; [intro H; pose proof (kd_inv x) as Q; rewrite H in Q; exact Q | intros ->; reflexivity]. Qed.
  Lemma kd_rcur x : kd x = KCurlyClose <-> x = XP 125. Proof. split; [intro H; pose proof (kd_inv x) as Q; rewrite H in Q; exact Q | intros ->; reflexivity]. Qed.
  Lemma kd_lpar x : kd x = KParenOpen <-> x = XP 40. Proof. split; [intro H; pose proof (kd_inv x) as Q; rewrite H in Q; exact Q | intros ->; reflexivity]. Qed.
  Lemma kd_rpar x : kd x = KParenClose <-> x = XP 41. Proof. split; [intro H; pose proof (kd_inv x) as Q; rewrite H in Q; exact Q | intros ->; reflexivity]. Qed.
  Lemma kd_ident x : kd x = KIdent <-> exists w, x = XW w /\ a_name w.
  Proof. split; [intro H; pose proof (kd_inv x) as Q; rewrite H in Q; exact Q | intros (w & -> & Hw); unfold AccBase.kd; rewrite (tof_name w Hw); reflexivity]. Qed.
  Lemma kd_str x : kd x = KStr <-> exists b s, x = XS b s. Proof. split; [intro H; pose proof (kd_inv x) as Q; rewrite H in Q; exact Q | intros (b & s & ->); reflexivity]. Qed.
  Lemma kd_bool x b : kd x = KBool b <-> x = XW (if b then chars "true" else chars "false").
  Proof. split; [intro H; pose proof (kd_inv x) as Q; rewrite H in Q; exact Q | intros ->; destruct b; reflexivity]. Qed.

  (** ** Numbers *)
  Lemma unplus_cases s : s = unplus s \/ s = 43 :: unplus s.
  Proof. destruct s as [|x s]; [left; reflexivity|]. cbn [unplus]. destruct (x =? 43) eqn:E; [apply N.eqb_eq in E; subst; auto | auto]. Qed.
  Lemma num_good s : good (XN s) -> exists t, tof (XN s) = LP t /\
    (num_value F (unplus s) t /\ (forall b, t <> KF64 b) \/ exists b, t = KF64 b /\ f64_parse F s = Some b /\ (In 46 s \/ In 101 s \/ In 69 s)).
  Proof.
    intros (r & sg & ip & fr & ex & -> & Hp & _ & Hv). destruct (tok_of_num F Ron _ _ _ _ Hp Hv) as (t & Ht & ->). exists t. split; [reflexivity|].
    destruct Hp as (Hsg & Hip & Hfr & Hex & _). destruct fr as [|y fr]; [destruct ex as [|z ex]|].
    - left. rewrite !app_nil_r in *. cbn [floaty] in Ht. cbn [literal_value] in Hv. destruct Hv as [Hne Hv].
      assert (Ha : all_digits ip) by (split; [exact Hne | exact Hip]). pose proof Hip as Hb. apply digits_b in Hb.
      destruct ip as [|d ip]; [congruence|].
      assert (Hd : d <> 45 /\ d <> 43) by (inversion Hip; subst; lia). destruct Hd as [Hd1 Hd2]. apply N.eqb_neq in Hd1, Hd2.
      unfold num_tok in Ht. destruct Hsg as [-> | [-> | ->]]; cbn [app cur] in Ht; cbn [str_eqb] in Hv.
      + unfold c_minus in Ht. rewrite Hd1 in Ht. unfold parse_u64 in Ht. unfold c_plus in Ht. rewrite Hd2, Hb, <- decimal_val in Ht. cbn [andb] in Ht.
        destruct (decimal (d :: ip) <? 2 ^ 64) eqn:E; [|discriminate]. injection Ht as <-. apply N.ltb_lt in E. cbn [app unplus]. rewrite Hd2. split; [|discriminate].
        exists [], (d :: ip), [], []. rewrite app_nil_r. split; [reflexivity|]. split; [split; [auto|split; [exact Ha | auto]]|]. split; [intros []|]. auto.
      + change (45 =? c_minus) with true in Ht. cbn iota in Ht. unfold parse_i64 in Ht. change (45 =? c_minus) with true in Ht. rewrite Hb, <- decimal_val in Ht. cbn [andb] in Ht.
        destruct (decimal (d :: ip) <=? 2 ^ 63) eqn:E; [|discriminate]. injection Ht as <-. apply N.leb_le in E. cbn [app unplus]. change (45 =? 43) with false. cbn iota. split; [|discriminate].
        exists [45], (d :: ip), [], []. rewrite app_nil_r. split; [reflexivity|]. split; [split; [auto|split; [exact Ha | auto]]|]. split; [intros []|]. auto.
      + change (43 =? c_minus) with false in Ht. cbn iota in Ht. unfold parse_u64 in Ht. change (43 =? c_plus) with true in Ht. cbn iota in Ht. rewrite Hb, <- decimal_val in Ht. cbn [andb] in Ht.
        destruct (decimal (d :: ip) <? 2 ^ 64) eqn:E; [|discriminate]. injection Ht as <-. apply N.ltb_lt in E. cbn [app unplus]. change (43 =? 43) with true. cbn iota. split; [|discriminate].
        exists [], (d :: ip), [], []. rewrite app_nil_r. split; [reflexivity|]. split; [split; [auto|split; [exact Ha | auto]]|]. split; [intros []|]. auto.
    - right. cbn [floaty] in Ht. unfold num_tok in Ht. destruct (f64_parse F _) as [b|] eqn:E; [|discriminate]. injection Ht as <-. exists b. split; [reflexivity|]. split; [reflexivity|].
      right. destruct Hex as [|(e & m & d & -> & He & _)]; [discriminate|]. rewrite !in_app_iff. cbn [In]. destruct He; tauto.
    - right. cbn [floaty] in Ht. unfold num_tok in Ht. destruct (f64_parse F _) as [b|] eqn:E; [|discriminate]. injection Ht as <-. exists b. split; [reflexivity|]. split; [reflexivity|].
      left. destruct Hfr as [|(d & -> & _)]; [discriminate|]. rewrite !in_app_iff. cbn [In]. tauto.
  Qed.
  Lemma float_not_int s sg d : In 46 s \/ In 101 s \/ In 69 s -> ~ int_literal (unplus s) sg d.
  Proof.
    intros Hin (E & Hsg & _ & Hd). assert (Hi : forall x, In x s -> x = 43 \/ x = 45 \/ 48 <= x <= 57).
    { intros x Hx. assert (Hx' : x = 43 \/ In x (unplus s)).
      { destruct (unplus_cases s) as [Q|Q]; rewrite Q in Hx; [auto|]. destruct Hx as [Hx|Hx]; auto. }
      destruct Hx' as [->|Hx']; [auto|]. rewrite E, in_app_iff in Hx'. destruct Hx' as [Hx'|Hx'].
      - destruct Hsg as [-> | ->]; [contradiction|]. destruct Hx' as [<-|[]]. auto.
      - rewrite Forall_forall in Hd. specialize (Hd _ Hx'). auto. }
    destruct Hin as [H|[H|H]]; apply Hi in H; lia.
  Qed.
  Variable c : cfg.
  Lemma num_int s t k z : good (XN s) -> kd (XN s) = t -> k <> U128 -> k <> I128 -> (int_of_tok c k t = Some z <-> int_lit c k s z).
  Proof.
    intros Hg Ht K1 K2. destruct (num_good s Hg) as (t' & E & H). unfold AccBase.kd in Ht. rewrite E in Ht. cbn [ltok_kind] in Ht. subst t'. unfold int_lit.
    destruct H as [[Hv _]|(b & -> & _ & Hin)]; [apply (int_of_tok_means F c k _ _ _ K1 K2 Hv)|]. split.
    - unfold int_of_tok. destruct (ik_signed k); discriminate.
    - intros (_ & _ & _ & sg & d & Hl & _). exfalso. exact (float_not_int s sg d Hin Hl).
  Qed.
  Lemma num_dbl s t b : good (XN s) -> kd (XN s) = t -> (double_of_tok F t = Some b <-> double_lit F s b).
  Proof.
    intros Hg Ht. destruct (num_good s Hg) as (t' & E & H). unfold AccBase.kd in Ht. rewrite E in Ht. cbn [ltok_kind] in Ht. subst t'. unfold double_lit.
    destruct H as [[Hv Hk]|(b' & -> & Hf & Hin)].
    - pose proof (Doc.tok_literal F _ _ Hv) as Hl. assert (Hl' : exists sg d, int_literal (unplus s) sg d) by (destruct t; try contradiction; try exact Hl; congruence).
      destruct Hl' as (sg & d & Hd). pose proof (Doc.literal_tok F _ _ _ _ Hv Hd) as Q. split.
      + intro H. left. exists sg, d. split; [exact Hd|]. destruct sg; destruct Q as [-> _]; cbn in H; injection H as <-; reflexivity.
      + intros [(sg2 & d2 & Hd2 & ->)|[Hin _]]; [|exfalso; exact (float_not_int _ _ _ Hin Hd)].
        pose proof (Doc.literal_tok F _ _ _ _ Hv Hd2) as Q2. destruct sg2; destruct Q2 as [-> _]; reflexivity.
    - cbn [double_of_tok]. split; [intro H; right; split; [exact Hin | congruence]|]. intros [(sg & d & Hd & _)|[_ H]]; [exfalso; exact (float_not_int _ _ _ Hin Hd) | congruence].
  Qed.
  Lemma num_nat s t v : good (XN s) -> kd (XN s) = t -> (t = KU64 v <-> nat_means (unplus s) v).
  Proof.
    intros Hg Ht. destruct (num_good s Hg) as (t' & E & H). unfold AccBase.kd in Ht. rewrite E in Ht. cbn [ltok_kind] in Ht. subst t'.
    destruct H as [[Hv _]|(b & -> & _ & Hin)]; [apply (nat_of_tok F _ _ _ Hv)|]. split; [discriminate|].
    intros [Hd _]. exfalso. apply (float_not_int s [] (unplus s) Hin). split; [reflexivity | auto].
  Qed.
End Kinds.

(** ** Lists in brackets *)
Definition hword (o : option lexeme) : option str := match o with Some (XW w) => Some w | _ => None end.
Inductive run {A} (J : A -> list lexeme -> A -> Prop) : A -> list (list lexeme) -> A -> Prop :=
| run_nil a : run J a [] a
| run_cons a l a1 ls a2 : J a l a1 -> run J a1 ls a2 -> run J a (l :: ls) a2.

Lemma commas_cons l ls : commas (l :: ls) = match ls with [] => l | _ => l ++ xcomma :: commas ls end.
Proof. reflexivity. Qed.

Section Lists.
  Variable F : flt.
  Notation kd := (kd F Ron).
  Notation kh := (kh F Ron).
  Notation r_tok := (r_tok F Ron).
  Notation r_comma := (r_comma F Ron).
  Variables (op cl : N) (kop kcl : tok).
  Hypothesis Hop : forall x, kd x = kop <-> x = XP op.
  Hypothesis Hcl : forall x, kd x = kcl <-> x = XP cl.
  Hypothesis Hne : kcl <> KEof.
  Lemma kh_cl o : kh o = kcl <-> o = Some (XP cl).
  Proof.
    destruct o as [x|]; cbn [AccBase.kh].
    - rewrite Hcl. split; [intros -> ; reflexivity | intro H; injection H; auto].
    - split; [intro H; congruence | discriminate].
  Qed.
  Lemma r_tok_op nx xs u : r_tok kop nx xs u <-> xs = [XP op].
  Proof. unfold AccBase.r_tok. split; [intros (x & -> & H); apply Hop in H; subst; reflexivity | intros ->; exists (XP op); split; [reflexivity | apply Hop; reflexivity]]. Qed.
  Lemma r_tok_cl nx xs u : r_tok kcl nx xs u <-> xs = [XP cl].
  Proof. unfold AccBase.r_tok. split; [intros (x & -> & H); apply Hcl in H; subst; reflexivity | intros ->; exists (XP cl); split; [reflexivity | apply Hcl; reflexivity]]. Qed.
  Lemma r_comma_cl nx xs u : r_comma kcl nx xs u <-> xs = [xcomma] \/ xs = [] /\ nx = Some (XP cl).
  Proof.
    unfold AccBase.r_comma. rewrite kh_cl. split.
    - intros [(x & -> & H)|H]; [apply kd_comma in H; subst; left; reflexivity | auto].
    - intros [-> |H]; [left; exists xcomma; split; [reflexivity | apply kd_comma; reflexivity] | auto].
  Qed.

  Section Loop.
    Context {A : Type}.
    Variables (cnd : option lexeme -> bool) (I : A -> rel A) (J : A -> list lexeme -> A -> Prop).
    Definition item_rel (a : A) : rel A := r_bind (I a) (fun a' => r_bind (r_comma kcl) (fun _ => r_ret a')).
    Hypothesis HI : forall a nx l a', hword nx = None -> (I a nx l a' <-> J a l a').
    Hypothesis Hst : forall a l a', J a l a' -> exists x r, l = x :: r /\ cnd (Some x) = true.
    Hypothesis Hcc : cnd (Some (XP cl)) = false.
    Lemma item_rel_iff a nx xs a' : item_rel a nx xs a' <->
      exists l, J a l a' /\ (xs = l ++ [xcomma] \/ xs = l /\ nx = Some (XP cl)).
    Proof.
      unfold item_rel. split.
      - intros (l & xs2 & a1 & -> & H1 & xs3 & xs4 & [] & -> & H2 & -> & ->). rewrite app_nil_r in *. cbn [hd_of] in H2. apply r_comma_cl in H2.
        exists l. destruct H2 as [-> |[-> ->]].
        + split; [apply HI in H1; [exact H1 | reflexivity] | auto].
        + split; [apply HI in H1; [exact H1 | reflexivity]|]. rewrite app_nil_r. auto.
      - intros (l & H1 & [-> |[-> ->]]).
        + exists l, [xcomma], a'. split; [reflexivity|]. split; [apply HI; [reflexivity | exact H1]|]. exists [xcomma], [], tt. split; [reflexivity|].
          split; [apply r_comma_cl; auto | split; reflexivity].
        + exists l, [], a'. rewrite app_nil_r. split; [reflexivity|]. split; [apply HI; [reflexivity | exact H1]|]. exists [], [], tt. split; [reflexivity|].
          split; [apply r_comma_cl; auto | split; reflexivity].
    Qed.
    Lemma iter_listed a xs a' : iter cnd item_rel a (Some (XP cl)) xs a' <-> exists ls, run J a ls a' /\ listed ls xs.
    Proof.
      split.
      - intro H. remember (Some (XP cl)) as nx eqn:En. induction H as [a nx Hc|a nx xs1 xs2 a1 a2 Hc H1 H2 IH]; subst nx.
        + exists []. split; [constructor | left; reflexivity].
        + destruct (IH eq_refl Hcc) as (ls & Hr & Hl). apply item_rel_iff in H1 as (l & Hj & Hx). exists (l :: ls). split; [econstructor; eassumption|].
          destruct Hx as [-> |[-> Hh]].
          * rewrite <- app_assoc. cbn [app]. destruct ls as [|l2 ls].
            -- destruct Hl as [-> |[Q _]]; [|congruence]. right. split; [discriminate | reflexivity].
            -- destruct Hl as [-> |[_ ->]]; [left; reflexivity|]. right. split; [discriminate|]. change (commas (l :: l2 :: ls)) with (l ++ xcomma :: commas (l2 :: ls)). rewrite <- app_assoc. reflexivity.
          * assert (E2 : xs2 = []) by (inversion H2; subst; [reflexivity | congruence]). subst xs2.
            destruct ls as [|l2 ls].
            -- left. rewrite app_nil_r. reflexivity.
            -- exfalso. assert (Hj2 : exists a3, J a1 l2 a3) by (inversion Hr; eauto). destruct Hj2 as [a3 Hj2]. destruct (Hst _ _ _ Hj2) as (x & r & -> & _).
               destruct Hl as [Hl|[_ Hl]]; rewrite commas_cons in Hl; destruct ls; discriminate Hl.
      - intros (ls & Hr & Hl). revert xs Hl. induction Hr as [a|a l a1 ls a2 Hj Hr IH]; intros xs Hl.
        + destruct Hl as [-> |[Q _]]; [|congruence]. constructor. exact Hcc.
        + destruct (Hst _ _ _ Hj) as (x & r & -> & Hx).
          destruct ls as [|l2 ls].
          * inversion Hr; subst a2. destruct Hl as [-> |[_ ->]].
            -- cbn [commas]. rewrite <- (app_nil_r (x :: r)). eapply it_step; [exact Hx | | constructor; exact Hcc].
               apply item_rel_iff. exists (x :: r). split; [exact Hj|]. right. auto.
            -- cbn [commas]. rewrite <- (app_nil_r ((x :: r) ++ [xcomma])). eapply it_step; [exact Hx | | constructor; exact Hcc].
               apply item_rel_iff. exists (x :: r). split; [exact Hj|]. left. auto.
          * destruct Hl as [-> |[_ ->]].
            -- change (commas ((x :: r) :: l2 :: ls)) with ((x :: r) ++ xcomma :: commas (l2 :: ls)). replace ((x :: r) ++ xcomma :: commas (l2 :: ls)) with (((x :: r) ++ [xcomma]) ++ commas (l2 :: ls)) by (rewrite <- app_assoc; reflexivity).
               eapply it_step; [exact Hx | apply item_rel_iff; exists (x :: r); split; [exact Hj | left; reflexivity] | apply IH; left; reflexivity].
            -- change (commas ((x :: r) :: l2 :: ls)) with ((x :: r) ++ xcomma :: commas (l2 :: ls)). replace (((x :: r) ++ xcomma :: commas (l2 :: ls)) ++ [xcomma]) with (((x :: r) ++ [xcomma]) ++ commas (l2 :: ls) ++ [xcomma]) by (rewrite <- !app_assoc; reflexivity).
               eapply it_step; [exact Hx | apply item_rel_iff; exists (x :: r); split; [exact Hj | left; reflexivity] | apply IH; right; split; [discriminate | reflexivity]].
    Qed.
    (** The whole, with a last step. *)
    Context {B : Type}.
    Variable ok : A -> B -> Prop.
    Lemma bracketed_iff a0 nx xs v :
      r_bind (r_tok kop) (fun _ => r_bind (iter cnd item_rel a0) (fun a => r_bind (r_tok kcl) (fun _ _ xs v => xs = [] /\ ok a v))) nx xs v <->
      exists ls ys a, run J a0 ls a /\ listed ls ys /\ xs = between op cl ys /\ ok a v.
    Proof.
      split.
      - intros (x1 & x2 & [] & -> & H1 & x3 & x4 & a & -> & H2 & x5 & x6 & [] & -> & H3 & -> & Ho). rewrite app_nil_r in *. apply r_tok_op in H1. apply r_tok_cl in H3. subst.
        cbn [hd_of] in H2. apply iter_listed in H2 as (ls & Hr & Hl). exists ls, x3, a. auto.
      - intros (ls & ys & a & Hr & Hl & -> & Ho). exists [XP op], (ys ++ [XP cl]), tt. split; [reflexivity|]. split; [apply r_tok_op; reflexivity|].
        exists ys, [XP cl], a. split; [reflexivity|]. split; [apply iter_listed; eauto|]. exists [XP cl], [], tt. split; [reflexivity|]. split; [apply r_tok_cl; reflexivity | auto].
    Qed.
  End Loop.

  (** A fixed number of items. *)
  Section Fixed.
    Context {T : Type}.
    Variables (J : T -> list lexeme -> val -> Prop).
    Hypothesis Hst : forall t l v, J t l v -> exists x r, l = x :: r /\ x <> XP cl.
    Definition one_rel (t : T) : rel val := fun nx xs v => exists l, J t l v /\ (xs = l ++ [xcomma] \/ xs = l /\ nx = Some (XP cl)).
    Inductive all_rel : list T -> rel (list val) :=
    | ar_nil nx : all_rel [] nx [] []
    | ar_cons t ts nx xs1 xs2 v vs : one_rel t (hd_of xs2 nx) xs1 v -> all_rel ts nx xs2 vs -> all_rel (t :: ts) nx (xs1 ++ xs2) (v :: vs).
    Inductive each_item : list T -> list (list lexeme) -> list val -> Prop :=
    | ei_nil : each_item [] [] []
    | ei_cons t l v ts ls vs : J t l v -> each_item ts ls vs -> each_item (t :: ts) (l :: ls) (v :: vs).
    Lemma all_listed ts xs vs : all_rel ts (Some (XP cl)) xs vs <-> exists ls, each_item ts ls vs /\ listed ls xs.
    Proof.
      split.
      - intro H. remember (Some (XP cl)) as nx eqn:En. induction H as [nx|t ts nx xs1 xs2 v vs H1 H2 IH]; subst nx.
        + exists []. split; [constructor | left; reflexivity].
        + destruct (IH eq_refl) as (ls & Hr & Hl). destruct H1 as (l & Hj & Hx). exists (l :: ls). split; [econstructor; eassumption|].
          destruct Hx as [-> |[-> Hh]].
          * rewrite <- app_assoc. cbn [app]. destruct ls as [|l2 ls].
            -- destruct Hl as [-> |[Q _]]; [|congruence]. right. split; [discriminate | reflexivity].
            -- destruct Hl as [-> |[_ ->]]; [left; reflexivity|]. right. split; [discriminate|]. change (commas (l :: l2 :: ls)) with (l ++ xcomma :: commas (l2 :: ls)). rewrite <- app_assoc. reflexivity.
          * destruct ls as [|l2 ls].
            -- destruct Hl as [-> |[Q _]]; [|congruence]. left. rewrite app_nil_r. reflexivity.
            -- exfalso. assert (Hj2 : exists t3 v3, J t3 l2 v3) by (inversion Hr; eauto). destruct Hj2 as (t3 & v3 & Hj2). destruct (Hst _ _ _ Hj2) as (x & r & -> & Hne2). apply Hne2.
               destruct Hl as [Hl|[_ Hl]]; rewrite commas_cons in Hl; destruct ls; subst xs2; cbn in Hh; congruence.
      - intros (ls & Hr & Hl). revert xs Hl. induction Hr as [|t l v ts ls vs Hj Hr IH]; intros xs Hl.
        + destruct Hl as [-> |[Q _]]; [|congruence]. constructor.
        + destruct ls as [|l2 ls].
          * inversion Hr; subst. destruct Hl as [-> |[_ ->]].
            -- cbn [commas]. rewrite <- (app_nil_r l). econstructor; [exists l; split; [exact Hj | right; auto] | constructor].
            -- cbn [commas]. rewrite <- (app_nil_r (l ++ [xcomma])). econstructor; [exists l; split; [exact Hj | left; auto] | constructor].
          * destruct Hl as [-> |[_ ->]].
            -- change (commas (l :: l2 :: ls)) with (l ++ xcomma :: commas (l2 :: ls)). replace (l ++ xcomma :: commas (l2 :: ls)) with ((l ++ [xcomma]) ++ commas (l2 :: ls)) by (rewrite <- app_assoc; reflexivity).
               econstructor; [exists l; split; [exact Hj | left; reflexivity] | apply IH; left; reflexivity].
            -- change (commas (l :: l2 :: ls)) with (l ++ xcomma :: commas (l2 :: ls)). replace ((l ++ xcomma :: commas (l2 :: ls)) ++ [xcomma]) with ((l ++ [xcomma]) ++ commas (l2 :: ls) ++ [xcomma]) by (rewrite <- !app_assoc; reflexivity).
               econstructor; [exists l; split; [exact Hj | left; reflexivity] | apply IH; right; split; [discriminate | reflexivity]].
    Qed.
    Lemma fixed_iff ts nx xs vs :
      r_bind (r_tok kop) (fun _ => r_bind (all_rel ts) (fun a => r_bind (r_tok kcl) (fun _ => r_ret a))) nx xs vs <->
      exists ls ys, each_item ts ls vs /\ listed ls ys /\ xs = between op cl ys.
    Proof.
      split.
      - intros (x1 & x2 & [] & -> & H1 & x3 & x4 & a & -> & H2 & x5 & x6 & [] & -> & H3 & -> & ->). rewrite app_nil_r in *. apply r_tok_op in H1. apply r_tok_cl in H3. subst.
        cbn [hd_of] in H2. apply all_listed in H2 as (ls & Hr & Hl). exists ls, x3. auto.
      - intros (ls & ys & Hr & Hl & ->). exists [XP op], (ys ++ [XP cl]), tt. split; [reflexivity|]. split; [apply r_tok_op; reflexivity|].
        exists ys, [XP cl], vs. split; [reflexivity|]. split; [apply all_listed; eauto|]. exists [XP cl], [], tt. split; [reflexivity|]. split; [apply r_tok_cl; reflexivity | split; reflexivity].
    Qed.
  End Fixed.
End Lists.

(** ** Structs *)
Lemma set_nth_same {A} (y : A) : forall l i, (i < length l)%nat -> nth_error (set_nth i y l) i = Some y.
Proof. induction l as [|a l IH]; intros i H; [cbn in H; lia|]. destruct i; [reflexivity|]. cbn [set_nth nth_error]. apply IH. cbn in H. lia. Qed.
Lemma set_nth_other {A} (y : A) : forall l i j, j <> i -> nth_error (set_nth i y l) j = nth_error l j.
Proof. induction l as [|a l IH]; intros i j H; [destruct i; reflexivity|]. destruct i, j; try reflexivity; [congruence|]. cbn [set_nth nth_error]. apply IH. congruence. Qed.
Lemma set_nth_length {A} (y : A) : forall l i, length (set_nth i y l) = length l.
Proof. induction l as [|a l IH]; intros [|i]; cbn [set_nth length]; auto. Qed.
Lemma nth_ext {A} : forall l l' : list A, length l = length l' -> (forall i, (i < length l)%nat -> nth_error l i = nth_error l' i) -> l = l'.
Proof.
  induction l as [|a l IH]; intros [|b l'] Hl H; try discriminate Hl; [reflexivity|].
  pose proof (H O ltac:(cbn; lia)) as H0. cbn in H0. injection H0 as ->. f_equal. apply IH; [cbn in Hl; lia|]. intros i Hi. apply (H (S i)). cbn. lia.
Qed.

Section Fields.
  Variable X0 : ty -> list lexeme -> val -> Prop.
  Variables (dflt : bool) (fs : list field).
  Hypothesis Hu : distinct_fields fs.
  Notation key := key_of_field.
  Definition mem_step (acc : list (option val)) (l : list lexeme) (acc' : list (option val)) : Prop :=
    exists k ys i f v, a_name k /\ l = XW k :: xcolon :: ys /\ find_field k fs 0 = Some (i, f) /\
      field_means X0 f ys v /\ acc' = set_nth i (Some v) acc.
  Definition aokx (ms : list (str * list lexeme)) (f : field) (o : option val) : Prop :=
    match o with
    | Some w => f_skip f = false /\ exists d, last_named (key f) d ms /\ field_means X0 f d w
    | None => f_skip f = true \/ ~ In (key f) (map fst ms)
    end.
  Lemma last_named_other k d pre k' d' : last_named k d pre -> k' <> k -> last_named (doc := list lexeme) k d (pre ++ [(k', d')]).
  Proof.
    intros (a & b & -> & Hb) Hne. exists a, (b ++ [(k', d')]). split; [rewrite <- app_assoc; reflexivity|].
    rewrite map_app, in_app_iff. cbn. intros [H|[H|[]]]; congruence.
  Qed.
  Lemma aokx_other pre k x f o : aokx pre f o -> (f_skip f = false -> key f <> k) -> aokx (pre ++ [(k, x)]) f o.
  Proof.
    intros H Hne. destruct o as [w|].
    - destruct H as (Hs & y & Hl & He). split; [exact Hs|]. exists y. split; [|exact He]. apply last_named_other; [exact Hl|]. intro Q. exact (Hne Hs (eq_sym Q)).
    - destruct H as [H|H]; [left; exact H|]. destruct (f_skip f) eqn:Es; [left; exact Es|]. right. rewrite map_app, in_app_iff. cbn.
      intros [Q|[Q|[]]]; [exact (H Q)|]. exact (Hne eq_refl (eq_sym Q)).
  Qed.
  Definition mem_ok (m : str * list lexeme) : Prop :=
    (forall f, In f fs -> f_skip f = false -> key f = fst m -> exists w, field_means X0 f (snd m) w) /\
    (exists f, In f fs /\ f_skip f = false /\ key f = fst m).
  Lemma mem_step_ok pre acc l acc' : Forall2 (aokx pre) fs acc -> mem_step acc l acc' ->
    exists m, rmember_toks m l /\ Forall2 (aokx (pre ++ [m])) fs acc' /\ mem_ok m.
  Proof.
    intros Ha (k & ys & i & f & v & Hw & -> & Ef & He & ->). exists (k, ys). split; [split; [exact Hw | reflexivity]|]. unfold mem_ok. cbn [fst snd].
    destruct (find_field_spec _ _ _ _ _ Ef) as (p & -> & Hp & Hs & Hk). cbn [Nat.add]. split; [|split].
    - eapply Forall2_set; [exact Ha| |].
      + intros q a o Hq Hne Hab. apply aokx_other; [exact Hab|]. intros Hs2 Hk2. apply Hne. eapply (unique_pos fs Hu); [exact Hq | exact Hp | exact Hs2 | exact Hs | congruence].
      + intros a Hq. replace a with f by congruence. split; [exact Hs|]. exists ys. split; [|exact He]. exists pre, []. rewrite Hk. split; [reflexivity | intros []].
    - intros g Hg Hs2 Hk2. apply In_nth_error in Hg as [q Hq]. assert (q = p) by (eapply (unique_pos fs Hu); [exact Hq | exact Hp | exact Hs2 | exact Hs | congruence]).
      subst q. replace g with f by congruence. eauto.
    - exists f. split; [eapply nth_error_In; exact Hp | auto].
  Qed.
  Lemma run_ok ls acc acc' : run mem_step acc ls acc' -> forall pre, Forall2 (aokx pre) fs acc ->
    exists ms, Forall2 rmember_toks ms ls /\ Forall2 (aokx (pre ++ ms)) fs acc' /\ Forall mem_ok ms.
  Proof.
    induction 1 as [acc|acc l acc1 ls acc2 H1 H2 IH]; intros pre Ha.
    - exists []. rewrite app_nil_r. auto.
    - destruct (mem_step_ok _ _ _ _ Ha H1) as (m & Hm & Ha1 & Ho). destruct (IH _ Ha1) as (ms & Hms & Ha2 & Hos).
      exists (m :: ms). rewrite <- app_assoc in Ha2. auto.
  Qed.
  Definition done (acc : list (option val)) (vs : list val) : Prop := Forall2 (fun p v => uw dflt (fst p) (snd p) = Some v) (combine fs acc) vs.
  Lemma aokx_value ms f o v : aokx ms f o -> uw dflt f o = Some v -> field_from X0 dflt ms f v.
  Proof.
    unfold uw, field_from. intro H. destruct (f_skip f) eqn:Es; [intro Q; injection Q as <-; reflexivity|].
    destruct o as [w|]; cbn [aokx] in H.
    - destruct H as (_ & d & Hl & He). intro Q. injection Q as <-. left. eauto.
    - destruct H as [H|H]; [congruence|]. intro Q. right. split; [exact H | exact Q].
  Qed.
  Lemma aokx_values ms : forall gs acc vs, Forall2 (aokx ms) gs acc -> Forall2 (fun p v => uw dflt (fst p) (snd p) = Some v) (combine gs acc) vs -> Forall2 (field_from X0 dflt ms) gs vs.
  Proof.
    induction gs as [|f gs IH]; intros acc vs Ha Hd; inversion Ha as [|? o ? acc' H1 H2]; subst; cbn [combine] in Hd; inversion Hd as [|? v ? vs' Hv Hvs]; subst; constructor.
    - eapply aokx_value; [exact H1 | exact Hv].
    - eapply IH; [exact H2 | exact Hvs].
  Qed.
  Lemma start_ok : Forall2 (aokx []) fs (map (fun _ => None) fs).
  Proof. clear Hu. induction fs; constructor; [right; intros []|assumption]. Qed.

  (** The other way. *)
  Definition inb (k : str) (ks : list str) : {In k ks} + {~ In k ks}.
  Proof. apply in_dec. unfold str. apply list_eq_dec, N.eq_dec. Defined.
  Definition target (ms : list (str * list lexeme)) (acct : list (option val)) : Prop :=
    forall i f, nth_error fs i = Some f -> f_skip f = false -> In (key f) (map fst ms) ->
      exists d v, last_named (key f) d ms /\ field_means X0 f d v /\ nth_error acct i = Some (Some v).
  Lemma run_to : forall ms ls, Forall2 rmember_toks ms ls -> forall acc acct, length acc = length fs -> length acct = length fs -> Forall mem_ok ms -> target ms acct ->
    (forall i f, nth_error fs i = Some f -> f_skip f = true \/ ~ In (key f) (map fst ms) -> nth_error acc i = nth_error acct i) ->
    run mem_step acc ls acct.
  Proof.
    induction 1 as [|[k d] l ms ls Hm Hms IH]; intros acc acct L1 L2 Ho Ht Hag.
    - replace acct with acc; [constructor|]. apply nth_ext; [congruence|]. intros i Hi. destruct (nth_error fs i) as [f|] eqn:Ef; [|apply nth_error_None in Ef; lia].
      apply (Hag i f Ef). right. intros [].
    - destruct Hm as [Hwd ->]. cbn [fst snd] in *. inversion Ho as [|? ? [O1 O2] Ho']; subst. cbn [fst snd] in *.
      assert (Ht' : target ms acct).
      { intros i f Hi Hs Hin. destruct (Ht i f Hi Hs) as (d' & v & Hl & Hf & Hn); [right; exact Hin|]. exists d', v. split; [|auto].
        destruct Hl as (pre & post & E & Hp). destruct pre as [|q pre]; cbn [app] in E; [injection E as Q1 Q2 E | injection E as Q1 E; exists pre, post; auto]. exfalso. apply Hp. rewrite <- E. exact Hin. }
      destruct (find_field k fs 0) as [[i f]|] eqn:Ef.
      + destruct (find_field_spec _ _ _ _ _ Ef) as (p & -> & Hp & Hs & Hk). cbn [Nat.add] in *.
        assert (Hw : exists w, field_means X0 f d w /\ (~ In k (map fst ms) -> nth_error acct p = Some (Some w))).
        { destruct (inb k (map fst ms)) as [Hin|Hin].
          - destruct (O1 f) as [w Hw]; [eapply nth_error_In; exact Hp | exact Hs | exact Hk|]. exists w. split; [exact Hw | contradiction].
          - destruct (Ht p f Hp Hs) as (d' & v & Hl & Hf & Hn); [left; auto|]. exists v. split; [|auto]. replace d with d'; [exact Hf|].
            destruct Hl as (pre & post & E & Hpo). destruct pre as [|q pre]; cbn [app] in E; [injection E as Q1 Q2 E; congruence|injection E as Q1 E]. exfalso. apply Hin. rewrite E, map_app, in_app_iff. right. left. exact Hk. }
        destruct Hw as (w & Hw & Hl). econstructor.
        * exists k, d, p, f, w. split; [exact Hwd|]. split; [reflexivity|]. split; [exact Ef|]. split; [exact Hw | reflexivity].
        * apply IH; [rewrite set_nth_length; exact L1 | exact L2 | exact Ho' | exact Ht'|]. intros j g Hj Hg. destruct (Nat.eq_dec j p) as [->|Hne].
          -- assert (Hpl : (p < length acc)%nat) by (rewrite L1; apply nth_error_Some; congruence). rewrite set_nth_same by exact Hpl. assert (g = f) by congruence. subst g.
             destruct Hg as [Hg|Hg]; [congruence|]. rewrite Hl; [reflexivity | rewrite <- Hk; exact Hg].
          -- rewrite set_nth_other by exact Hne. apply (Hag j g Hj). destruct (f_skip g) eqn:Eg; [left; reflexivity|]. right. destruct Hg as [Hg|Hg]; [congruence|].
             intros [Q|Q]; [|exact (Hg Q)]. apply Hne. eapply (unique_pos fs Hu); [exact Hj | exact Hp | exact Eg | exact Hs | cbn [fst] in Q; congruence].
      + exfalso. destruct O2 as (g & Hg & Hs & Hk). apply (find_field_none _ _ _ Ef). exists g. auto.
  Qed.
  Definition pick (ms : list (str * list lexeme)) (f : field) (v : val) : option val :=
    if f_skip f then None else if inb (key f) (map fst ms) then Some v else None.
  Lemma pick_nth ms : forall gs vs i f, length vs = length gs -> nth_error gs i = Some f ->
    exists v, nth_error vs i = Some v /\ nth_error (map (fun p => pick ms (fst p) (snd p)) (combine gs vs)) i = Some (pick ms f v).
  Proof.
    induction gs as [|g gs IH]; intros vs i f Hl Hi; [destruct i; discriminate|]. destruct vs as [|v vs]; [discriminate|]. destruct i as [|i].
    - injection Hi as ->. exists v. split; reflexivity.
    - cbn [nth_error combine map]. apply IH; [cbn in Hl; lia | exact Hi].
  Qed.
  Lemma f2_len {A B} (P : A -> B -> Prop) l l' : Forall2 P l l' -> length l' = length l.
  Proof. induction 1; cbn; auto. Qed.
  Lemma f2_at {A B} (P : A -> B -> Prop) l l' : Forall2 P l l' -> forall i a b, nth_error l i = Some a -> nth_error l' i = Some b -> P a b.
  Proof. induction 1; intros [|i] a b Ha Hb; try discriminate; cbn in *; [congruence | eauto]. Qed.
  Lemma pick_done ms : forall gs vs, Forall2 (field_from X0 dflt ms) gs vs ->
    Forall2 (fun p v => uw dflt (fst p) (snd p) = Some v) (combine gs (map (fun p => pick ms (fst p) (snd p)) (combine gs vs))) vs.
  Proof.
    induction 1 as [|f v gs vs H Hr IH]; [constructor|]. cbn [combine map fst snd]. constructor; [|exact IH]. cbn [fst snd]. unfold uw, pick, field_from in *.
    destruct (f_skip f); [rewrite H; reflexivity|]. destruct (inb (key f) (map fst ms)) as [Hin|Hin]; [reflexivity|].
    destruct H as [(d & (pre & post & -> & _) & _)|[_ H]]; [|exact H]. exfalso. apply Hin. rewrite map_app, in_app_iff. right. left. reflexivity.
  Qed.

  Lemma fields_iff ls vs : fs <> [] -> ((exists acc, run mem_step (map (fun _ => None) fs) ls acc /\ length acc = length fs /\ done acc vs) <->
    exists ms, Forall2 rmember_toks ms ls /\ fields_means X0 dflt fs ms vs /\ all_named fs ms).
  Proof.
    intro Hne. split.
    - intros (acc & Hr & _ & Hd). destruct (run_ok _ _ _ Hr [] start_ok) as (ms & Hms & Ha & Ho). exists ms. split; [exact Hms|]. cbn [app] in Ha. rewrite Forall_forall in Ho. split; [split; [|split]|].
      + eapply aokx_values; [exact Ha | exact Hd].
      + intros k d f Hin Hf Hs Hk. apply (proj1 (Ho _ Hin)); assumption.
      + intro Q. contradiction.
      + intros k xs Hin. exact (proj2 (Ho _ Hin)).
    - intros (ms & Hms & (H1 & H2 & _) & H3). pose proof (f2_len _ _ _ H1) as Hl.
      exists (map (fun p => pick ms (fst p) (snd p)) (combine fs vs)).
      assert (Hl2 : length (map (fun p => pick ms (fst p) (snd p)) (combine fs vs)) = length fs) by (rewrite map_length, combine_length; lia).
      split; [|split; [exact Hl2 | apply pick_done; exact H1]].
      apply (run_to ms ls Hms); [apply map_length | exact Hl2 | | |].
      + apply Forall_forall. intros [k d] Hin. split; cbn [fst snd]; [intros f Hf Hs Hk; exact (H2 k d f Hin Hf Hs Hk) | exact (H3 k d Hin)].
      + intros i f Hi Hs Hin. destruct (pick_nth ms fs vs i f Hl Hi) as (v & Hv & Hp). rewrite Hp. pose proof (f2_at _ _ _ H1 i f v Hi Hv) as Hf.
        unfold field_from in Hf. rewrite Hs in Hf. destruct Hf as [(d & Hd & Hf)|[Q _]]; [|contradiction]. exists d, v. split; [exact Hd|]. split; [exact Hf|].
        unfold pick. rewrite Hs. destruct (inb _ _); [reflexivity | contradiction].
      + intros i f Hi Hc. destruct (pick_nth ms fs vs i f Hl Hi) as (v & Hv & Hp). rewrite Hp. rewrite nth_error_map, Hi. cbn [option_map]. unfold pick.
        destruct (f_skip f); [reflexivity|]. destruct (inb _ _) as [Q|Q]; [destruct Hc; [discriminate | contradiction] | reflexivity].
  Qed.
End Fields.

(** ** Scalars *)
Section Scalars.
  Variables (F : flt) (c : cfg).
  Notation L := tok_lexer.
  Notation both := (both F Ron).
  Notation atx := (atx F Ron).
  Notation kd := (kd F Ron).
  Notation good := (good F Ron).

  Lemma both_scalar {A} n (m : @pm tst A) (g : tok -> option A) (ok : lexeme -> A -> Prop) :
    (forall u, match g (l_tok L u) with Some a => m u = pbind (l_next L) (fun _ => pret a) u | None => forall u' a, m u <> (u', Ok a) end) ->
    g KEof = None -> (forall x a, good x -> (g (kd x) = Some a <-> ok x a)) ->
    both n (fun _ => m) (fun _ xs a => exists x, xs = [x] /\ ok x a).
  Proof.
    intros Hm H0 Hok. apply (both_tok F Ron n m ok).
    - intros u x xs b u' a Ha E. specialize (Hm u). rewrite (atx_tok F Ron _ _ _ Ha) in Hm. cbn [head hd_of kh] in Hm.
      assert (Hg : good x) by (destruct Ha as [_ Hg]; inversion Hg; assumption).
      destruct (g (kd x)) as [a1|] eqn:E1; [|exfalso; exact (Hm _ _ E)]. rewrite Hm in E. unfold pbind in E. destruct (l_next L u) as [u1 [r|e|p|]] eqn:En; try discriminate.
      unfold pret in E. injection E as <- <-. destruct (next_inv F Ron _ _ _ _ _ _ Ha En). split; [assumption|]. split; [assumption|]. apply (Hok x a1 Hg). exact E1.
    - intros u b u' a Ha E. specialize (Hm u). rewrite (atx_tok F Ron _ _ _ Ha) in Hm. cbn [head hd_of kh] in Hm. rewrite H0 in Hm. exact (Hm _ _ E).
    - intros u x xs b a Ha Hg Ho. specialize (Hm u). rewrite (atx_tok F Ron _ _ _ Ha) in Hm. cbn [head hd_of kh] in Hm.
      assert (Hgd : good x) by (destruct Ha as [_ Hgd]; inversion Hgd; assumption). apply (Hok x a Hgd) in Ho. rewrite Ho in Hm.
      destruct (next_fwd F Ron _ _ _ _ Ha Hg) as (u' & E & A' & _). exists u'. split; [|exact A']. rewrite Hm. unfold pbind. rewrite E. reflexivity.
  Qed.
  Lemma int_tok_num k t z : int_of_tok c k t = Some z -> match t with KU64 _ | KI64 _ => True | _ => False end.
  Proof. unfold int_of_tok. destruct (ik_signed k), t; try discriminate; auto. Qed.
  Lemma acc_int n k : both n (fun _ => de_int L c k) (fun _ xs v => exists s z, xs = [XN s] /\ v = VZ z /\ int_lit c k s z).
  Proof.
    destruct (ik_eq_dec k U128) as [->|K1]; [apply both_never; [discriminate|]; intros nx xs a (s & z & _ & _ & H & _); congruence|].
    destruct (ik_eq_dec k I128) as [->|K2]; [apply both_never; [discriminate|]; intros nx xs a (s & z & _ & _ & _ & H & _); congruence|].
    eapply both_weak; [apply (both_scalar n _ (fun t => option_map VZ (int_of_tok c k t)) (fun x v => exists s z, x = XN s /\ v = VZ z /\ int_lit c k s z))|].
    - intro u. assert (Ed : de_int L c k = if ik_signed k then pbind (i64_range L (- i_bound k) (i_bound k - 1)) (fun v => pbind (l_next L) (fun _ => pret (VZ (cast c k v))))
        else pbind (u64_range L (u_max k)) (fun v => pbind (l_next L) (fun _ => pret (VZ (cast c k (Z.of_N v)))))) by (destruct k; try reflexivity; congruence).
      rewrite Ed. unfold int_of_tok. destruct (ik_signed k).
      + unfold pbind at 1, i64_range. cbv beta. destruct (l_tok L u) as [| | |n0|z| | | | | | | | | | | | | |] eqn:Et; cbn [option_map]; try (intros u' a; unfold pbind, err_token; rewrite Et; discriminate).
        * destruct (i_bound k - 1 <? u64_as_i64 n0)%Z eqn:E; cbn [option_map].
          -- intros u' a. unfold pbind, perr. rewrite Et, E. discriminate.
          -- unfold pbind. rewrite ?Et, ?E. reflexivity.
        * destruct (z <? - i_bound k)%Z eqn:E; cbn [option_map].
          -- intros u' a. unfold pbind, perr. rewrite Et, E. discriminate.
          -- unfold pbind. rewrite ?Et, ?E. reflexivity.
      + unfold pbind at 1, u64_range. cbv beta. destruct (l_tok L u) as [| | |n0|z| | | | | | | | | | | | | |] eqn:Et; cbn [option_map]; try (intros u' a; unfold pbind, err_token; rewrite Et; discriminate).
        destruct (u_max k <? n0) eqn:E; cbn [option_map].
        * intros u' a. unfold pbind, perr. rewrite Et, E. discriminate.
        * unfold pbind. rewrite ?Et, ?E. reflexivity.
    - unfold int_of_tok. destruct (ik_signed k); reflexivity.
    - intros x a Hg. split.
      + intro H. destruct (int_of_tok c k (kd x)) as [z|] eqn:E; [|discriminate]. injection H as <-. pose proof (int_tok_num _ _ _ E) as Hk.
        pose proof (kd_inv F x) as Q. assert (Hx : exists s, x = XN s) by (destruct (kd x); try contradiction; exact Q). destruct Hx as [s ->].
        exists s, z. split; [reflexivity|]. split; [reflexivity|]. apply (num_int F c s _ k z Hg eq_refl K1 K2). exact E.
      + intros (s & z & -> & -> & H). apply (num_int F c s _ k z Hg eq_refl K1 K2) in H. rewrite H. reflexivity.
    - intros nx xs v. split; [intros (x & -> & s & z & -> & H); eauto | intros (s & z & -> & H); eauto 7].
  Qed.
  Lemma acc_f64 n : both n (fun _ => de_f64 L F) (fun _ xs b => exists s, xs = [XN s] /\ double_lit F s b).
  Proof.
    eapply both_weak; [apply (both_scalar n _ (double_of_tok F) (fun x b => exists s, x = XN s /\ double_lit F s b))|].
    - intro u. unfold de_f64, as_f64, double_of_tok, pbind at 1. destruct (l_tok L u) eqn:E; try (intros u' a; unfold pbind; rewrite ?E; discriminate); unfold pbind; reflexivity.
    - reflexivity.
    - intros x b Hg. split.
      + intro H. pose proof (kd_inv F x) as Q. assert (Hx : exists s, x = XN s) by (destruct (kd x); try discriminate H; exact Q). destruct Hx as [s ->].
        exists s. split; [reflexivity|]. apply (num_dbl F s _ b Hg eq_refl). exact H.
      + intros (s & -> & H). apply (num_dbl F s _ b Hg eq_refl). exact H.
    - intros nx xs v. split; [intros (x & -> & s & -> & H); eauto | intros (s & -> & H); eauto 7].
  Qed.
  Lemma acc_u64 n k : k = U64 \/ k = U32 -> both n (fun _ => de_u64 L k) (fun _ xs v => exists s, xs = [XN s] /\ nat_means (unplus s) v /\ v <= u_max k).
  Proof.
    intro K. eapply both_weak; [apply (both_scalar n _ (fun t => match t with KU64 v => if u_max k <? v then None else Some v | _ => None end) (fun x v => exists s, x = XN s /\ nat_means (unplus s) v /\ v <= u_max k))|].
    - intro u. unfold de_u64, u64_range, pbind at 1. destruct (l_tok L u) as [| | |n0|z| | | | | | | | | | | | | |] eqn:E; try (intros u' a; unfold pbind; rewrite ?E; discriminate).
      destruct (u_max k <? n0) eqn:E2; [intros u' a; unfold pbind, perr; rewrite ?E, ?E2; discriminate | reflexivity].
    - reflexivity.
    - intros x v Hg. split.
      + intro H. pose proof (kd_inv F x) as Q. destruct (kd x) as [| | |w|z| | | | | | | | | | | | | |] eqn:Ek; try discriminate H.
        destruct Q as [s ->]. destruct (u_max k <? w) eqn:E; [discriminate|]. injection H as <-. apply N.ltb_ge in E.
        exists s. split; [reflexivity|]. split; [|exact E]. apply (num_nat F s _ w Hg eq_refl). exact Ek.
      + intros (s & -> & H & Hle). apply (num_nat F s _ v Hg eq_refl) in H. rewrite H. replace (u_max k <? v) with false by (symmetry; apply N.ltb_ge; exact Hle). reflexivity.
    - intros nx xs v. split; [intros (x & -> & s & -> & H); eauto | intros (s & -> & H); eauto 7].
  Qed.
  Lemma acc_bool n : both n (fun _ => de_bool L Ron) (fun _ xs v => xs = [XW (chars "true")] /\ v = VBool true \/ xs = [XW (chars "false")] /\ v = VBool false \/
    exists s m, xs = [XN s] /\ nat_means (unplus s) m /\ v = VBool (negb (m =? 0))).
  Proof.
    eapply both_weak; [apply (both_scalar n _ (fun t => match t with KBool b => Some (VBool b) | KU64 m => Some (VBool (negb (m =? 0))) | _ => None end)
      (fun x v => (exists b, v = VBool b /\ x = XW (if b then chars "true" else chars "false")) \/ exists s m, x = XN s /\ nat_means (unplus s) m /\ v = VBool (negb (m =? 0))))|].
    - intro u. unfold de_bool, as_bool, pbind at 1. destruct (l_tok L u) eqn:E; try (intros u' a; unfold pbind; rewrite ?E; discriminate); unfold pbind; reflexivity.
    - reflexivity.
    - intros x v Hg. split.
      + intro H. pose proof (kd_inv F x) as Q. destruct (kd x) as [| | |w|z| | | | | | | | | | | | | |] eqn:Ek; try discriminate H.
        * injection H as <-. destruct Q as [s ->]. right. exists s, w. split; [reflexivity|]. split; [|reflexivity]. apply (num_nat F s _ w Hg eq_refl). exact Ek.
        * injection H as <-. left. eauto.
      + intros [(b & -> & Hx)|(s & m & -> & Hm & ->)]; [apply kd_bool with (F := F) in Hx; rewrite Hx; reflexivity|].
        apply (num_nat F s _ m Hg eq_refl) in Hm. rewrite Hm. reflexivity.
    - intros nx xs v. split.
      + intros (x & -> & [([|] & -> & ->)|(s & m & -> & H)]); eauto 7.
      + intros [[-> ->]|[[-> ->]|(s & m & -> & H)]]; eexists; (split; [reflexivity|]); [left; exists true | left; exists false | right; exists s, m]; auto.
  Qed.
  Lemma acc_str n : both n (fun _ => de_str L) (fun _ xs v => exists b, xs = [XS b v]).
  Proof.
    eapply both_weak; [apply (both_tok F Ron n _ (fun x v => exists b, x = XS b v))|].
    - intros u x xs b u' a Ha E. unfold de_str, as_string, pbind in E. rewrite (atx_tok F Ron _ _ _ Ha) in E. cbn [head hd_of kh] in E.
      destruct (tok_is (kd x) KStr) eqn:Ek; [|discriminate]. apply tok_is_eq, kd_str in Ek. destruct Ek as (q & s & ->).
      destruct Ha as [[(T1 & T2 & T3) Hr] Hg]. cbn [map tok_of] in *. unfold loaded in T3. rewrite T1 in T3.
      destruct (l_next L (l_take L u)) as [u1 [r|e|p|]] eqn:En; try discriminate. unfold pret in E. injection E as <- <-.
      assert (A' : atx (l_take L u) (XS q [] :: xs) b \/ True) by (right; exact I). clear A'.
      cbn [l_next tok_lexer] in En. pose proof (TextLocal.tok_next_ok (l_take L u) (LStr s) _ b _ _ T1 T2 En) as Hgo.
      destruct (next_raw (l_take L u) (LStr s) _ b T1 T2 Hgo) as (u2 & E2 & A2 & _). rewrite En in E2. injection E2 as <- _.
      split; [apply (goes_go F Ron); exact Hgo|]. split; [|exists q; cbn [l_str tok_lexer]; rewrite T3; reflexivity].
      split; [|inversion Hg; assumption]. split; [exact A2 | apply real_cons in Hr; tauto].
    - intros u b u' a Ha. unfold de_str, as_string, pbind. rewrite (atx_tok F Ron _ _ _ Ha). discriminate.
    - intros u x xs b a [[Ha Hr] Hg] Hgo [q ->]. cbn [map tok_of] in *. apply (goes_go F Ron) in Hgo. destruct (TextRound.str_at u a _ b Ha Hgo) as (u' & E & A').
      exists u'. split; [exact E|]. split; [|inversion Hg; assumption]. split; [exact A' | apply real_cons in Hr; tauto].
    - intros nx xs v. split; [intros (x & -> & b & ->); eauto | intros (b & ->); eauto].
  Qed.
  (** The buffer after a word. *)
  Lemma ib_next u u' a x xs b : atx u (x :: xs) b -> l_next L u = (u', Ok a) -> t_ib u' = match hword (head xs) with Some s => s | None => t_ib u end.
  Proof.
    intros [[(T1 & T2 & T3) Hr] Hg] E. cbn [l_next tok_lexer] in E. cbn [map] in *.
    pose proof (TextLocal.tok_next_ok _ _ _ _ _ _ T1 T2 E) as Hgo.
    destruct (next_raw u _ _ b T1 T2 Hgo) as (u1 & E1 & A1 & S1 & S2). rewrite E in E1. injection E1 as <- _.
    destruct xs as [|y xs]; [exact S2|]. assert (S3 : t_ib u' = ltok_id (tok_of F Ron y) (t_ib u)) by (unfold tok_next in E; rewrite T1 in E; cbn [map] in E; injection E as <- _; reflexivity).
    rewrite S3. clear -Hg. cbn [head hd_of]. inversion Hg as [|? ? _ Hg']; subst. inversion Hg' as [|? ? Hy _]; subst.
    destruct y as [p|w|s|q s].
    - cbn [tok_of hword]. pose proof (kd_inv F (XP p)) as Q. unfold AccBase.kd in Q. cbn [tok_of] in Q. destruct (punct Ron p) as [t|]; [|reflexivity]. cbn [ltok_kind ltok_id] in *. destruct t; try reflexivity; discriminate Q.
    - cbn [hword tok_of]. unfold id_tok. destruct (str_eqb w (chars "true")) eqn:E1; [apply str_eqb_eq in E1; subst; reflexivity|].
      destruct (str_eqb w (chars "false")) eqn:E2; [apply str_eqb_eq in E2; subst; reflexivity|]. reflexivity.
    - cbn [hword]. pose proof (kd_inv F (XN s)) as Q. unfold AccBase.kd in Q. destruct (tok_of F Ron (XN s)) as [z|z|t] eqn:Et; [reflexivity| |].
      + cbn [ltok_kind] in Q. destruct Q as (w & Q & _). discriminate Q.
      + cbn [ltok_kind ltok_id] in *. destruct t; try reflexivity; discriminate Q.
    - reflexivity.
  Qed.
  Lemma ib_at u w xs b : atx u (XW w :: xs) b -> a_name w -> t_ib u = w.
  Proof. intros [[(T1 & _ & T3) _] _] Hw. cbn [map] in T1. rewrite (tof_name F w Hw) in T1. unfold loaded in T3. rewrite T1 in T3. exact T3. Qed.
  (** A name, looked at after advancing. *)
  Definition key_rel : rel str := fun nx xs k => exists w, a_name w /\ xs = [XW w] /\ k = match hword nx with Some s' => s' | None => w end.
  Definition p_key : @pm tst str := pbind (expect L KIdent (chars "Identifier")) (fun _ s1 => (s1, Ok (l_id L s1))).
  Lemma acc_key n : both n (fun _ => p_key) key_rel.
  Proof.
    split.
    - intros u u' a xs0 b Ha E. unfold p_key, pbind, expect in E. rewrite (atx_tok F Ron _ _ _ Ha) in E. destruct (tok_is (kh F Ron (head xs0)) KIdent) eqn:Ek; [|discriminate].
      apply tok_is_eq in Ek. destruct xs0 as [|x xs]; [discriminate|]. cbn [head hd_of kh] in Ek. apply kd_ident in Ek. destruct Ek as (w & -> & Hw).
      destruct (l_next L u) as [u1 [r|e|p|]] eqn:En; try discriminate. injection E as <- <-. pose proof (ib_next _ _ _ _ _ _ Ha En) as Hs. destruct (next_inv F Ron _ _ _ _ _ _ Ha En) as [A' Hg].
      exists [XW w], xs. split; [reflexivity|]. split; [exact A'|]. split; [auto|]. exists w. split; [exact Hw|]. split; [reflexivity|]. cbn [l_id tok_lexer]. rewrite Hs.
      destruct (hword (head xs)); [reflexivity|]. exact (ib_at _ _ _ _ Ha Hw).
    - intros nx xs k (w & Hw & -> & ->). exists O. intros j _ rest b u Hn Hg Ha. cbn [app] in Ha. destruct (next_fwd F Ron _ _ _ _ Ha Hg) as (u1 & E1 & A1 & _).
      pose proof (ib_next _ _ _ _ _ _ Ha E1) as Hs. rewrite Hn in Hs. exists u1. split; [|exact A1]. unfold p_key, pbind, expect. rewrite (atx_tok F Ron _ _ _ Ha). cbn [head hd_of kh].
      assert (Hk : kd (XW w) = KIdent) by (apply kd_ident; eauto). rewrite Hk. cbn [tok_is]. rewrite E1. cbn [l_id tok_lexer]. rewrite Hs. destruct (hword nx); [reflexivity|].
      rewrite (ib_at _ _ _ _ Ha Hw). reflexivity.
  Qed.
  (** The name of a member and the colon, looked at before advancing. *)
  Definition p_name : @pm tst str := fun s => pbind (p_next_colon L) (fun _ => pret (l_id L s)) s.
  Lemma name_inv u u' k xs0 b : atx u xs0 b -> tok_is (l_tok L u) KIdent = true -> p_name u = (u', Ok k) -> exists xs, a_name k /\ xs0 = XW k :: xcolon :: xs /\ atx u' xs b /\ goes xs b.
  Proof.
    intros Ha Ek E. rewrite (atx_tok F Ron _ _ _ Ha) in Ek. apply tok_is_eq in Ek. destruct xs0 as [|x xs]; [discriminate|]. cbn [head hd_of kh] in Ek. apply kd_ident in Ek. destruct Ek as (w & -> & Hw).
    unfold p_name, p_next_colon, pbind, p_colon, expect in E. destruct (l_next L u) as [u1 [r|e|p|]] eqn:En; try discriminate. destruct (next_inv F Ron _ _ _ _ _ _ Ha En) as [A' Hg].
    rewrite (atx_tok F Ron _ _ _ A') in E. destruct (tok_is (kh F Ron (head xs)) KColon) eqn:Ek; [|discriminate]. apply tok_is_eq in Ek. destruct xs as [|y xs]; [discriminate|].
    cbn [head hd_of kh] in Ek. apply kd_colon in Ek. subst y. destruct (l_next L u1) as [u2 [r2|e|p|]] eqn:En2; try discriminate. unfold pret in E. injection E as <- <-.
    destruct (next_inv F Ron _ _ _ _ _ _ A' En2) as [A2 Hg2]. cbn [l_id tok_lexer]. rewrite (ib_at _ _ _ _ Ha Hw). exists xs. split; [exact Hw|]. split; [reflexivity | auto].
  Qed.
  Lemma name_fwd u k xs b : a_name k -> atx u (XW k :: xcolon :: xs) b -> goes xs b -> exists u', p_name u = (u', Ok k) /\ atx u' xs b.
  Proof.
    intros Hw Ha Hg. assert (Hg1 : goes (xcolon :: xs) b) by (left; discriminate). destruct (next_fwd F Ron _ _ _ _ Ha Hg1) as (u1 & E1 & A1 & _).
    destruct (next_fwd F Ron _ _ _ _ A1 Hg) as (u2 & E2 & A2 & _). exists u2. split; [|exact A2]. unfold p_name, p_next_colon, pbind, p_colon, expect. rewrite E1.
    rewrite (atx_tok F Ron _ _ _ A1). cbn [head hd_of kh]. change (kd xcolon) with KColon. cbn [tok_is]. rewrite E2.
    cbn [l_id tok_lexer]. rewrite (ib_at _ _ _ _ Ha Hw). reflexivity.
  Qed.
End Scalars.
