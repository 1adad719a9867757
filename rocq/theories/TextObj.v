(** Objects: the members of the text and the fields of the struct. *)
From Verif Require Import Base Utf8 Types BinModel Text TextModel TextSim TextToks TextLex TextRead SpecText SpecGram TextRound TextGram TextFuel TextLocal TextRun SpecObj TextEmbed.
Local Open Scope N_scope.

(** ** Loops over comma-separated items *)
Lemma eat_open fm close what u o r b : closing close -> at2 fm u (o :: r) b -> wtk (ltok_kind o) = 1%Z -> forall u', eat_comma L close what u <> (u', Ok tt).
Proof.
  intros Hclose Ha Ho u' E. unfold eat_comma in E. rewrite (at2_tok fm _ _ _ _ Ha) in E.
  destruct Hclose as [-> | [-> | ->]]; destruct o as [| |[]]; cbn in *; discriminate.
Qed.
Lemma eat_ok fm close what u tail b u' : closing close -> at2 fm u tail b -> delim tail b -> eat_comma L close what u = (u', Ok tt) ->
  (exists r, tail = LP KComma :: r /\ at2 fm u' r b) \/ (exists r, tail = LP close :: r /\ u' = u).
Proof.
  intros Hclose Ha Hd E. unfold eat_comma in E. destruct tail as [|x r].
  - rewrite (tok_nil fm _ _ Ha) in E. destruct Hclose as [-> | [-> | ->]]; discriminate.
  - rewrite (at2_tok fm _ _ _ _ Ha) in E. destruct (tok_is (ltok_kind x) KComma) eqn:Ec.
    + apply kind_eq in Ec. left. exists r. destruct x; cbn in Ec; try discriminate. subst t. split; [reflexivity|].
      destruct Ha as [(T1 & T2 & T3) Re]. pose proof (tok_next_ok _ _ _ _ _ _ T1 T2 E) as Hg.
      destruct (next_raw u _ r b T1 T2 Hg) as (u1' & En' & A1 & _). cbn [l_next tok_lexer] in E. rewrite E in En'. injection En' as <-.
      split; [exact A1 | apply real_cons in Re; tauto].
    + destruct (tok_is (ltok_kind x) close) eqn:Ek; [|discriminate]. apply kind_eq in Ek. injection E as <-. right. exists r.
      split; [|reflexivity]. f_equal. destruct Hclose as [-> | [-> | ->]]; destruct x; cbn in Ek; congruence.
Qed.
Section Loop2.
  Variable fm : fmt.
  Notation at2 := (at2 fm).
  Notation reads2 := (reads2 fm).
  Context {A I : Type}.
  Variable cond : tst -> bool.
  Variables item body : nat -> A -> @pm tst A.
  Variable close : tok.
  Variable what : str.
  Hypothesis Hbody : forall n a u, body n a u = pbind (item n a) (fun a' => pbind (eat_comma L close what) (fun _ => pret a')) u.
  Hypothesis Hclose : closing close.
  Hypothesis cond_close : forall u tail b, at2 u (LP close :: tail) b -> cond u = false.
  (** Tokens of an item; what it does to the state. *)
  Variable T : I -> list ltok -> Prop.
  Variable R : A -> I -> A -> Prop.
  Hypothesis Hcond : forall i l tail b u, T i l -> at2 u (l ++ tail) b -> cond u = true.
  Inductive chain : A -> list I -> A -> Prop :=
  | chain_nil a : chain a [] a
  | chain_cons a i a1 is a2 : R a i a1 -> chain a1 is a2 -> chain a (i :: is) a2.

  (** *** From the run to the items *)
  Hypothesis Hinv : forall n a i l tail b u u' a', T i l -> delim tail b -> at2 u (l ++ tail) b -> item n a u = (u', Ok a') ->
    (R a i a' /\ at2 u' tail b) \/ (forall u2, eat_comma L close what u' <> (u2, Ok tt)).
  Lemma jt_cons l ls tr rest : exists tl1, jt (l :: ls) tr ++ LP close :: rest = l ++ tl1 /\
    ((ls = [] /\ tr = false /\ tl1 = LP close :: rest) \/ tl1 = LP KComma :: jt ls tr ++ LP close :: rest).
  Proof.
    cbn [jt]. destruct ls as [|y ls].
    - destruct tr; rewrite <- app_assoc; eexists; (split; [reflexivity|]); auto.
    - rewrite <- app_assoc. eexists. split; [reflexivity|]. right. reflexivity.
  Qed.
  Lemma delim_close rest b : delim (LP close :: rest) b.
  Proof. cbn. apply closing_delim. exact Hclose. Qed.
  Lemma loop_inv m n tr is ls : Forall2 T is ls -> forall a a' u u' tail b,
    at2 u (jt ls tr ++ LP close :: tail) b -> while_ m cond (body n) a u = (u', Ok a') -> chain a is a' /\ at2 u' (LP close :: tail) b.
  Proof.
    revert is ls. induction m as [|m IH]; intros is ls Hls a a' u u' tail b Ha E; [discriminate|]. cbn [while_] in E.
    destruct Hls as [|i l is ls Hi Hls].
    - cbn [jt app] in Ha. rewrite (cond_close _ _ _ Ha) in E. injection E as <- <-. split; [constructor | exact Ha].
    - destruct (jt_cons l ls tr tail) as (tl1 & E1 & Ht). rewrite E1 in Ha. rewrite (Hcond _ _ _ _ _ Hi Ha) in E.
      assert (Hd : delim tl1 b) by (destruct Ht as [(_ & _ & ->)| ->]; [apply delim_close | reflexivity]).
      unfold pbind at 1 in E. rewrite Hbody in E. unfold pbind at 1 in E.
      destruct (item n a u) as [u1 [a1|e|p|]] eqn:Ei; try discriminate.
      unfold pbind in E. destruct (eat_comma L close what u1) as [u2 [[]|e|p|]] eqn:Ee; try discriminate. cbn [pret] in E.
      destruct (Hinv _ _ _ _ _ _ _ _ _ Hi Hd Ha Ei) as [[HR A1]|Hno]; [|exfalso; exact (Hno _ Ee)].
      destruct (eat_ok _ _ _ _ _ _ _ Hclose A1 Hd Ee) as [(r & E2 & A2)|(r & E2 & ->)].
      + destruct Ht as [(_ & _ & Ht)|Ht]; rewrite Ht in E2; injection E2 as E2.
        { subst close. destruct Hclose as [Q|[Q|Q]]; discriminate. }
        subst r. destruct (IH is ls Hls _ _ _ _ _ _ A2 E) as [C A3]. split; [econstructor; eassumption | exact A3].
      + destruct Ht as [(-> & -> & Ht)|Ht]; rewrite Ht in E2; injection E2 as E2.
        2:{ exfalso. subst close. destruct Hclose as [Q|[Q|Q]]; discriminate. }
        inversion Hls; subst.
        destruct (IH [] [] (Forall2_nil _) _ _ _ _ r b A1 E) as [C A3]. inversion C; subst. split; [econstructor; [eassumption|constructor] | exact A3].
  Qed.

  (** *** From the items to the run *)
  Hypothesis Hfwd : forall a i l a', T i l -> R a i a' -> exists N, forall n, (N <= n)%nat -> reads2 (item n a) l a'.
  Lemma eat_comma2 u tail b : at2 u (LP KComma :: tail) b -> go_on tail b -> exists u', eat_comma L close what u = (u', Ok tt) /\ at2 u' tail b.
  Proof.
    intros [H Hr] Hg. destruct (eat_comma_comma close what u tail b H Hg) as (u' & E & A1). exists u'. split; [exact E|].
    split; [exact A1|]. apply real_cons in Hr. tauto.
  Qed.
  Lemma loop_fwd tr is ls a a' : chain a is a' -> Forall2 T is ls -> exists N, forall n m, (N <= n)%nat -> (length ls < m)%nat ->
    forall tail b u, at2 u (jt ls tr ++ LP close :: tail) b ->
    exists u', while_ m cond (body n) a u = (u', Ok a') /\ at2 u' (LP close :: tail) b.
  Proof.
    intro C. revert ls. induction C as [a|a i a1 is a2 HR C IH]; intros ls Hls.
    - inversion Hls; subst. exists O. intros n m _ Hm tail b u Ha. destruct m as [|m]; [lia|]. cbn [while_]. cbn [jt app] in Ha.
      rewrite (cond_close _ _ _ Ha). eauto.
    - inversion Hls as [|? l ? ls' Hi Hls']; subst. destruct (IH ls' Hls') as [N1 H1]. destruct (Hfwd _ _ _ _ Hi HR) as [N2 H2].
      exists (Nat.max N1 N2). intros n m Hn Hm tail b u Ha. destruct m as [|m]; [lia|]. cbn [length] in Hm. cbn [while_].
      destruct (jt_cons l ls' tr tail) as (tl1 & E1 & Ht). rewrite E1 in Ha. rewrite (Hcond _ _ _ _ _ Hi Ha).
      assert (Hd : delim tl1 b) by (destruct Ht as [(_ & _ & ->)| ->]; [apply delim_close | reflexivity]).
      destruct (H2 n ltac:(lia) tl1 b u Hd Ha) as (u1 & Eu1 & A1).
      assert (Hx : exists u2, eat_comma L close what u1 = (u2, Ok tt) /\ at2 u2 (jt ls' tr ++ LP close :: tail) b).
      { destruct Ht as [(-> & -> & ->)| ->].
        - exists u1. split; [|exact A1]. eapply eat_comma_close; [exact Hclose | exact (proj1 A1)].
        - apply eat_comma2; [exact A1|]. left. destruct (jt ls' tr); discriminate. }
      destruct Hx as (u2 & E2 & A2).
      unfold pbind at 1. rewrite Hbody. unfold pbind at 1. rewrite Eu1. unfold pbind. rewrite E2. cbn [pret].
      apply H1; [lia | lia | exact A2].
  Qed.
  (** An item that fails after others that do not. *)
  Definition fails {B} (p : @pm tst B) (l : list ltok) (m : tmsg) : Prop :=
    forall tail b u, delim tail b -> at2 u (l ++ tail) b -> exists u' e, p u = (u', Err e) /\ e_reason e = m.
  Lemma loop_fails tr is ls a a' i l post msg : chain a is a' -> Forall2 T is ls -> T i l ->
    (exists N, forall n, (N <= n)%nat -> fails (item n a') l msg) -> exists N, forall n m, (N <= n)%nat -> (length ls < m)%nat ->
    forall tail b u, at2 u (jt (ls ++ l :: post) tr ++ LP close :: tail) b ->
    exists u' e, while_ m cond (body n) a u = (u', Err e) /\ e_reason e = msg.
  Proof.
    intros C Hls Hi [N0 H0]. revert ls Hls. induction C as [a|a i0 a1 is a2 HR C IH]; intros ls Hls.
    - inversion Hls; subst. exists N0. intros n m Hn Hm tail b u Ha. destruct m as [|m]; [lia|]. cbn [while_]. cbn [app] in Ha.
      destruct (jt_cons l post tr tail) as (tl1 & E1 & Ht). rewrite E1 in Ha. rewrite (Hcond _ _ _ _ _ Hi Ha).
      assert (Hd : delim tl1 b) by (destruct Ht as [(_ & _ & ->)| ->]; [apply delim_close | reflexivity]).
      destruct (H0 n Hn tl1 b u Hd Ha) as (u1 & e & Eu1 & Em).
      unfold pbind at 1. rewrite Hbody. unfold pbind at 1. rewrite Eu1. eauto.
    - inversion Hls as [|? l0 ? ls' Hi0 Hls']; subst. destruct (IH H0 ls' Hls') as [N1 H1]. destruct (Hfwd _ _ _ _ Hi0 HR) as [N2 H2].
      exists (Nat.max N1 N2). intros n m Hn Hm tail b u Ha. destruct m as [|m]; [lia|]. cbn [length] in Hm. cbn [while_].
      cbn [app] in Ha. destruct (jt_cons l0 (ls' ++ l :: post) tr tail) as (tl1 & E1 & Ht). rewrite E1 in Ha. rewrite (Hcond _ _ _ _ _ Hi0 Ha).
      destruct Ht as [(Q & _)|Ht]; [destruct ls'; discriminate|].
      assert (Hd : delim tl1 b) by (rewrite Ht; reflexivity).
      destruct (H2 n ltac:(lia) tl1 b u Hd Ha) as (u1 & Eu1 & A1). rewrite Ht in A1.
      destruct (eat_comma2 u1 _ b A1) as (u2 & E2 & A2); [left; destruct (jt (ls' ++ l :: post) tr); discriminate|].
      unfold pbind at 1. rewrite Hbody. unfold pbind at 1. rewrite Eu1. unfold pbind. rewrite E2. cbn [pret].
      apply (H1 n m ltac:(lia) ltac:(lia) tail b u2 A2).
  Qed.
End Loop2.

(** ** Skipping a value *)
Lemma whole_skips : forall l n d tail b u, at2 Json u (l ++ tail) b -> l <> [] -> go_on tail b ->
  (Z.of_N d + wt l = 0)%Z -> (forall p q, l = p ++ q -> p <> [] -> q <> [] -> (0 < Z.of_N d + wt p)%Z) ->
  (length l <= n)%nat -> exists u', whole_loop L n d u = (u', Ok tt) /\ at2 Json u' tail b.
Proof.
  induction l as [|x l IH]; intros n d tail b u Ha Hne Hg Hw Hp Hn; [congruence|]. destruct n as [|n]; [cbn [length] in Hn; lia|].
  cbn [whole_loop]. cbn [app] in Ha. rewrite (at2_tok Json _ _ _ _ Ha).
  assert (Hg1 : go_on (l ++ tail) b) by (destruct l; [exact Hg | left; discriminate]).
  pose proof Ha as [Ha0 Hr]. destruct (next_at u x (l ++ tail) b Ha0 Hg1) as (u1 & E1 & A1 & _).
  assert (A1' : at2 Json u1 (l ++ tail) b) by (split; [exact A1 | apply real_cons in Hr; tauto]).
  assert (Hx : real Json x = true) by (apply real_cons in Hr; tauto).
  assert (Hd : (Z.of_N (match ltok_kind x with KBlockClose | KCurlyClose => (match ltok_kind x with KBlockOpen | KCurlyOpen => d + 1 | _ => d end) - 1 | _ => match ltok_kind x with KBlockOpen | KCurlyOpen => d + 1 | _ => d end end) =
    Z.of_N d + wtk (ltok_kind x))%Z).
  { destruct l as [|y l].
    - cbn in Hw. destruct x as [s|s|[]]; try discriminate Hx; cbn in *; lia.
    - specialize (Hp [x] (y :: l) eq_refl ltac:(discriminate) ltac:(discriminate)). cbn in Hp.
      destruct x as [s|s|[]]; try discriminate Hx; cbn in *; lia. }
  set (d2 := match ltok_kind x with KBlockClose | KCurlyClose => _ | _ => _ end) in *.
  unfold pbind. cbn [l_next tok_lexer]. rewrite E1.
  assert (Hwx : wt (x :: l) = (wtk (ltok_kind x) + wt l)%Z) by reflexivity.
  destruct l as [|y l].
  - cbn in Hw. assert (Hz : d2 = 0) by lia. rewrite Hz. cbn. exists u1. split; [reflexivity | exact A1'].
  - assert (Hz : (d2 =? 0) = false).
    { apply N.eqb_neq. specialize (Hp [x] (y :: l) eq_refl ltac:(discriminate) ltac:(discriminate)). cbn in Hp. lia. }
    rewrite Hz. apply (IH n d2 tail b u1); auto; try discriminate.
    + lia.
    + intros p q E Hpn Hq. specialize (Hp (x :: p) q). rewrite Hd. assert (wt (x :: p) = (wtk (ltok_kind x) + wt p)%Z) by reflexivity.
      specialize (Hp ltac:(cbn; congruence) ltac:(discriminate) Hq). lia.
    + cbn [length] in *. lia.
Qed.
Lemma whole_reads l n : vtoks Json l -> (length l <= n)%nat -> reads2 Json (whole_field L n) l tt.
Proof.
  intros Hv Hn tail b u Hd Ha. pose proof (vtoks_single _ _ Hv) as (S1 & S2 & S3).
  unfold whole_field. destruct Hv as [t Ht|o cl l0 Hb Hl|s o cl l0 Hr _ _]; [| |discriminate].
  - rewrite (at2_tok Json u t tail b Ha). pose proof Ha as [Ha0 Hr].
    destruct (next_at u t tail b Ha0 (delim_go _ _ Hd)) as (u1 & E1 & A1 & _).
    exists u1. split; [|split; [exact A1 | apply real_cons in Hr; tauto]].
    destruct t as [| |[]]; try discriminate Ht; exact E1.
  - rewrite (at2_tok Json u (LP o) _ b Ha).
    assert (Hk : o = KBlockOpen \/ o = KCurlyOpen).
    { destruct Hb as [[-> _]|[[-> _]|[-> _]]]; auto. exfalso. pose proof (at2_real _ _ _ _ Ha) as Hr. discriminate Hr. }
    assert (H : exists u', whole_loop L n 0 u = (u', Ok tt) /\ at2 Json u' tail b).
    { eapply whole_skips; [exact Ha | discriminate | apply delim_go; exact Hd | lia | | exact Hn].
      intros p q E Hp Hq. destruct (S3 p q E Hp Hq) as [H|(Hr & _)]; [lia | discriminate]. }
    destruct Hk as [-> | ->]; exact H.
Qed.

Lemma whole_mono n m u : (n <= m)%nat -> snd (whole_field L n u) <> NoFuel -> whole_field L m u = whole_field L n u.
Proof.
  induction 1 as [|m Hm IH]; intro H; [reflexivity|]. specialize (IH H).
  destruct (ple_whole tok_lexer m u) as [E|E]; [rewrite IH in E; contradiction | congruence].
Qed.

(** ** Members *)
Section Named.
  Variables (F : flt) (c : cfg) (G : env) (fm : fmt).
  Notation de := (de_text tok_lexer F c G fm).
  Notation lexs := (lexs F fm).
  Notation lexes := (lexes F fm).
  Notation lexes_any := (lexes_any F fm).
  Notation at2 := (at2 fm).
  Notation reads2 := (reads2 fm).
  Notation entire := (entire F c G fm).
  Notation field_entire := (field_entire F c G fm).
  Notation field_of := (field_of F c G fm).
  Notation members_ok := (members_ok F c G fm).
  Notation extra_ok := (extra_ok fm).
  Notation named_value := (named_value F c G fm).
  Notation vtext := (vtext F fm).

  Definition keytok (k : str) : ltok := match fm with Json => LStr k | Ron => LId k end.
  Definition mtok (m : str * str) (l : list ltok) : Prop :=
    exists lv, vtext (snd m) lv /\ l = keytok (fst m) :: LP KColon :: lv.

  (** *** Their tokens *)
  Lemma gap_bound g : gap g -> boundary g.
  Proof. intros [|x g' Hx|body g'|body g']; [left; reflexivity|right..]; try reflexivity. cbn [cur]. destruct Hx as [-> | [-> | [-> | ->]]]; reflexivity. Qed.
  Lemma name_lexes k s : name_text fm k s -> lexes s [keytok k].
  Proof.
    unfold name_text, keytok. intro H. assert (Hc : fm = Json \/ fm = Ron) by (destruct fm; auto).
    destruct Hc as [E|E]; rewrite E in H |- *.
    - destruct H as (b & Hb & ->). apply lexes_weak. rewrite <- E. apply lexes_quoted. exact Hb.
    - destruct H as (-> & Hk & H1 & H2). rewrite <- E. assert (Hw : word fm k) by (rewrite E; exact Hk).
      destruct (lexes_words F fm k Hw) as (t & T1 & _ & T3). rewrite (T3 H1 H2 E) in T1. exact T1.
  Qed.
  Lemma member_lexes m s : member_text F fm m s -> exists l, lexes s l /\ mtok m l.
  Proof.
    destruct m as [k x]. intros (a & ks & b & c0 & d & -> & Hk & Ha & Hb & Hc & Hd & Hx). cbn [fst snd] in *.
    destruct (value_vtext F fm x Hx) as (lv & Hv). exists (keytok k :: LP KColon :: lv). split; [|exists lv; auto].
    assert (L1 : lexes (x ++ d) (lv ++ [])) by (apply lexes_app; [apply Hv | apply lexes_weak, gap_lexes; exact Hd | apply gap_bound; exact Hd]).
    rewrite app_nil_r in L1.
    assert (L2 : lexes ([58] ++ c0 ++ x ++ d) (LP KColon :: lv)).
    { apply (lexes_app_r F fm [58] _ [LP KColon] lv); [apply lexes_punct; destruct fm; reflexivity|].
      apply (lexes_app_r F fm c0 _ [] lv); [apply gap_lexes; exact Hc | exact L1]. }
    assert (L3 : lexes (ks ++ b ++ [58] ++ c0 ++ x ++ d) (keytok k :: LP KColon :: lv)).
    { apply (lexes_app F fm ks _ [keytok k] (LP KColon :: lv)); [apply name_lexes; exact Hk| |].
      - apply (lexes_app_r F fm b _ [] (LP KColon :: lv)); [apply gap_lexes; exact Hb | exact L2].
      - destruct (gap_bound b Hb) as [-> | H]; [right; reflexivity|]. right. destruct b; [reflexivity | exact H]. }
    apply (lexes_app_r F fm a _ [] (keytok k :: LP KColon :: lv)); [apply gap_lexes; exact Ha | exact L3].
  Qed.
  Lemma members_lexes ms s : members_text F fm ms s -> exists ls, lexes s (jt ls false) /\ Forall2 mtok ms ls.
  Proof.
    induction 1 as [m s H|m s ms r H Hr IH].
    - destruct (member_lexes _ _ H) as (l & L1 & L2). exists [l]. split; [cbn [jt]; rewrite app_nil_r; exact L1 | auto].
    - destruct (member_lexes _ _ H) as (l & L1 & L2). destruct IH as (ls & I1 & I2). exists (l :: ls). split; [|auto].
      assert (E : jt (l :: ls) false = l ++ [LP KComma] ++ jt ls false).
      { cbn [jt]. destruct ls; [|reflexivity]. inversion I2; subst. inversion Hr. }
      rewrite E. apply lexes_app; [exact L1 | apply lexes_app_r; [apply lexes_comma | exact I1] | right; reflexivity].
  Qed.
  Lemma members_any ms s : members_text F fm ms s \/ (exists s' g, members_text F fm ms s' /\ gap g /\ s = s' ++ [44] ++ g) \/ ms = [] /\ gap s ->
    exists ls tr, lexes s (jt ls tr) /\ Forall2 mtok ms ls.
  Proof.
    intros [Hs|[(s' & g & Hs & Hg & ->)|[-> Hs]]].
    - destruct (members_lexes _ _ Hs) as (ls & L1 & L2). exists ls, false. auto.
    - destruct (members_lexes _ _ Hs) as (ls & L1 & L2). exists ls, true. split; [|exact L2].
      assert (Ej : ls <> [] -> jt ls true = jt ls false ++ [LP KComma]).
      { clear. induction ls as [|a [|b ls] IH]; intro H; [congruence | cbn; rewrite app_nil_r; reflexivity|].
        change (jt (a :: b :: ls) true) with (a ++ [LP KComma] ++ jt (b :: ls) true). rewrite IH by discriminate.
        change (jt (a :: b :: ls) false) with (a ++ [LP KComma] ++ jt (b :: ls) false). rewrite <- !app_assoc. reflexivity. }
      rewrite Ej by (destruct Hs; inversion L2; discriminate).
      apply lexes_app; [exact L1 | | right; reflexivity].
      apply (lexes_app_r F fm [44] g [LP KComma] []); [apply lexes_comma | apply lexes_weak, gap_lexes; exact Hg].
    - exists [], false. split; [apply lexes_weak, gap_lexes; exact Hs | constructor].
  Qed.
  Lemma object_lexes ms text : object_text F fm ms text ->
    exists ls tr, lexs text = (LP (k_sopen fm) :: jt ls tr ++ [LP (k_sclose fm)], false) /\ Forall2 mtok ms ls.
  Proof.
    intros (g1 & g2 & s & -> & Hg1 & Hg2 & Hs).
    destruct (members_any ms s Hs) as (ls & tr & L1 & L2). exists ls, tr. split; [|exact L2].
    assert (P1 : punct fm (obj_open fm) = Some (k_sopen fm)) by (destruct fm; reflexivity).
    assert (P2 : punct fm (obj_close fm) = Some (k_sclose fm)) by (destruct fm; reflexivity).
    assert (P3 : bound_char (obj_close fm) = true) by (destruct fm; reflexivity).
    pose proof (lexes_wrap F fm _ _ _ _ s _ P1 P2 P3 L1) as LW. unfold wrap in LW.
    pose proof (lexes_any_app F fm g1 _ [] _ (gap_lexes F fm g1 Hg1) LW) as L3.
    pose proof (lexes_any_app F fm _ g2 _ [] L3 (gap_lexes F fm g2 Hg2)) as L4. rewrite app_nil_r in L4. cbn [app] in L4.
    replace (g1 ++ obj_open fm :: s ++ [obj_close fm] ++ g2) with ((g1 ++ obj_open fm :: s ++ [obj_close fm]) ++ g2) by (rewrite <- app_assoc; cbn [app]; rewrite <- app_assoc; reflexivity).
    apply lexes_end, lexes_weak. exact L4.
  Qed.

  (** *** Field lookup *)
  Lemma find_field_spec k fs : forall i j f, find_field k fs i = Some (j, f) ->
    exists p, (j = i + p)%nat /\ nth_error fs p = Some f /\ f_skip f = false /\ key_of_field f = k.
  Proof.
    induction fs as [|g fs IH]; intros i j f H; [discriminate|]. cbn [find_field] in H.
    destruct (negb (f_skip g) && str_eqb (field_key g) k) eqn:E.
    - injection H as <- <-. exists O. apply andb_prop in E as [E1 E2]. apply str_eqb_eq in E2. split; [lia|]. split; [reflexivity|].
      split; [destruct (f_skip g); [discriminate | reflexivity] | exact E2].
    - destruct (IH _ _ _ H) as (p & -> & H2). exists (S p). split; [lia | exact H2].
  Qed.
  Lemma find_field_none k fs : forall i, find_field k fs i = None -> ~ known fs k.
  Proof.
    induction fs as [|g fs IH]; intros i H (f & Hf & Hs & Hk); [contradiction|]. cbn [find_field] in H.
    destruct (negb (f_skip g) && str_eqb (field_key g) k) eqn:E; [discriminate|].
    destruct Hf as [->|Hf].
    - rewrite Hs in E. cbn [negb andb] in E. assert (str_eqb (field_key f) k = true) by (apply str_eqb_eq; exact Hk). congruence.
    - apply (IH _ H). exists f. auto.
  Qed.
  Lemma unique_pos fs : unique_keys fs -> forall p q f g, nth_error fs p = Some f -> nth_error fs q = Some g -> f_skip f = false -> f_skip g = false ->
    key_of_field f = key_of_field g -> p = q.
  Proof.
    unfold unique_keys. induction fs as [|h fs IH]; intros Hu p q f g Hp Hq Hf Hg E; [destruct p; discriminate|].
    cbn [filter] in Hu.
    assert (Hin : forall r x, nth_error fs r = Some x -> f_skip x = false -> In (key_of_field x) (map key_of_field (filter (fun f => negb (f_skip f)) fs))).
    { intros r x Hr Hx. apply in_map, filter_In. split; [eapply nth_error_In; exact Hr | rewrite Hx; reflexivity]. }
    assert (Hu2 : NoDup (map key_of_field (filter (fun f => negb (f_skip f)) fs))) by (destruct (negb (f_skip h)); [inversion Hu; assumption | exact Hu]).
    destruct p as [|p], q as [|q]; [reflexivity|..]; cbn [nth_error] in Hp, Hq.
    - injection Hp as ->. rewrite Hf in Hu. cbn in Hu. inversion Hu as [|? ? Hn _]; subst. exfalso. apply Hn. rewrite E. eapply Hin; eassumption.
    - injection Hq as ->. rewrite Hg in Hu. cbn in Hu. inversion Hu as [|? ? Hn _]; subst. exfalso. apply Hn. rewrite <- E. eapply Hin; eassumption.
    - f_equal. eapply IH; eassumption.
  Qed.
  Lemma find_field_known k fs : known fs k -> exists j f, find_field k fs 0 = Some (j, f).
  Proof.
    intro H. destruct (find_field k fs 0) as [[j f]|] eqn:E; [eauto|]. exfalso. exact (find_field_none _ _ _ E H).
  Qed.

  Lemma entire_fun t x v w : entire t x v -> entire t x w -> v = w.
  Proof.
    intros [[N1 H1] _] [[N2 H2] _]. specialize (H1 (Nat.max N1 N2) ltac:(lia)). specialize (H2 (Nat.max N1 N2) ltac:(lia)). congruence.
  Qed.
  Lemma field_entire_fun f x v w : field_entire f x v -> field_entire f x w -> v = w.
  Proof.
    unfold SpecObj.field_entire. destruct (_ && _).
    - intros (a & -> & Ha) (b & -> & Hb). f_equal. eapply entire_fun; eassumption.
    - apply entire_fun.
  Qed.

  Variables (dflt : bool) (fs : list field).
  Definition mstep (acc : list (option val)) (m : str * str) (acc' : list (option val)) : Prop :=
    match find_field (fst m) fs 0 with
    | Some (i, f) => exists v, field_entire f (snd m) v /\ acc' = set_nth i (Some v) acc
    | None => fm = Json /\ fs <> [] /\ acc' = acc
    end.
  Definition mitem (n : nat) (acc : list (option val)) : @pm tst (list (option val)) := fun s =>
    match find_field (key_of tok_lexer fm s) fs 0 with
    | Some (i, f) => pbind (p_next_colon tok_lexer) (fun _ => pbind (de_field (de n) f) (fun v => pret (set_nth i (Some v) acc))) s
    | None =>
      match fs, fm with
      | [], _ => (s, Ok acc)
      | _, Json => pbind (p_next_colon tok_lexer) (fun _ => pbind (whole_field tok_lexer n) (fun _ => pret acc)) s
      | _, Ron => perr tok_lexer (UnexpectedKey (l_id tok_lexer s)) s
      end
    end.
  Lemma mbody n acc u : named_body tok_lexer fm (de n) n fs acc u = pbind (mitem n acc) (fun a' => pbind (eat_comma L (k_sclose fm) (w_scomma fm)) (fun _ => pret a')) u.
  Proof. reflexivity. Qed.
  Lemma key_at k u tail b : at2 u (keytok k :: tail) b -> key_of tok_lexer fm u = k /\ tok_is (l_tok tok_lexer u) (k_key fm) = true.
  Proof.
    intros [Ha Hr]. rewrite (tok_at _ _ _ _ Ha). destruct Ha as (T1 & _ & T3). unfold loaded in T3. rewrite T1 in T3.
    unfold key_of, keytok, k_key in *. destruct fm; cbn in *; auto.
  Qed.
  Lemma next_colon_at x u tail b : at2 u (x :: LP KColon :: tail) b -> go_on tail b -> exists u', p_next_colon tok_lexer u = (u', Ok tt) /\ at2 u' tail b.
  Proof.
    intros [Ha Hr] Hg. destruct (next_at u x _ b Ha ltac:(left; discriminate)) as (u1 & E1 & A1 & _).
    destruct (expect_at KColon (chars ":") u1 _ tail b A1 eq_refl Hg) as (u2 & E2 & A2 & _).
    exists u2. unfold p_next_colon, p_colon, pbind. cbn [l_next tok_lexer]. rewrite E1. split; [exact E2|]. split; [exact A2|].
    apply real_cons in Hr as [_ Hr]. apply real_cons in Hr. tauto.
  Qed.
  Lemma vtoks_go l tail b : vtoks fm l -> go_on (l ++ tail) b.
  Proof. intro H. destruct (vtoks_head _ _ H) as (x & r & -> & _). left. discriminate. Qed.
  Lemma field_reads f x l v : vtext x l -> field_entire f x v -> exists N, forall n, (N <= n)%nat -> reads2 (de_field (de n) f) l v.
  Proof.
    unfold SpecObj.field_entire, de_field. intros Hv. destruct (f_isopt f && f_hasproxy f).
    - intros (w & -> & He). destruct (entire_reads F c G fm _ _ _ _ Hv He) as [N H]. exists N. intros n Hn tail b u Hd Ha.
      destruct (H n Hn tail b u Hd Ha) as (u' & E & A). exists u'. unfold pmap, pbind. rewrite E. split; [reflexivity | exact A].
    - intro He. apply (entire_reads F c G fm _ _ _ _ Hv He).
  Qed.
  Lemma field_inv n f x l tail b u u' v : vtext x l -> delim tail b -> at2 u (l ++ tail) b -> de_field (de n) f u = (u', Ok v) ->
    (field_entire f x v /\ at2 u' tail b) \/ (fm = Ron /\ exists o r, wtk (ltok_kind o) = 1%Z /\ at2 u' (o :: r) b).
  Proof.
    unfold SpecObj.field_entire, de_field. intros Hv Hd Ha. destruct (f_isopt f && f_hasproxy f).
    - unfold pmap, pbind. destruct (de n (f_ty f) u) as [u1 [w|e|p|]] eqn:E; try discriminate. intro Q. injection Q as <- <-.
      destruct (embed_entire F c G fm n _ x l tail b u u1 w Hv Hd Ha E) as [[H1 H2]|H]; [left; split; eauto | right; exact H].
    - apply (embed_entire F c G fm n _ x l tail b u u' v Hv Hd Ha).
  Qed.

  Lemma mitem_fwd acc m l acc' : mtok m l -> mstep acc m acc' -> exists N, forall n, (N <= n)%nat -> reads2 (mitem n acc) l acc'.
  Proof.
    destruct m as [k x]. intros (lv & Hv & ->) H. unfold mstep in H. cbn [fst snd] in *.
    assert (Hpre : forall u tail b, at2 u ((keytok k :: LP KColon :: lv) ++ tail) b -> key_of tok_lexer fm u = k /\
       exists u', p_next_colon tok_lexer u = (u', Ok tt) /\ at2 u' (lv ++ tail) b).
    { intros u tail b Ha. cbn [app] in Ha. split; [eapply key_at; exact Ha|]. eapply next_colon_at; [exact Ha | apply vtoks_go, Hv]. }
    destruct (find_field k fs 0) as [[i f]|] eqn:Ef.
    - destruct H as (v & He & ->). destruct (field_reads f x lv v Hv He) as [N HN]. exists N. intros n Hn tail b u Hd Ha.
      destruct (Hpre u tail b Ha) as (Hk & u1 & E1 & A1). destruct (HN n Hn tail b u1 Hd A1) as (u2 & E2 & A2).
      exists u2. unfold mitem. rewrite Hk, Ef. unfold pbind. rewrite E1, E2. split; [reflexivity | exact A2].
    - destruct H as (Hj & Hne & ->). exists (length lv). intros n Hn tail b u Hd Ha.
      destruct (Hpre u tail b Ha) as (Hk & u1 & E1 & A1).
      assert (Hvj : vtoks Json lv) by (rewrite <- Hj; apply Hv).
      pose proof (whole_reads lv n Hvj Hn tail b u1 Hd) as HW. rewrite <- Hj in HW. destruct (HW A1) as (u2 & E2 & A2).
      exists u2. split; [|exact A2]. unfold mitem. rewrite Hk, Ef. unfold pbind. rewrite E1, E2.
      destruct fs; [congruence|]. rewrite Hj. reflexivity.
  Qed.
  Lemma mitem_inv n acc m l tail b u u' acc' : mtok m l -> delim tail b -> at2 u (l ++ tail) b -> mitem n acc u = (u', Ok acc') ->
    (mstep acc m acc' /\ at2 u' tail b) \/ (forall u2, eat_comma L (k_sclose fm) (w_scomma fm) u' <> (u2, Ok tt)).
  Proof.
    destruct m as [k x]. intros (lv & Hv & ->) Hd Ha E. cbn [fst snd] in *. cbn [app] in Ha.
    destruct (key_at _ _ _ _ Ha) as [Hk _]. destruct (next_colon_at _ _ _ _ Ha (vtoks_go lv tail b (proj1 (proj2 Hv)))) as (u1 & E1 & A1).
    unfold mitem in E. rewrite Hk in E. unfold mstep. cbn [fst snd].
    destruct (find_field k fs 0) as [[i f]|] eqn:Ef.
    - unfold pbind in E. rewrite E1 in E. destruct (de_field (de n) f u1) as [u2 [v|e|p|]] eqn:E2; try discriminate. injection E as <- <-.
      destruct (field_inv n f x lv tail b u1 u2 v Hv Hd A1 E2) as [[H1 H2]|(Hr & o & r & Ho & A2)]; [left; split; eauto|].
      right. intros u3 Q. eapply (eat_open fm (k_sclose fm) (w_scomma fm)); [apply sclose_closing | exact A2 | exact Ho | exact Q].
    - destruct fs as [|f0 fs0] eqn:Efs.
      + injection E as <- <-. right. intros u2 Q. unfold eat_comma in Q. rewrite (at2_tok _ _ _ _ _ Ha) in Q.
        unfold keytok, k_sclose in Q. destruct fm; discriminate.
      + destruct (fmt_eq_dec fm Ron) as [Er|Hj]; [rewrite Er in E; discriminate|].
        assert (Ej : fm = Json) by (destruct fm; congruence).
        assert (E' : pbind (p_next_colon tok_lexer) (fun _ => pbind (whole_field tok_lexer n) (fun _ => pret acc)) u = (u', Ok acc')) by (destruct fm; [exact E | congruence]).
        clear E. unfold pbind in E'. rewrite E1 in E'. destruct (whole_field tok_lexer n u1) as [u2 [[]|e|p|]] eqn:E2; try discriminate. injection E' as <- <-.
        left. split; [repeat split; auto; discriminate|].
        assert (Hvj : vtoks Json lv) by (rewrite <- Ej; apply Hv).
        pose proof (whole_reads lv (Nat.max n (length lv)) Hvj ltac:(lia) tail b u1 Hd) as HW. rewrite <- Ej in HW. destruct (HW A1) as (u3 & E3 & A3).
        rewrite (whole_mono n (Nat.max n (length lv)) u1) in E3; [|lia|rewrite E2; discriminate]. rewrite E2 in E3. injection E3 as <-. exact A3.
  Qed.
  (** *** What the loop leaves behind *)
  Definition aok (ms : list (str * str)) (f : field) (o : option val) : Prop :=
    match o with
    | Some w => f_skip f = false /\ exists x, last_member (key_of_field f) x ms /\ field_entire f x w
    | None => f_skip f = true \/ ~ In (key_of_field f) (map fst ms)
    end.
  Definition acc_ok (ms : list (str * str)) (acc : list (option val)) : Prop := Forall2 (aok ms) fs acc.
  Lemma acc_start : acc_ok [] (map (fun _ => None) fs).
  Proof. unfold acc_ok. induction fs; constructor; [right; intros []|assumption]. Qed.
  Lemma last_other k x pre k' x' : last_member k x pre -> k' <> k -> last_member k x (pre ++ [(k', x')]).
  Proof.
    intros (a & b & -> & Hb) Hne. exists a, (b ++ [(k', x')]). split; [rewrite <- app_assoc; reflexivity|].
    rewrite map_app, in_app_iff. cbn. intros [H|[H|[]]]; congruence.
  Qed.
  Lemma aok_other pre k x f o : aok pre f o -> (f_skip f = false -> key_of_field f <> k) -> aok (pre ++ [(k, x)]) f o.
  Proof.
    intros H Hne. destruct o as [w|].
    - destruct H as (Hs & y & Hl & He). split; [exact Hs|]. exists y. split; [|exact He]. apply last_other; [exact Hl|]. intro Q. exact (Hne Hs (eq_sym Q)).
    - destruct H as [H|H]; [left; exact H|]. destruct (f_skip f) eqn:Es; [left; exact Es|]. right. rewrite map_app, in_app_iff. cbn.
      intros [Q|[Q|[]]]; [exact (H Q)|]. exact (Hne eq_refl (eq_sym Q)).
  Qed.
  Lemma Forall2_nth {A B} (P Q : A -> B -> Prop) l : forall l', Forall2 P l l' -> (forall p a b, nth_error l p = Some a -> P a b -> Q a b) -> Forall2 Q l l'.
  Proof.
    induction l as [|a l IH]; intros l' H HQ; inversion H; subst; constructor; [apply (HQ O); auto|]. apply IH; [assumption|]. intros p. apply (HQ (S p)).
  Qed.
  Lemma Forall2_set {A B} (P Q : A -> B -> Prop) y l : forall l' i, Forall2 P l l' ->
    (forall p a b, nth_error l p = Some a -> p <> i -> P a b -> Q a b) -> (forall a, nth_error l i = Some a -> Q a y) -> Forall2 Q l (set_nth i y l').
  Proof.
    induction l as [|a l IH]; intros l' i H H1 H2; inversion H as [|? b ? l2 Hab Hl]; subst; [destruct i; constructor|].
    destruct i as [|i]; cbn [set_nth]; constructor.
    - apply H2. reflexivity.
    - eapply Forall2_nth; [exact Hl|]. intros p a' b' Hp. apply (H1 (S p)); [exact Hp | discriminate].
    - apply (H1 O); [reflexivity | discriminate | exact Hab].
    - apply IH; [exact Hl| |intros a' Ha; apply H2; exact Ha]. intros p a' b' Hp Hne. apply (H1 (S p)); [exact Hp | congruence].
  Qed.
  Hypothesis Hu : unique_keys fs.
  Lemma mstep_ok pre m acc acc' : acc_ok pre acc -> mstep acc m acc' -> acc_ok (pre ++ [m]) acc'.
  Proof.
    destruct m as [k x]. unfold mstep. cbn [fst snd]. intros Ha. destruct (find_field k fs 0) as [[i f]|] eqn:Ef.
    - intros (v & He & ->). destruct (find_field_spec _ _ _ _ _ Ef) as (p & -> & Hp & Hs & Hk). cbn [Nat.add].
      unfold acc_ok. eapply Forall2_set; [exact Ha| |].
      + intros q a b Hq Hne Hab. apply aok_other; [exact Hab|]. intros Hs2 Hk2. apply Hne. eapply (unique_pos fs Hu); [exact Hq | exact Hp | exact Hs2 | exact Hs | congruence].
      + intros a Hq. replace a with f by congruence. split; [exact Hs|]. exists x. split; [|exact He]. exists pre, []. rewrite Hk. split; [reflexivity | intros []].
    - intros (_ & _ & ->). unfold acc_ok. eapply Forall2_nth; [exact Ha|]. intros q a b Hq Hab. apply aok_other; [exact Hab|].
      intros Hs Hk. apply (find_field_none _ _ _ Ef). exists a. split; [eapply nth_error_In; exact Hq | auto].
  Qed.
  Definition stepable (m : str * str) : Prop :=
    match find_field (fst m) fs 0 with
    | Some (_, f) => exists v, field_entire f (snd m) v
    | None => fm = Json /\ fs <> []
    end.
  Lemma stepable_step m acc : stepable m -> exists acc', mstep acc m acc'.
  Proof. unfold stepable, mstep. destruct (find_field (fst m) fs 0) as [[i f]|]; [intros (v & H); eauto | intros [H1 H2]; eauto]. Qed.
  Lemma step_stepable m acc acc' : mstep acc m acc' -> stepable m.
  Proof. unfold stepable, mstep. destruct (find_field (fst m) fs 0) as [[i f]|]; [intros (v & H & _); eauto | intros (H1 & H2 & _); auto]. Qed.
  Lemma chain_ok ms : forall pre acc acc', acc_ok pre acc -> chain mstep acc ms acc' -> acc_ok (pre ++ ms) acc' /\ Forall stepable ms.
  Proof.
    induction ms as [|m ms IH]; intros pre acc acc' Ha C; inversion C as [|? ? a1 ? ? HR HC]; subst.
    - rewrite app_nil_r. auto.
    - destruct (IH (pre ++ [m]) a1 acc' (mstep_ok _ _ _ _ Ha HR) HC) as [H1 H2]. rewrite <- app_assoc in H1.
      split; [exact H1|]. constructor; [eapply step_stepable; exact HR | exact H2].
  Qed.
  Lemma chain_exists ms : forall acc, Forall stepable ms -> exists acc', chain mstep acc ms acc'.
  Proof.
    induction ms as [|m ms IH]; intros acc H; [eexists; constructor|]. inversion H as [|? ? H1 H2]; subst.
    destruct (stepable_step m acc H1) as (a1 & HR). destruct (IH a1 H2) as (a2 & HC). eexists. econstructor; eassumption.
  Qed.
  Lemma stepable_iff ms : Forall stepable ms <-> members_ok fs ms /\ extra_ok fs ms.
  Proof.
    rewrite Forall_forall. split.
    - intro H. split.
      + intros k x f Hin Hf Hs Hk. specialize (H _ Hin). unfold stepable in H. cbn [fst snd] in H.
        destruct (find_field_known k fs) as (j & g & Eg); [exists f; auto|]. rewrite Eg in H.
        destruct (find_field_spec _ _ _ _ _ Eg) as (p & _ & Hp & Hs2 & Hk2). apply In_nth_error in Hf as (q & Hq).
        assert (p = q) by (eapply (unique_pos fs Hu); [exact Hp | exact Hq | exact Hs2 | exact Hs | congruence]). subst q.
        replace f with g by congruence. exact H.
      + assert (Hc : fm = Json \/ fm = Ron) by (destruct fm; auto). unfold SpecObj.extra_ok. destruct Hc as [E|E].
        * cut (fs = [] -> ms = []); [rewrite E; auto|]. intro Ef. destruct ms as [|m ms]; [reflexivity|]. exfalso.
          specialize (H m (or_introl eq_refl)). unfold stepable in H. rewrite Ef in H. cbn [find_field] in H. apply H. reflexivity.
        * cut (forall k x, In (k, x) ms -> known fs k); [rewrite E; auto|]. intros k x Hin. specialize (H _ Hin). unfold stepable in H. cbn [fst snd] in H.
          destruct (find_field k fs 0) as [[j g]|] eqn:Eg; [|destruct H; congruence].
          destruct (find_field_spec _ _ _ _ _ Eg) as (p & _ & Hp & Hs2 & Hk2). exists g. split; [eapply nth_error_In; exact Hp | auto].
    - intros [H1 H2] [k x] Hin. unfold stepable. cbn [fst snd]. destruct (find_field k fs 0) as [[j g]|] eqn:Eg.
      + destruct (find_field_spec _ _ _ _ _ Eg) as (p & _ & Hp & Hs2 & Hk2). apply (H1 k x g Hin); auto. eapply nth_error_In; exact Hp.
      + unfold SpecObj.extra_ok in H2. assert (Hc : fm = Json \/ fm = Ron) by (destruct fm; auto). destruct Hc as [E|E]; rewrite E in H2.
        * split; [exact E|]. intro Q. rewrite (H2 Q) in Hin. contradiction.
        * exfalso. exact (find_field_none _ _ _ Eg (H2 _ _ Hin)).
  Qed.

  (** *** Unwrapping *)
  Definition uw (f : field) (o : option val) : option val :=
    if f_skip f then Some (omitted_value f) else match o with Some v => Some v | None => when_absent dflt f end.
  Lemma unwrap_uw f o u : unwrap_field tok_lexer dflt f o u =
    match uw f o with Some v => (u, Ok v) | None => perr tok_lexer (MissingKey (f_name f)) u end.
  Proof.
    unfold unwrap_field, uw, omitted_value, when_absent. destruct (f_skip f), o, (f_default f); cbn [orb]; try reflexivity.
    destruct (f_isopt f || dflt); reflexivity.
  Qed.
  Lemma unwrap_all gs : forall acc vs u, Forall2 (fun f o => True) gs acc -> Forall2 (fun p v => uw (fst p) (snd p) = Some v) (combine gs acc) vs ->
    unwrap_fields tok_lexer dflt gs acc u = (u, Ok vs).
  Proof.
    induction gs as [|f gs IH]; intros acc vs u Ha H; inversion Ha as [|? o ? acc' _ Ha']; subst; cbn [combine] in H; inversion H as [|? v ? vs' Hv Hvs]; subst; [reflexivity|].
    cbn [unwrap_fields fst snd] in *. unfold pbind. rewrite unwrap_uw, Hv, (IH acc' vs' u Ha' Hvs). reflexivity.
  Qed.
  Lemma unwrap_inv gs : forall acc vs u u', Forall2 (fun f o => True) gs acc -> unwrap_fields tok_lexer dflt gs acc u = (u', Ok vs) ->
    Forall2 (fun p v => uw (fst p) (snd p) = Some v) (combine gs acc) vs.
  Proof.
    induction gs as [|f gs IH]; intros acc vs u u' Ha H; inversion Ha as [|? o ? acc' _ Ha']; subst; cbn [combine unwrap_fields] in *.
    - injection H as _ <-. constructor.
    - unfold pbind in H. rewrite unwrap_uw in H. destruct (uw f o) as [v|] eqn:Ev; [|discriminate].
      destruct (unwrap_fields tok_lexer dflt gs acc' u) as [u2 [r|e|p|]] eqn:E2; try discriminate. injection H as <- <-.
      constructor; [exact Ev | eapply IH; eassumption].
  Qed.
  Lemma unwrap_missing gs f post : forall acc o acc2 vs u, Forall2 (fun f o => True) gs acc -> Forall2 (fun p v => uw (fst p) (snd p) = Some v) (combine gs acc) vs ->
    uw f o = None -> exists e, unwrap_fields tok_lexer dflt (gs ++ f :: post) (acc ++ o :: acc2) u = (u, Err e) /\ e_reason e = MissingKey (f_name f).
  Proof.
    induction gs as [|g gs IH]; intros acc o acc2 vs u Ha H Hf; inversion Ha as [|? o1 ? acc' _ Ha']; subst; cbn [combine] in H; inversion H as [|? v ? vs' Hv Hvs]; subst.
    - cbn [app unwrap_fields]. unfold pbind. rewrite unwrap_uw, Hf. unfold perr. eexists. split; reflexivity.
    - cbn [app unwrap_fields fst snd] in *. unfold pbind. rewrite unwrap_uw, Hv. destruct (IH acc' o acc2 vs' u Ha' Hvs Hf) as (e & E & Em).
      rewrite E. eauto.
  Qed.
  Lemma aok_fun ms f o v : aok ms f o -> (uw f o = Some v <-> field_of dflt ms f v).
  Proof.
    unfold uw, SpecObj.field_of. intro H. destruct (f_skip f) eqn:Es; [split; [intro Q; injection Q; auto | intros ->; reflexivity]|].
    destruct o as [w|]; cbn [aok] in H.
    - destruct H as (_ & x & Hl & He). split.
      + intro Q. injection Q as <-. left. eauto.
      + intros [(y & Hl2 & He2)|[Hn _]].
        * replace y with x in He2; [rewrite (field_entire_fun _ _ _ _ He He2); reflexivity|].
          destruct Hl as (a & b & -> & Hb), Hl2 as (a2 & b2 & E2 & Hb2). revert a2 E2. induction a as [|z a IH]; intros [|z2 a2] E2; cbn in E2.
          -- congruence.
          -- injection E2 as <- E2. exfalso. apply Hb. rewrite E2, map_app. apply in_or_app. right. left. reflexivity.
          -- injection E2 as -> E2. exfalso. apply Hb2. rewrite <- E2, map_app. apply in_or_app. right. left. reflexivity.
          -- injection E2 as _ E2. eapply IH; exact E2.
        * exfalso. apply Hn. destruct Hl as (a & b & -> & _). rewrite map_app. apply in_or_app. right. left. reflexivity.
    - destruct H as [H|H]; [congruence|]. split; [auto|]. intros [(y & (a & b & -> & _) & _)|[_ Q]]; [|exact Q].
      exfalso. apply H. rewrite map_app. apply in_or_app. right. left. reflexivity.
  Qed.
  Lemma acc_values ms gs : forall acc vs, Forall2 (aok ms) gs acc ->
    (Forall2 (fun p v => uw (fst p) (snd p) = Some v) (combine gs acc) vs <-> Forall2 (field_of dflt ms) gs vs).
  Proof.
    induction gs as [|f gs IH]; intros acc vs Ha; inversion Ha as [|? o ? acc' H1 H2]; subst; cbn [combine].
    - split; intro H; inversion H; constructor.
    - split; intro H; inversion H as [|? v ? vs' Hv Hvs]; subst; constructor; try (apply (IH acc' vs' H2); assumption); apply (aok_fun _ _ _ _ H1); exact Hv.
  Qed.
  Lemma acc_len ms acc : acc_ok ms acc -> Forall2 (fun (f : field) (o : option val) => True) fs acc.
  Proof. unfold acc_ok. intro H. eapply Forall2_nth; [exact H | intros; exact I]. Qed.

  (** *** The reader *)
  Definition obj_toks (ls : list (list ltok)) (tr : bool) : list ltok := LP (k_sopen fm) :: jt ls tr ++ [LP (k_sclose fm)].
  Notation cnd := (fun s => tok_is (l_tok tok_lexer s) (k_key fm)).
  Lemma cnd_close u tail b : at2 u (LP (k_sclose fm) :: tail) b -> cnd u = false.
  Proof. intro H. cbv beta. rewrite (at2_tok _ _ _ _ _ H). destruct fm; reflexivity. Qed.
  Lemma cnd_item m l tail b u : mtok m l -> at2 u (l ++ tail) b -> cnd u = true.
  Proof. intros (lv & _ & ->) Ha. cbn [app] in Ha. eapply key_at; exact Ha. Qed.
  Lemma expect2 k w u x tail b : at2 u (x :: tail) b -> tok_is (ltok_kind x) k = true -> go_on tail b -> exists u', expect tok_lexer k w u = (u', Ok tt) /\ at2 u' tail b.
  Proof.
    intros [Ha Hr] Hk Hg. destruct (expect_at k w u x tail b Ha Hk Hg) as (u' & E & A & _). exists u'. split; [exact E|]. split; [exact A|].
    apply real_cons in Hr. tauto.
  Qed.
  Lemma sopen_is : tok_is (ltok_kind (LP (k_sopen fm))) (k_sopen fm) = true. Proof. destruct fm; reflexivity. Qed.
  Lemma sclose_is : tok_is (ltok_kind (LP (k_sclose fm))) (k_sclose fm) = true. Proof. destruct fm; reflexivity. Qed.

  Lemma named_fwd ms ls tr vs : Forall2 mtok ms ls -> named_value dflt fs ms vs ->
    exists N, forall n, (N <= n)%nat -> reads2 (de_named tok_lexer fm (de n) n dflt fs) (obj_toks ls tr) vs.
  Proof.
    intros Hm (Hv & Ho). apply stepable_iff in Ho. destruct (chain_exists ms (map (fun _ => None) fs) Ho) as (acc' & C).
    destruct (chain_ok ms [] _ _ acc_start C) as [Ha _]. cbn [app] in Ha.
    destruct (loop_fwd fm cnd mitem (fun n => named_body tok_lexer fm (de n) n fs) (k_sclose fm) (w_scomma fm) mbody (sclose_closing fm) cnd_close mtok mstep cnd_item mitem_inv mitem_fwd tr ms ls _ _ C Hm) as [N HN].
    exists (Nat.max N (S (length ls))). intros n Hn tail b u Hd Hu0. unfold de_named, obj_toks in *. cbn [app] in Hu0. rewrite <- app_assoc in Hu0. cbn [app] in Hu0.
    destruct (expect2 (k_sopen fm) (w_sopen fm) u _ _ b Hu0 sopen_is) as (u1 & E1 & A1); [left; destruct (jt ls tr); discriminate|].
    destruct (HN n n ltac:(lia) ltac:(lia) tail b u1 A1) as (u2 & E2 & A2).
    destruct (expect2 (k_sclose fm) (w_sclose fm) u2 _ _ b A2 sclose_is (delim_go _ _ Hd)) as (u3 & E3 & A3).
    exists u3. split; [|exact A3]. unfold pbind at 1. rewrite E1. unfold pbind at 1. rewrite E2. unfold pbind at 1. rewrite E3.
    apply unwrap_all; [eapply acc_len; exact Ha|]. apply (acc_values ms fs acc' vs Ha). exact Hv.
  Qed.
  Lemma named_inv n ms ls tr vs tail b u u' : Forall2 mtok ms ls -> at2 u (obj_toks ls tr ++ tail) b -> go_on tail b ->
    de_named tok_lexer fm (de n) n dflt fs u = (u', Ok vs) -> named_value dflt fs ms vs /\ at2 u' tail b.
  Proof.
    intros Hm Hu0 Hg E. unfold de_named, obj_toks in *. cbn [app] in Hu0. rewrite <- app_assoc in Hu0. cbn [app] in Hu0.
    destruct (expect2 (k_sopen fm) (w_sopen fm) u _ _ b Hu0 sopen_is) as (u1 & E1 & A1); [left; destruct (jt ls tr); discriminate|].
    unfold pbind at 1 in E. rewrite E1 in E. unfold pbind at 1 in E.
    destruct (while_ n _ _ _ u1) as [u2 [acc'|e|p|]] eqn:E2; try discriminate.
    destruct (loop_inv fm cnd mitem (fun n => named_body tok_lexer fm (de n) n fs) (k_sclose fm) (w_scomma fm) mbody (sclose_closing fm) cnd_close mtok mstep cnd_item mitem_inv n n tr ms ls Hm _ _ _ _ tail b A1 E2) as [C A2].
    destruct (expect2 (k_sclose fm) (w_sclose fm) u2 _ _ b A2 sclose_is Hg) as (u3 & E3 & A3).
    unfold pbind at 1 in E. rewrite E3 in E. destruct (chain_ok ms [] _ _ acc_start C) as [Ha Hst]. cbn [app] in Ha.
    pose proof (unwrap_inv _ _ _ _ _ (acc_len _ _ Ha) E) as Hv. apply (acc_values ms fs acc' vs Ha) in Hv. apply stepable_iff in Hst.
    split; [split; assumption|].
    rewrite (unwrap_all _ _ _ u3 (acc_len _ _ Ha) (proj2 (acc_values ms fs acc' vs Ha) Hv)) in E. injection E as <-. exact A3.
  Qed.
  (** A required field that is missing: its name is in the error. *)
  Lemma named_missing ms ls tr pre f post vs : Forall2 mtok ms ls -> members_ok fs ms -> extra_ok fs ms ->
    fs = pre ++ f :: post -> Forall2 (field_of dflt ms) pre vs -> f_skip f = false -> ~ In (key_of_field f) (map fst ms) -> when_absent dflt f = None ->
    exists N, forall n, (N <= n)%nat -> fails fm (de_named tok_lexer fm (de n) n dflt fs) (obj_toks ls tr) (MissingKey (f_name f)).
  Proof.
    intros Hm Ho1 Ho2 Hfs Hv Hs Habs Hw. pose proof (proj2 (stepable_iff ms) (conj Ho1 Ho2)) as Ho. destruct (chain_exists ms (map (fun _ => None) fs) Ho) as (acc' & C).
    destruct (chain_ok ms [] _ _ acc_start C) as [Ha _]. cbn [app] in Ha.
    destruct (loop_fwd fm cnd mitem (fun n => named_body tok_lexer fm (de n) n fs) (k_sclose fm) (w_scomma fm) mbody (sclose_closing fm) cnd_close mtok mstep cnd_item mitem_inv mitem_fwd tr ms ls _ _ C Hm) as [N HN].
    exists (Nat.max N (S (length ls))). intros n Hn tail b u Hd Hu0. unfold de_named, obj_toks in *. cbn [app] in Hu0. rewrite <- app_assoc in Hu0. cbn [app] in Hu0.
    destruct (expect2 (k_sopen fm) (w_sopen fm) u _ _ b Hu0 sopen_is) as (u1 & E1 & A1); [left; destruct (jt ls tr); discriminate|].
    destruct (HN n n ltac:(lia) ltac:(lia) tail b u1 A1) as (u2 & E2 & A2).
    destruct (expect2 (k_sclose fm) (w_sclose fm) u2 _ _ b A2 sclose_is (delim_go _ _ Hd)) as (u3 & E3 & A3).
    exists u3. unfold pbind at 1. rewrite E1. unfold pbind at 1. rewrite E2. unfold pbind at 1. rewrite E3.
    unfold acc_ok in Ha. rewrite Hfs in Ha |- *. apply Forall2_app_inv_l in Ha as (acc1 & acc2 & Ha1 & Ha2 & ->). inversion Ha2 as [|? o ? acc3 Hf Ha3]; subst acc2.
    assert (Hf2 : uw f o = None).
    { unfold uw. rewrite Hs. destruct o as [w|]; [|exact Hw]. destruct Hf as (_ & x1 & (p1 & p2 & E & _) & _). exfalso. apply Habs.
      rewrite E, map_app. apply in_or_app. right. left. reflexivity. }
    destruct (unwrap_missing pre f post acc1 o acc3 vs u3) as (e & Ee & Em); [|apply (acc_values ms pre acc1 vs Ha1); exact Hv | exact Hf2 | eauto].
    eapply Forall2_nth; [exact Ha1 | intros; exact I].
  Qed.
  (** RON: a member no field is named after. *)
  Lemma named_unexpected ms ls tr pre k x post : Forall2 mtok ms ls -> fm = Ron -> fs <> [] -> ms = pre ++ (k, x) :: post ->
    members_ok fs pre -> extra_ok fs pre -> ~ known fs k ->
    exists N, forall n, (N <= n)%nat -> fails fm (de_named tok_lexer fm (de n) n dflt fs) (obj_toks ls tr) (UnexpectedKey k).
  Proof.
    intros Hm Hr Hne Hms Ho1 Ho2 Hk. pose proof (proj2 (stepable_iff pre) (conj Ho1 Ho2)) as Ho. destruct (chain_exists pre (map (fun _ => None) fs) Ho) as (acc' & C).
    rewrite Hms in Hm. apply Forall2_app_inv_l in Hm as (ls1 & ls2 & Hm1 & Hm2 & ->). inversion Hm2 as [|? l ? ls3 Hl Hm3]; subst ls2.
    assert (HF : exists N, forall n, (N <= n)%nat -> fails fm (mitem n acc') l (UnexpectedKey k)).
    { exists O. intros n _ tail b u Hd Ha. destruct Hl as (lv & Hv & ->). cbn [app fst] in Ha. destruct (key_at _ _ _ _ Ha) as [Ek _].
      unfold mitem. rewrite Ek. destruct (find_field k fs 0) as [[j g]|] eqn:Eg.
      - exfalso. apply Hk. destruct (find_field_spec _ _ _ _ _ Eg) as (p & _ & Hp & Hs2 & Hk2). exists g. split; [eapply nth_error_In; exact Hp | auto].
      - unfold key_of in Ek. exists u. destruct fs; [congruence|]. destruct fm; [discriminate|]. unfold perr. rewrite Ek. eexists. split; reflexivity. }
    destruct (loop_fails fm cnd mitem (fun n => named_body tok_lexer fm (de n) n fs) (k_sclose fm) (w_scomma fm) mbody (sclose_closing fm) cnd_close mtok mstep cnd_item mitem_inv mitem_fwd tr pre ls1 _ _ (k, x) l ls3 (UnexpectedKey k) C Hm1 Hl HF) as [N HN].
    exists (Nat.max N (S (length ls1))). intros n Hn tail b u Hd Hu0. unfold de_named, obj_toks in *. cbn [app] in Hu0. rewrite <- app_assoc in Hu0. cbn [app] in Hu0.
    destruct (expect2 (k_sopen fm) (w_sopen fm) u _ _ b Hu0 sopen_is) as (u1 & E1 & A1); [left; destruct (jt _ tr); discriminate|].
    destruct (HN n n ltac:(lia) ltac:(lia) tail b u1 A1) as (u2 & e & E2 & Em).
    exists u2, e. unfold pbind at 1. rewrite E1. unfold pbind at 1. rewrite E2. auto.
  Qed.
End Named.
