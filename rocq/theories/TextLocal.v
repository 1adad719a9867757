(** A reader that succeeds has used a prefix of the tokens, of bracket balance
    zero, and does the same on these tokens whatever follows them. *)
From Verif Require Import Base Utf8 Types BinModel Text TextModel TextSim TextToks TextLex TextRead.
Local Open Scope N_scope.

(** Tokens that come out of the lexer. *)
Definition real (fm : fmt) (t : ltok) : bool :=
  match t with
  | LP KStr | LP KIdent | LP KEof | LP KBof | LP KBareIdent | LP (KChar _) => false
  | LP KParenOpen | LP KParenClose => match fm with Json => false | Ron => true end
  | LP KNull => match fm with Json => true | Ron => false end
  | LId _ => match fm with Json => false | Ron => true end
  | _ => true
  end.
Definition wtk (t : tok) : Z :=
  match t with
  | KBlockOpen | KCurlyOpen | KParenOpen => 1
  | KBlockClose | KCurlyClose | KParenClose => -1
  | _ => 0
  end.
Definition wt (l : list ltok) : Z := fold_right (fun t z => (wtk (ltok_kind t) + z)%Z) 0%Z l.
Lemma wt_app a b : wt (a ++ b) = (wt a + wt b)%Z.
Proof. induction a as [|x a IH]; cbn [app wt fold_right]; [reflexivity|]. unfold wt in *. rewrite IH. lia. Qed.

(** Shapes of the tokens used up. *)
Definition nothing (l : list ltok) : Prop := l = [].
Definition tk (k : tok) (l : list ltok) : Prop := exists x, l = [x] /\ ltok_kind x = k.
(** Closes no bracket it did not open, and all it opened. *)
Definition low (l : list ltok) : Prop := wt l = 0%Z /\ forall p q, l = p ++ q -> (0 <= wt p)%Z.
(** The same, ending as soon as that can be. *)
Definition single (fm : fmt) (l : list ltok) : Prop :=
  wt l = 0%Z /\ l <> [] /\
  forall p q, l = p ++ q -> p <> [] -> q <> [] -> (0 < wt p)%Z \/
    (fm = Ron /\ exists s o q', p = [LId s] /\ q = o :: q' /\ wtk (ltok_kind o) = 1%Z).
(** Closes [d] brackets, the last one at its end. *)
Definition down (d : Z) (l : list ltok) : Prop :=
  wt l = (- d)%Z /\ l <> [] /\ forall p q, l = p ++ q -> q <> [] -> p <> [] -> (- d < wt p)%Z.

Lemma low_nil : low [].
Proof. split; [reflexivity|]. intros p q H. destruct p; [cbn; lia | discriminate]. Qed.
Lemma prefix_app {A} (a b p q : list A) : a ++ b = p ++ q ->
  (exists r, a = p ++ r /\ q = r ++ b) \/ (exists r, p = a ++ r /\ b = r ++ q /\ r <> []).
Proof.
  revert p; induction a as [|x a IH]; intros p H.
  - destruct p as [|y p]; [left; exists []; auto|]. right. exists (y :: p). cbn in *. repeat split; auto. discriminate.
  - destruct p as [|y p]; [left; exists (x :: a); auto|]. cbn in H. injection H as -> H.
    destruct (IH _ H) as [(r & -> & ->)|(r & -> & -> & Hr)]; [left | right]; exists r; auto.
Qed.
Lemma low_app a b : low a -> low b -> low (a ++ b).
Proof.
  intros [A1 A2] [B1 B2]. split; [rewrite wt_app; lia|]. intros p q H.
  destruct (prefix_app _ _ _ _ H) as [(r & -> & _)|(r & -> & -> & _)]; [eapply A2; reflexivity|].
  rewrite wt_app. specialize (B2 r q eq_refl). lia.
Qed.
Lemma tk_low k l : wtk k = 0%Z -> tk k l -> low l.
Proof.
  intros Hk (x & -> & Hx). rewrite <- Hx in Hk. split; [cbn; lia|]. intros p q H.
  destruct p as [|y p]; [cbn; lia|]. destruct p; [|destruct p; discriminate]. injection H as -> _. cbn. lia.
Qed.
Lemma single_low fm l : single fm l -> low l.
Proof.
  intros (H1 & H2 & H3). split; [exact H1|]. intros p q H. destruct p as [|x p]; [cbn; lia|].
  destruct q as [|y q]; [rewrite app_nil_r in H; subst; lia|].
  destruct (H3 _ _ H) as [H4|(_ & s & o & q' & E & _)]; try discriminate; [lia|]. rewrite E. cbn. lia.
Qed.
Lemma tk_ne k l : tk k l -> l <> [].
Proof. intros (x & -> & _). discriminate. Qed.
Lemma tk_wt k l : tk k l -> wt l = wtk k.
Proof. intros (x & -> & <-). cbn. lia. Qed.
Lemma single_ne fm l : single fm l -> l <> []. Proof. intros (_ & H & _). exact H. Qed.
(** One value that is not a RON name with a body. *)
Definition strict (l : list ltok) : Prop :=
  wt l = 0%Z /\ l <> [] /\ forall p q, l = p ++ q -> p <> [] -> q <> [] -> (0 < wt p)%Z.
Lemma strict_single fm l : strict l -> single fm l.
Proof. intros (H1 & H2 & H3). repeat split; auto. intros p q H Hp Hq. left. eauto. Qed.
Lemma strict_low l : strict l -> low l.
Proof. intro H. apply (single_low Json), strict_single, H. Qed.
Lemma strict_ne l : strict l -> l <> []. Proof. intros (_ & H & _). exact H. Qed.
Lemma one_strict x : wtk (ltok_kind x) = 0%Z -> strict [x].
Proof.
  intro Hk. split; [cbn; lia|]. split; [discriminate|]. intros p q H Hp Hq.
  destruct p as [|y p]; [congruence|]. destruct p; [|destruct p; discriminate]. destruct q; [congruence|discriminate].
Qed.
Lemma tk_strict k l : wtk k = 0%Z -> tk k l -> strict l.
Proof. intros Hk (x & -> & Hx). apply one_strict. congruence. Qed.
(** The rest of a bracketed group. *)
Definition closes (k : tok) (l : list ltok) : Prop := exists m c, l = m ++ c /\ low m /\ tk k c.
Lemma closes_ne k l : closes k l -> l <> [].
Proof. intros (m & c & -> & _ & x & -> & _). destruct m; discriminate. Qed.
Lemma closes_app k l1 l2 : low l1 -> closes k l2 -> closes k (l1 ++ l2).
Proof. intros H (m & c & -> & Hm & Hc). exists (l1 ++ m), c. rewrite app_assoc. auto using low_app. Qed.
Lemma closes_tk k l1 l2 : low l1 -> tk k l2 -> closes k (l1 ++ l2).
Proof. intros H Hc. exists l1, l2. auto. Qed.
Lemma group_strict o c l1 l : wtk o = 1%Z -> wtk c = (-1)%Z -> tk o l1 -> closes c l -> strict (l1 ++ l).
Proof.
  intros Ho Hc (x & -> & Hx) (l2 & l3 & -> & [H1 H2] & (y & -> & Hy)). split; [|split].
  - rewrite !wt_app. cbn. rewrite Hx, Hy. lia.
  - discriminate.
  - intros p q H Hp Hq. destruct p as [|z p]; [congruence|]. injection H as <- H.
    destruct (prefix_app _ _ _ _ H) as [(r & -> & _)|(r & -> & E & Hr)].
    + specialize (H2 _ _ eq_refl). cbn. fold (wt p). rewrite Hx. lia.
    + destruct r as [|w r]; [congruence|]. injection E as <- E. destruct r; [|discriminate]. destruct q; [congruence|discriminate].
Qed.

(** What may follow: same next token; or, for whole values, neither a token
    that leaves a text in a buffer. *)
Definition neutral (t : ltok) : bool :=
  match t with LStr _ | LId _ | LP (KBool _) | LP KNull => false | _ => true end.
Definition dl (tail : list ltok) : Prop := match tail with [] => True | x :: _ => neutral x = true end.
Definition same_head (a b : list ltok) : Prop := match a, b with [], [] => True | x :: _, y :: _ => x = y | _, _ => False end.
Definition Qs := list ltok -> list ltok -> Prop.
Definition Q0 : Qs := same_head.
Definition Q1 : Qs := fun a b => same_head a b \/ (dl a /\ dl b).
Definition QA : Qs := fun _ _ => True.

Definition fmt_eq_dec (a b : fmt) : {a = b} + {a <> b}. Proof. decide equality. Defined.

Section Loc.
  Variable fm : fmt.
  Definition at2 (u : tst) (l : list ltok) (b : bool) : Prop := at_ u l b /\ forallb (real fm) l = true.

  Definition locat {A} (Q : Qs) (m : @pm tst A) (P : list ltok -> Prop) (u : tst) : Prop :=
    forall u' v b toks, at2 u toks b -> m u = (u', Ok v) ->
      exists l tail, toks = l ++ tail /\ at2 u' tail b /\ (l <> [] -> go_on tail b) /\ P l /\
        forall tail2 b2 u2, Q tail tail2 -> go_on tail2 b2 -> at2 u2 (l ++ tail2) b2 ->
          exists u2', m u2 = (u2', Ok v) /\ at2 u2' tail2 b2.
  Definition loc {A} (Q : Qs) (m : @pm tst A) (P : list ltok -> Prop) : Prop := forall u, locat Q m P u.
  Notation vshape := (single fm).

  Lemma loc_weak {A} (Q Q' : Qs) (m : @pm tst A) (P P' : list ltok -> Prop) u :
    (forall a b, Q' a b -> Q a b) -> (forall l, P l -> P' l) -> locat Q m P u -> locat Q' m P' u.
  Proof.
    intros HQ Hn H u' v b toks Ha E. destruct (H u' v b toks Ha E) as (l & tail & H1 & H2 & Hg & H3 & H5).
    exists l, tail. do 3 (split; [assumption|]). split; [auto|]. intros tail2 b2 u2 Hq. apply H5. auto.
  Qed.
  Lemma Q0_Q1 a b : Q0 a b -> Q1 a b. Proof. left. assumption. Qed.

  Lemma loc_ret {A} (v : A) : loc QA (pret v) nothing.
  Proof.
    intros u u' v' b toks Ha E. unfold pret in E. injection E as <- <-. exists [], toks. split; [reflexivity|]. split; [exact Ha|].
    split; [congruence|]. split; [reflexivity|].
    intros tail2 b2 u2 _ _ H. exists u2. auto.
  Qed.
  Lemma loc_never {A} Q (m : @pm tst A) P u : (forall u' v, m u <> (u', Ok v)) -> locat Q m P u.
  Proof. intros H u' v b toks _ E. exfalso. exact (H _ _ E). Qed.
  Lemma loc_err {A} Q e P u : locat Q (perr (A:=A) tok_lexer e) P u.
  Proof. apply loc_never. intros u' v. discriminate. Qed.

  Lemma at2_real u l b : at2 u l b -> forallb (real fm) l = true. Proof. intros [_ H]; exact H. Qed.
  Lemma real_app a b : forallb (real fm) (a ++ b) = true -> forallb (real fm) a = true /\ forallb (real fm) b = true.
  Proof. rewrite forallb_app. apply andb_prop. Qed.

  (** Sequencing: the second part uses at least one token or looks no further than the first does. *)
  Lemma loc_bind {A B} (Qm Qf : Qs) (m : @pm tst A) (f : A -> @pm tst B) (P1 P2 P : list ltok -> Prop) u :
    (forall a b, Q0 a b -> Qm a b) -> (forall a b, Qf a b -> Qm a b) \/ (forall l, P2 l -> l <> []) ->
    locat Qm m P1 u -> (forall a, loc Qf (f a) P2) -> (forall l1 l2, P1 l1 -> P2 l2 -> P (l1 ++ l2)) ->
    locat Qf (pbind m f) P u.
  Proof.
    intros HQ HQ2 Hm Hf HP u' v b toks Ha E. unfold pbind in E. destruct (m u) as [u1 [a|e|p|]] eqn:Em; try discriminate.
    destruct (Hm _ _ _ _ Ha Em) as (l1 & t1 & H1 & H2 & Hg1 & H3 & H5).
    destruct (Hf a _ _ _ _ _ H2 E) as (l2 & t2 & G1 & G2 & Hg2 & G3 & G5).
    exists (l1 ++ l2), t2. subst toks t1. rewrite app_assoc. split; [reflexivity|]. split; [exact G2|].
    split.
    { intro Hne. destruct l2 as [|x l2]; [|apply Hg2; discriminate]. rewrite app_nil_r in Hne. apply Hg1 in Hne.
      exact Hne. }
    split; [apply HP; assumption|].
    intros tail2 b2 u2 Hq Hgo Ha2. rewrite <- app_assoc in Ha2.
    destruct (H5 (l2 ++ tail2) b2 u2) as (u3 & E3 & A3); [| |exact Ha2|].
    - destruct l2 as [|x l2]; [|apply HQ; reflexivity]. destruct HQ2 as [HQ2|HQ2]; [apply HQ2; exact Hq|].
      exfalso. exact (HQ2 _ G3 eq_refl).
    - destruct l2; [exact Hgo|]. left; discriminate.
    - unfold pbind. rewrite E3. destruct (G5 tail2 b2 u3 Hq Hgo A3) as (u4 & E4 & A4). exists u4. split; [exact E4 | exact A4].
  Qed.
  (** A second part that uses nothing. *)
  Lemma loc_pure {A B} (Q : Qs) (m : @pm tst A) (f : A -> @pm tst B) (P : list ltok -> Prop) u : (forall a b, Q0 a b -> Q a b) ->
    locat Q m P u -> (forall a, loc QA (f a) nothing) -> locat Q (pbind m f) P u.
  Proof.
    intros HQ Hm Hf. apply (loc_bind Q Q m f P nothing); auto.
    - intros a u1. eapply loc_weak; [|intros l H; exact H|apply Hf]. intros; exact I.
    - intros l1 l2 H ->. rewrite app_nil_r. exact H.
  Qed.
  Lemma loc_map {A B} (Q : Qs) (g : A -> B) (m : @pm tst A) P u : (forall a b, Q0 a b -> Q a b) -> locat Q m P u -> locat Q (pmap g m) P u.
  Proof. intros HQ H. apply loc_pure; auto. intros a u1. apply loc_ret. Qed.

  (** Advancing over one token that is there. *)
  Lemma tok_next_ok u x tail b u' r : t_toks u = x :: tail -> t_bad u = b -> tok_next u = (u', Ok r) -> go_on tail b.
  Proof.
    intros H1 H2 H. unfold tok_next in H. rewrite H1 in H. destruct tail; [|left; discriminate].
    rewrite H2 in H. destruct b; [discriminate|]. right; reflexivity.
  Qed.
  Lemma real_cons x l : forallb (real fm) (x :: l) = true -> real fm x = true /\ forallb (real fm) l = true.
  Proof. cbn [forallb]. apply andb_prop. Qed.

  (** Inspect the current token, then advance. *)
  Lemma loc_one {A B} (m : @pm tst A) (f : A -> B) u :
    (forall x tail b u1 a, at2 u (x :: tail) b -> m u = (u1, Ok a) ->
       t_toks u1 = x :: tail /\ t_bad u1 = b /\ wtk (ltok_kind x) = 0%Z /\
       forall u2 tail2 b2, at2 u2 (x :: tail2) b2 -> exists u21, m u2 = (u21, Ok a) /\ t_toks u21 = x :: tail2 /\ t_bad u21 = b2) ->
    (t_toks u = [] -> forall u1 a, m u <> (u1, Ok a)) ->
    locat QA (pbind m (fun a => pbind (l_next tok_lexer) (fun _ => pret (f a)))) strict u.
  Proof.
    intros H H0 u' v b toks Ha E. unfold pbind in E. destruct (m u) as [u1 [a|e|p|]] eqn:Em; try discriminate.
    destruct toks as [|x tail].
    { exfalso. destruct Ha as [(T & _) _]. exact (H0 T _ _ eq_refl). }
    destruct (H x tail b u1 a Ha eq_refl) as (T1 & T2 & T3 & T4).
    cbn [l_next tok_lexer] in E. destruct (tok_next u1) as [u3 [r|e|p|]] eqn:En; try discriminate.
    injection E as <- <-.
    pose proof (tok_next_ok _ _ _ _ _ _ T1 T2 En) as Hg.
    destruct (next_raw u1 x tail b T1 T2 Hg) as (u3' & En' & A3 & _). rewrite En in En'. injection En' as <-.
    exists [x], tail. split; [reflexivity|]. split; [split; [exact A3|]; apply at2_real, real_cons in Ha; tauto|].
    split; [intros _; exact Hg|]. split; [apply one_strict; exact T3|].
    intros tail2 b2 u2 _ Hgo A2. destruct (T4 u2 tail2 b2 A2) as (u21 & E2 & S1 & S2).
    destruct (next_raw u21 x tail2 b2 S1 S2 Hgo) as (u4 & E4 & A4 & _).
    exists u4. unfold pbind. rewrite E2. cbn [l_next tok_lexer]. rewrite E4. split; [reflexivity|].
    split; [exact A4|]. apply at2_real, real_cons in A2. tauto.
  Qed.

  Lemma kind_eq x k : tok_is (ltok_kind x) k = true -> ltok_kind x = k.
  Proof. destruct (ltok_kind x), k; try discriminate; reflexivity. Qed.
  Lemma tok_nil u b : at2 u [] b -> l_tok tok_lexer u = KEof.
  Proof. intros [H _]. eapply tok_at_nil; exact H. Qed.

  Lemma loc_expect k w : k <> KEof -> loc QA (expect tok_lexer k w) (tk k).
  Proof.
    intros Hk u u' v b toks Ha E. unfold expect in E.
    destruct (tok_is (l_tok tok_lexer u) k) eqn:Et; [|discriminate].
    destruct toks as [|x tail]; [rewrite (tok_nil _ _ Ha) in Et; destruct k; discriminate + congruence|].
    destruct Ha as [Ha Hr]. rewrite (tok_at _ _ _ _ Ha) in Et.
    destruct Ha as (T1 & T2 & T3). cbn [l_next tok_lexer] in E.
    pose proof (tok_next_ok _ _ _ _ _ _ T1 T2 E) as Hg.
    destruct (next_raw u x tail b T1 T2 Hg) as (u3' & En' & A3 & _). rewrite E in En'. injection En' as <-.
    exists [x], tail. split; [reflexivity|]. split; [split; [exact A3|apply real_cons in Hr; tauto]|].
    split; [auto|]. split; [exists x; split; [reflexivity | exact (kind_eq _ _ Et)]|].
    intros tail2 b2 u2 _ Hgo [A2 R2]. destruct (expect_at k w u2 x tail2 b2 A2 Et Hgo) as (u4 & E4 & A4 & _).
    destruct v. exists u4. split; [exact E4|]. split; [exact A4|]. apply real_cons in R2. tauto.
  Qed.
  Lemma at2_tok u x tail b : at2 u (x :: tail) b -> l_tok tok_lexer u = ltok_kind x.
  Proof. intros [H _]. eapply tok_at; exact H. Qed.
  Lemma same_head_tok u u2 b b2 t t2 : at2 u t b -> at2 u2 t2 b2 -> same_head t t2 -> l_tok tok_lexer u2 = l_tok tok_lexer u.
  Proof.
    intros H H2 Hs. destruct t as [|x t], t2 as [|y t2]; try contradiction.
    - rewrite (tok_nil _ _ H), (tok_nil _ _ H2). reflexivity.
    - simpl in Hs. subst y. rewrite (at2_tok _ _ _ _ H), (at2_tok _ _ _ _ H2). reflexivity.
  Qed.
  Lemma loc_eat_comma k w : closing k -> loc Q0 (eat_comma tok_lexer k w) low.
  Proof.
    intros Hk u u' v b toks Ha E. unfold eat_comma in E. destruct (tok_is (l_tok tok_lexer u) KComma) eqn:Et.
    - assert (Ee : expect tok_lexer KComma w u = (u', Ok v)) by (unfold expect; rewrite Et; exact E).
      destruct (loc_expect KComma w ltac:(discriminate) u u' v b toks Ha Ee) as (l & tail & H1 & H2 & Hg & H3 & H5).
      exists l, tail. do 3 (split; [assumption|]). split; [eapply tk_low; [|exact H3]; reflexivity|].
      intros tail2 b2 u2 _ Hgo A2. destruct (H5 tail2 b2 u2 I Hgo A2) as (u4 & E4 & A4).
      exists u4. split; [|exact A4]. unfold expect in E4. unfold eat_comma.
      destruct (tok_is (l_tok tok_lexer u2) KComma) eqn:Et2; [exact E4 | discriminate].
    - destruct (tok_is (l_tok tok_lexer u) k) eqn:Ek; [|discriminate]. injection E as <- <-.
      exists [], toks. split; [reflexivity|]. split; [exact Ha|]. split; [congruence|]. split; [apply low_nil|].
      intros tail2 b2 u2 Hq Hgo A2. cbn [app] in A2. exists u2. split; [|exact A2].
      unfold eat_comma. rewrite (same_head_tok _ _ _ _ _ _ Ha A2 Hq), Et, Ek. reflexivity.
  Qed.

  Lemma loc_while {A} n (cond : tst -> bool) (body : A -> @pm tst A) :
    (forall u u2 b b2 t t2, at2 u t b -> at2 u2 t2 b2 -> same_head t t2 -> cond u2 = cond u) ->
    (forall a u, cond u = true -> locat Q0 (body a) low u) ->
    forall a, loc Q0 (while_ n cond body a) low.
  Proof.
    intros Hc Hb. induction n as [|n IH]; intros a u u' v b toks Ha E; [discriminate|].
    cbn [while_] in E. destruct (cond u) eqn:Ec.
    - assert (H : locat Q0 (pbind (body a) (while_ n cond body)) low u).
      { apply (loc_bind Q0 Q0 _ _ low low); auto using low_app. }
      destruct (H u' v b toks Ha E) as (l & tail & H1 & H2 & Hg & H3 & H5).
      exists l, tail. repeat (split; [assumption|]).
      intros tail2 b2 u2 Hq Hgo A2. destruct (H5 tail2 b2 u2 Hq Hgo A2) as (u4 & E4 & A4).
      exists u4. split; [|exact A4]. cbn [while_]. rewrite (Hc u u2 b b2 toks (l ++ tail2)); auto; [rewrite Ec; exact E4|].
      subst toks. destruct l; [exact Hq | reflexivity].
    - injection E as <- <-. exists [], toks. split; [reflexivity|]. split; [exact Ha|]. split; [congruence|]. split; [apply low_nil|].
      intros tail2 b2 u2 Hq Hgo A2. exists u2. split; [|exact A2]. cbn [while_].
      rewrite (Hc u u2 b b2 toks tail2 Ha A2 Hq), Ec. reflexivity.
  Qed.

  Lemma loc_seq {A B} (Q : Qs) (m : @pm tst A) (f : A -> @pm tst B) (P1 P2 P : list ltok -> Prop) :
    loc QA m P1 -> (forall a, loc Q (f a) P2) -> (forall l1 l2, P1 l1 -> P2 l2 -> P (l1 ++ l2)) -> loc Q (pbind m f) P.
  Proof. intros Hm Hf HP u. apply (loc_bind QA Q m f P1 P2 P u); auto; [intros; exact I | left; intros; exact I]. Qed.
  (** A value, then something that looks at the next token. *)
  Lemma loc_val {A B} (m : @pm tst A) (f : A -> @pm tst B) (P1 P2 P : list ltok -> Prop) :
    loc Q1 m P1 -> (forall a, loc Q0 (f a) P2) -> (forall l1 l2, P1 l1 -> P2 l2 -> P (l1 ++ l2)) -> loc Q0 (pbind m f) P.
  Proof. intros Hm Hf HP u. apply (loc_bind Q1 Q0 m f P1 P2 P u); auto using Q0_Q1. Qed.
  (** Anything, then something that uses at least one token. *)
  Lemma loc_then {A B} (Qm Q : Qs) (m : @pm tst A) (f : A -> @pm tst B) (P1 P2 P : list ltok -> Prop) :
    (forall a b, Q0 a b -> Qm a b) -> (forall l, P2 l -> l <> []) ->
    loc Qm m P1 -> (forall a, loc Q (f a) P2) -> (forall l1 l2, P1 l1 -> P2 l2 -> P (l1 ++ l2)) -> loc Q (pbind m f) P.
  Proof. intros HQ Hne Hm Hf HP u. apply (loc_bind Qm Q m f P1 P2 P u); auto. Qed.
  Lemma loc_retQ {A} (Q : Qs) (v : A) : loc Q (pret v) nothing.
  Proof. intro u. apply (loc_weak QA Q _ nothing nothing); [intros; exact I | auto | apply loc_ret]. Qed.
  Lemma loc_to {A} (Q : Qs) (m : @pm tst A) (P P' : list ltok -> Prop) : (forall l, P l -> P' l) -> loc Q m P -> loc Q m P'.
  Proof. intros HP H u. apply (loc_weak Q Q m P P' u); [auto | exact HP | apply H]. Qed.
  Lemma loc_up {A} (Q Q' : Qs) (m : @pm tst A) (P : list ltok -> Prop) : (forall a b, Q' a b -> Q a b) -> loc Q m P -> loc Q' m P.
  Proof. intros HQ H u. apply (loc_weak Q Q' m P P u); [exact HQ | auto | apply H]. Qed.
  Lemma loc_A {A} (Q : Qs) (m : @pm tst A) (P : list ltok -> Prop) : loc QA m P -> loc Q m P.
  Proof. apply loc_up. intros; exact I. Qed.
  Lemma loc_mapQ {A B} (Q : Qs) (g : A -> B) (m : @pm tst A) P : (forall a b, Q0 a b -> Q a b) -> loc Q m P -> loc Q (pmap g m) P.
  Proof. intros HQ H u. apply loc_map; [exact HQ | apply H]. Qed.
  Lemma loc_pureQ {A B} (Q : Qs) (m : @pm tst A) (f : A -> @pm tst B) P : (forall a b, Q0 a b -> Q a b) ->
    loc Q m P -> (forall a, loc QA (f a) nothing) -> loc Q (pbind m f) P.
  Proof. intros HQ H Hf u. apply loc_pure; auto. Qed.
  Lemma none_low l : nothing l -> low l. Proof. intros ->. apply low_nil. Qed.
  Ltac shp := intros; repeat match goal with H : nothing _ |- _ => red in H; subst end; rewrite ?app_nil_r; cbn [app];
    first [ assumption | apply low_app; shp | eapply tk_low; [|eassumption]; reflexivity | eapply single_low; eassumption | apply low_nil | idtac ].

  (** ** Scalars *)
  Lemma loc_peek {A B} (m : @pm tst A) (f : A -> B) :
    (forall u u1 a, m u = (u1, Ok a) -> u1 = u /\ wtk (l_tok tok_lexer u) = 0%Z /\ l_tok tok_lexer u <> KEof /\
       forall u2, l_tok tok_lexer u2 = l_tok tok_lexer u -> m u2 = (u2, Ok a)) ->
    loc QA (pbind m (fun a => pbind (l_next tok_lexer) (fun _ => pret (f a)))) strict.
  Proof.
    intros H u. apply loc_one.
    - intros x tail b u1 a Ha E. destruct (H _ _ _ E) as (-> & H1 & H2 & H3). rewrite (at2_tok _ _ _ _ Ha) in H1.
      destruct Ha as [(T1 & T2 & T3) _]. split; [exact T1|]. split; [exact T2|]. split; [exact H1|].
      intros u2 tail2 b2 A2. exists u2. split; [|destruct A2 as [(S1 & S2 & _) _]; auto].
      apply H3. rewrite (at2_tok _ _ _ _ A2). cbn. rewrite T1. reflexivity.
    - intros T u1 a E. destruct (H _ _ _ E) as (_ & _ & H2 & _). apply H2. cbn. rewrite T. reflexivity.
  Qed.
  Lemma loc_u64_range {B} max (f : N -> B) :
    loc QA (pbind (u64_range tok_lexer max) (fun v => pbind (l_next tok_lexer) (fun _ => pret (f v)))) strict.
  Proof.
    apply loc_peek. intros u u1 a E. unfold u64_range in *. destruct (l_tok tok_lexer u) eqn:Et; try discriminate.
    destruct (max <? n) eqn:Em; [discriminate|]. injection E as <- <-. repeat split; try discriminate.
    intros u2 E2. rewrite E2, Em. reflexivity.
  Qed.
  Lemma loc_i64_range {B} mn mx (f : Z -> B) :
    loc QA (pbind (i64_range tok_lexer mn mx) (fun v => pbind (l_next tok_lexer) (fun _ => pret (f v)))) strict.
  Proof.
    apply loc_peek. intros u u1 a E. unfold i64_range in *. destruct (l_tok tok_lexer u) eqn:Et; try discriminate.
    - destruct (mx <? u64_as_i64 n)%Z eqn:Em; [discriminate|]. injection E as <- <-. repeat split; try discriminate.
      intros u2 E2. rewrite E2, Em. reflexivity.
    - destruct (z <? mn)%Z eqn:Em; [discriminate|]. injection E as <- <-. repeat split; try discriminate.
      intros u2 E2. rewrite E2, Em. reflexivity.
  Qed.
  Lemma loc_int c k : loc QA (de_int tok_lexer c k) strict.
  Proof.
    destruct k; try (intro u; apply loc_never; discriminate);
      first [apply (loc_u64_range _ (fun v => VZ (cast c _ (Z.of_N v)))) | apply (loc_i64_range _ _ (fun v => VZ (cast c _ v)))].
  Qed.
  Lemma loc_f64 F : loc QA (de_f64 tok_lexer F) strict.
  Proof.
    apply (loc_peek (as_f64 tok_lexer F) (fun b => b)). intros u u1 a E. unfold as_f64 in *.
    destruct (l_tok tok_lexer u) eqn:Et; try discriminate; injection E as <- <-; repeat split; try discriminate;
      intros u2 E2; rewrite E2; reflexivity.
  Qed.
  Lemma loc_bool : loc QA (de_bool tok_lexer fm) strict.
  Proof.
    apply (loc_peek (as_bool tok_lexer fm) VBool). intros u u1 a E. unfold as_bool in *.
    destruct (l_tok tok_lexer u) eqn:Et; try discriminate.
    - destruct fm; [discriminate|]. injection E as <- <-; repeat split; try discriminate. intros u2 E2; rewrite E2; reflexivity.
    - destruct fm; injection E as <- <-; repeat split; try discriminate; intros u2 E2; rewrite E2; reflexivity.
  Qed.
  Lemma loc_str : loc QA (de_str tok_lexer) strict.
  Proof.
    intro u. apply (loc_one (as_string tok_lexer) (fun x => x)).
    - intros x tail b u1 a Ha E. unfold as_string in *. rewrite (at2_tok _ _ _ _ Ha) in E.
      destruct (tok_is (ltok_kind x) KStr) eqn:Et; [|discriminate].
      injection E as <- <-. apply kind_eq in Et.
      assert (Hx : exists s, x = LStr s).
      { apply at2_real, real_cons in Ha as [Hr _]. destruct x as [s|s|t]; [eauto|discriminate|]. cbn in Et. subst t. discriminate. }
      destruct Hx as [s ->].
      destruct Ha as [(T1 & T2 & T3) _]. split; [exact T1|]. split; [exact T2|]. split; [reflexivity|].
      unfold loaded in T3. rewrite T1 in T3. cbn [l_str tok_lexer]. rewrite T3.
      intros u2 tail2 b2 A2. rewrite (at2_tok _ _ _ _ A2). cbn [ltok_kind tok_is].
      destruct A2 as [(S1 & S2 & S3) _]. unfold loaded in S3. rewrite S1 in S3.
      eexists. split; [cbn [l_str tok_lexer]; rewrite S3; reflexivity|]. split; [exact S1 | exact S2].
    - intros T u1 a. unfold as_string. cbn. rewrite T. discriminate.
  Qed.
  Lemma at_none_head u u2 x t b t2 b2 : at2 u (x :: t) b -> at2 u2 (x :: t2) b2 -> at_none tok_lexer fm u2 = at_none tok_lexer fm u.
  Proof.
    intros H H2. pose proof (at2_tok _ _ _ _ H) as E1. pose proof (at2_tok _ _ _ _ H2) as E2.
    unfold at_none. rewrite E1, E2. destruct fm; [reflexivity|].
    destruct (tok_is (ltok_kind x) KIdent) eqn:Et; [|reflexivity]. cbn [andb].
    apply kind_eq in Et. destruct x as [s|s|t0]; [discriminate| |cbn in Et; subst t0].
    - destruct H as [(T1 & _ & T3) _], H2 as [(S1 & _ & S3) _]. unfold loaded in *. rewrite T1 in T3. rewrite S1 in S3.
      cbn. congruence.
    - apply at2_real, real_cons in H as [Hr _]. discriminate.
  Qed.

  Lemma loc_opt de0 : loc Q1 de0 vshape -> loc Q1 (de_opt tok_lexer fm de0) vshape.
  Proof.
    intros Hd u u' v b toks Ha E. unfold de_opt in E. destruct (at_none tok_lexer fm u) eqn:En.
    - destruct toks as [|x tail].
      { exfalso. unfold at_none in En. rewrite (tok_nil _ _ Ha) in En. destruct fm; discriminate. }
      assert (Hw : wtk (ltok_kind x) = 0%Z).
      { unfold at_none in En. rewrite (at2_tok _ _ _ _ Ha) in En. destruct fm.
        - apply kind_eq in En. rewrite En. reflexivity.
        - apply andb_prop in En as [En _]. apply kind_eq in En. rewrite En. reflexivity. }
      assert (Ho : locat QA (pbind (fun u => if at_none tok_lexer fm u then (u, Ok tt) else (u, NoFuel))
                     (fun a => pbind (l_next tok_lexer) (fun _ => pret VNone))) strict u).
      { apply (loc_one _ (fun _ => VNone)).
        - intros y t b0 u1 a Ha2 E2. rewrite En in E2. injection E2 as <- <-.
          assert (y :: t = x :: tail). { destruct Ha as [(T & _) _], Ha2 as [(S & _) _]. congruence. }
          destruct Ha2 as [(T1 & T2 & T3) R]. split; [exact T1|]. split; [exact T2|]. split; [congruence|].
          intros u2 tail2 b2 A2. exists u2. rewrite (at_none_head u u2 y t b0 tail2 b2), En; [|split; [repeat split|]; assumption|assumption].
          split; [reflexivity|]. destruct A2 as [(S1 & S2 & _) _]; auto.
        - intros T. destruct Ha as [(T1 & _) _]. congruence. }
      destruct (Ho u' v b (x :: tail) Ha) as (l & t & H1 & H2 & Hg & H3 & H5).
      { unfold pbind at 1. rewrite En. exact E. }
      exists l, t. do 3 (split; [assumption|]). split; [apply strict_single; exact H3|]. intros tail2 b2 u2 _ Hgo A2.
      destruct (H5 tail2 b2 u2 I Hgo A2) as (u4 & E4 & A4). exists u4. split; [|exact A4].
      unfold de_opt. unfold pbind at 1 in E4. destruct (at_none tok_lexer fm u2); [exact E4 | discriminate].
    - assert (Hm : loc Q1 (pmap VSome de0) vshape) by (apply loc_mapQ; [exact Q0_Q1 | exact Hd]).
      destruct (Hm u u' v b toks Ha E) as (l & t & H1 & H2 & Hg & H3 & H5).
      exists l, t. repeat (split; [assumption|]). intros tail2 b2 u2 Hq Hgo A2.
      destruct (H5 tail2 b2 u2 Hq Hgo A2) as (u4 & E4 & A4). exists u4. split; [|exact A4].
      unfold de_opt. destruct l as [|x l]; [exfalso; exact (single_ne _ _ H3 eq_refl)|]. subst toks.
      cbn [app] in *. rewrite (at_none_head u u2 _ _ _ _ _ Ha A2), En. exact E4.
  Qed.

  (** Two readers that agree on states with the same current token. *)
  Lemma loc_switch {A} (Q : Qs) (m m' : @pm tst A) (P : list ltok -> Prop) u : (forall l, P l -> l <> []) -> m u = m' u ->
    (forall x t b u2 t2 b2, at2 u (x :: t) b -> at2 u2 (x :: t2) b2 -> m u2 = m' u2) ->
    locat Q m' P u -> locat Q m P u.
  Proof.
    intros HP E0 E1 H u' v b toks Ha E. rewrite E0 in E.
    destruct (H u' v b toks Ha E) as (l & t & H1 & H2 & Hg & H3 & H5).
    exists l, t. repeat (split; [assumption|]). intros tail2 b2 u2 Hq Hgo A2.
    destruct (H5 tail2 b2 u2 Hq Hgo A2) as (u4 & E4 & A4). exists u4. split; [|exact A4].
    destruct l as [|x l]; [exfalso; exact (HP _ H3 eq_refl)|]. subst toks. cbn [app] in *.
    rewrite (E1 _ _ _ _ _ _ Ha A2). exact E4.
  Qed.
  Lemma same_tok x u t b u2 t2 b2 : at2 u (x :: t) b -> at2 u2 (x :: t2) b2 -> l_tok tok_lexer u2 = l_tok tok_lexer u.
  Proof. intros H H2. rewrite (at2_tok _ _ _ _ H), (at2_tok _ _ _ _ H2). reflexivity. Qed.
  Lemma cond_not k u u2 b b2 t t2 : at2 u t b -> at2 u2 t2 b2 -> same_head t t2 ->
    negb (tok_is (l_tok tok_lexer u2) k) = negb (tok_is (l_tok tok_lexer u) k).
  Proof. intros H H2 Hs. rewrite (same_head_tok _ _ _ _ _ _ H H2 Hs). reflexivity. Qed.

  (** A bracketed group: everything inside up to the closing bracket. *)
  Lemma loc_group {A B} o cl w w' (m : @pm tst A) (k : A -> @pm tst B) :
    o <> KEof -> cl <> KEof -> wtk o = 1%Z -> wtk cl = (-1)%Z ->
    loc Q0 m low -> (forall a, loc QA (k a) nothing) ->
    loc QA (pbind (expect tok_lexer o w) (fun _ => pbind m (fun a => pbind (expect tok_lexer cl w') (fun _ => k a)))) strict.
  Proof.
    intros Ho Hcl Hw Hw' Hm Hk.
    apply (loc_seq QA _ _ (tk o) (closes cl) strict); [apply loc_expect; exact Ho| |intros; eapply group_strict; eassumption].
    intros _. apply (loc_then Q0 QA _ _ low (tk cl)); [auto | apply tk_ne | exact Hm | | intros; apply closes_tk; assumption].
    intro a. apply loc_pureQ; [intros; exact I | apply loc_expect; exact Hcl | intros _; apply Hk].
  Qed.

  (** ** Duration and SystemTime *)
  Lemma loc_u64 k : loc QA (de_u64 tok_lexer k) strict.
  Proof. apply (loc_u64_range _ (fun v => v)). Qed.
  Lemma loc_eat_ret {A} cl w (a : A) : closing cl -> loc Q0 (pbind (eat_comma tok_lexer cl w) (fun _ => pret a)) low.
  Proof. intros Hc. apply loc_pureQ; [auto | apply loc_eat_comma; exact Hc | intro; apply loc_ret]. Qed.
  Lemma loc_dur_body a : loc Q0 (dur_body tok_lexer a) low.
  Proof.
    unfold dur_body. apply (loc_seq Q0 _ _ strict low); [apply loc_str| |shp; apply strict_low; assumption].
    intro key.
    apply (loc_seq Q0 _ _ low low); [| |shp].
    - assert (Hi : forall k (g : N -> option N * option N), loc QA (pbind (p_colon tok_lexer) (fun _ => pbind (de_u64 tok_lexer k) (fun v => pret (g v)))) low).
      { intros k g. apply (loc_seq QA _ _ (tk KColon) strict); [apply (loc_expect KColon); discriminate| |shp; apply strict_low; assumption].
        intros _. apply loc_pureQ; [intros; exact I | apply loc_u64 | intro; apply loc_ret]. }
      destruct (str_eqb key _).
      + destruct (fst a); [intro u; apply loc_err|]. apply (Hi U64 (fun v => (Some v, snd a))).
      + destruct (str_eqb key _); [|intro u; apply loc_err].
        destruct (snd a); [intro u; apply loc_err|]. apply (Hi U32 (fun v => (fst a, Some v))).
    - intro a'. apply loc_eat_ret. right; left; reflexivity.
  Qed.
  Lemma loc_dur n : loc QA (de_dur tok_lexer n) strict.
  Proof.
    unfold de_dur. apply loc_group; try discriminate; [reflexivity|reflexivity| |].
    - apply loc_while; [intros; eapply cond_not; eassumption|]. intros a u _. apply loc_dur_body.
    - intro a. destruct (fst a); [|intro u; apply loc_err]. destruct (_ <? _); [intro u; apply loc_err|].
      destruct (_ <? _); [apply loc_ret|]. destruct (_ <? _); [apply loc_ret|]. intro u; apply loc_never; discriminate.
  Qed.
  Lemma loc_time c n : loc Q1 (de_time tok_lexer c fm n) vshape.
  Proof.
    unfold de_time. apply loc_pureQ; [exact Q0_Q1 | |].
    - apply loc_opt. apply (loc_to _ _ strict); [intros; apply strict_single; assumption|]. apply loc_A, loc_dur.
    - intro v. destruct v; try apply loc_ret. destruct v; try apply loc_ret.
      destruct (_ <=? _); [apply loc_ret|]. intro; apply loc_never; discriminate.
  Qed.

  (** ** Skipping an unknown field (JSON) *)
  Lemma whole_eof n : forall d u b, at2 u [] b -> d <> 0 -> snd (whole_loop tok_lexer n d u) = NoFuel.
  Proof.
    induction n as [|n IH]; intros d u b Ha Hd; [reflexivity|]. cbn [whole_loop]. rewrite (tok_nil _ _ Ha).
    unfold pbind. cbn [l_next tok_lexer]. unfold tok_next. pose proof Ha as [(T & _) _]. rewrite T.
    replace (d =? 0) with false by lia. eapply IH; eassumption.
  Qed.

  Lemma loc_whole n : fm = Json -> forall d u,
    (d <> 0 \/ l_tok tok_lexer u = KBlockOpen \/ l_tok tok_lexer u = KCurlyOpen) ->
    locat QA (whole_loop tok_lexer n d) (down (Z.of_N d)) u.
  Proof.
    intro Hj. induction n as [|n IH]; intros d u Hd; [apply loc_never; discriminate|].
    intros u' v b toks Ha E.
    destruct toks as [|x tail].
    { exfalso. destruct Hd as [Hd|[Hd|Hd]]; try (rewrite (tok_nil _ _ Ha) in Hd; discriminate).
      pose proof (whole_eof (S n) d u b Ha Hd) as W. rewrite E in W. discriminate. }
    pose proof (at2_tok _ _ _ _ Ha) as Et.
    assert (Hrx : real fm x = true) by (apply at2_real, real_cons in Ha; tauto).
    set (d2 := match ltok_kind x with KBlockClose | KCurlyClose => (match ltok_kind x with KBlockOpen | KCurlyOpen => d + 1 | _ => d end) - 1
               | _ => match ltok_kind x with KBlockOpen | KCurlyOpen => d + 1 | _ => d end end).
    assert (Hd2 : Z.of_N d2 = (Z.of_N d + wtk (ltok_kind x))%Z).
    { rewrite Et in Hd. subst d2. rewrite Hj in Hrx.
      destruct x as [|y|t]; [cbn; lia | cbn; lia |]. destruct t; cbn in *; try lia; try discriminate;
      destruct Hd as [Hd|[Hd|Hd]]; try discriminate; lia. }
    assert (Hstep : forall u0 t0 b0, at2 u0 (x :: t0) b0 -> whole_loop tok_lexer (S n) d u0 =
      pbind (l_next tok_lexer) (fun _ => if d2 =? 0 then pret tt else whole_loop tok_lexer n d2) u0).
    { intros u0 t0 b0 H0. cbn [whole_loop]. rewrite (at2_tok _ _ _ _ H0). reflexivity. }
    rewrite (Hstep _ _ _ Ha) in E. unfold pbind in E. cbn [l_next tok_lexer] in E.
    destruct (tok_next u) as [u1 [r|e|p|]] eqn:En; try discriminate.
    pose proof Ha as [(T1 & T2 & T3) Hr].
    pose proof (tok_next_ok _ _ _ _ _ _ T1 T2 En) as Hg.
    destruct (next_raw u x tail b T1 T2 Hg) as (u1' & En' & A1 & _). rewrite En in En'. injection En' as <- _.
    assert (A1' : at2 u1 tail b) by (split; [exact A1 | apply real_cons in Hr; tauto]).
    assert (Hnext : forall u2 t2 b2, go_on t2 b2 -> at2 u2 (x :: t2) b2 -> exists u3, tok_next u2 = (u3, Ok tt) /\ at2 u3 t2 b2).
    { intros u2 t2 b2 G2 [(S1 & S2 & S3) R2]. destruct (next_raw u2 x t2 b2 S1 S2 G2) as (u3 & E3 & A3 & _).
      exists u3. split; [exact E3|]. split; [exact A3|]. apply real_cons in R2; tauto. }
    destruct (d2 =? 0) eqn:E0.
    - injection E as <- <-. exists [x], tail. split; [reflexivity|]. split; [exact A1'|]. split; [auto|].
      split; [split; [cbn; lia|]; split; [discriminate|]; intros p q H Hq Hp; destruct p as [|y [|]]; [congruence | destruct q; [congruence|discriminate] | discriminate]|].
      intros tail2 b2 u2 _ Hgo A2. cbn [app] in A2. destruct (Hnext u2 tail2 b2 Hgo A2) as (u3 & E3 & A3).
      exists u3. split; [|exact A3]. rewrite (Hstep _ _ _ A2). unfold pbind. cbn [l_next tok_lexer]. rewrite E3. reflexivity.
    - assert (Hne : d2 <> 0) by lia.
      destruct (IH d2 u1 (or_introl Hne) u' v b tail A1' E) as (l & t & H1 & H2 & Hg2 & H3 & H5).
      exists (x :: l), t. subst tail. split; [reflexivity|]. split; [exact H2|]. destruct H3 as (H3 & H4 & H6).
      split; [auto|]. split.
      { split; [cbn [wt fold_right]; fold (wt l); lia|]. split; [discriminate|]. intros p q Hpq Hq Hp.
        destruct p as [|y p]; [congruence|]. injection Hpq as <- Hpq. cbn [wt fold_right]; fold (wt p).
        destruct p as [|z p]; [cbn; lia|]. specialize (H6 _ _ Hpq Hq). assert (z :: p <> []) by discriminate. specialize (H6 H). lia. }
      intros tail2 b2 u2 Hq Hgo A2. cbn [app] in A2.
      destruct (Hnext u2 (l ++ tail2) b2) as (u3 & E3 & A3); [left; destruct l; [congruence|discriminate] | exact A2|].
      destruct (H5 tail2 b2 u3 Hq Hgo A3) as (u4 & E4 & A4). exists u4. split; [|exact A4].
      rewrite (Hstep _ _ _ A2). unfold pbind. cbn [l_next tok_lexer]. rewrite E3. exact E4.
  Qed.
  Lemma loc_whole_field n : fm = Json -> loc QA (whole_field tok_lexer n) strict.
  Proof.
    intros Hj u.
    destruct (match l_tok tok_lexer u with KBlockOpen | KCurlyOpen => true | _ => false end) eqn:Eo.
    - apply (loc_switch QA _ (whole_loop tok_lexer n 0)); [apply strict_ne| | |].
      + unfold whole_field. destruct (l_tok tok_lexer u); try discriminate; reflexivity.
      + intros x t b u2 t2 b2 H H2. unfold whole_field. rewrite (same_tok _ _ _ _ _ _ _ H H2).
        destruct (l_tok tok_lexer u); try discriminate; reflexivity.
      + apply (loc_weak QA QA _ (down (Z.of_N 0))); [auto | intros l (W1 & W2 & W3); split; [exact W1|]; split; [exact W2|]; intros p q; intros; eapply W3; eassumption|]. apply loc_whole; [exact Hj|]. right. destruct (l_tok tok_lexer u); try discriminate; auto.
    - destruct (match l_tok tok_lexer u with KF64 _ | KI64 _ | KStr | KU64 _ | KBool _ | KNull => true | _ => false end) eqn:Es.
      2:{ apply loc_never. intros u' v. unfold whole_field. destruct (l_tok tok_lexer u); discriminate. }
      apply (loc_switch QA _ (pbind (fun s => match l_tok tok_lexer s with KF64 _ | KI64 _ | KStr | KU64 _ | KBool _ | KNull => (s, Ok tt) | _ => (s, NoFuel) end)
               (fun a => pbind (l_next tok_lexer) (fun _ => pret tt)))); [apply strict_ne| | |].
      + unfold whole_field, pbind. destruct (l_tok tok_lexer u); try discriminate;
        cbn [l_next tok_lexer]; destruct (tok_next u) as [u1 [[]|e|p|]]; reflexivity.
      + intros x t b u2 t2 b2 H H2. unfold whole_field, pbind. rewrite (same_tok _ _ _ _ _ _ _ H H2).
        destruct (l_tok tok_lexer u); try discriminate;
        cbn [l_next tok_lexer]; destruct (tok_next u2) as [u1 [[]|e|p|]]; reflexivity.
      + apply (loc_peek _ (fun _ : unit => tt)). intros u0 u1 a E.
        destruct (l_tok tok_lexer u0) eqn:Et; try discriminate; injection E as <- <-; repeat split; try discriminate;
        intros u2 E2; rewrite E2; reflexivity.
  Qed.

  Section Named.
    Variable de : ty -> @pm tst val.
    Variable n : nat.
    Hypothesis Hde : forall t, loc Q1 (de t) vshape.

    Lemma loc_item t : loc Q0 (de_item tok_lexer fm de t) low.
    Proof.
      apply (loc_val _ _ vshape low); [apply Hde| |shp]. intro v.
      apply loc_eat_ret, tclose_closing.
    Qed.
    Lemma loc_comma_block t : loc Q0 (comma_block tok_lexer fm de t) low.
    Proof.
      intros u u' v b toks Ha E.
      destruct (loc_item t u u' v b toks Ha) as (l & t1 & H1 & H2 & Hg & H3 & H5).
      - unfold comma_block in E. unfold de_item, pbind.
        destruct (de t u) as [u1 [a|e|p|]]; try discriminate.
        + destruct (eat_tcomma tok_lexer fm u1) as [u2 [[]|e|p|]]; try discriminate. exact E.
        + destruct (eat_tcomma tok_lexer fm u1) as [u2 [[]|e2|p|]]; discriminate.
      - exists l, t1. repeat (split; [assumption|]). intros tail2 b2 u2 Hq Hgo A2.
        destruct (H5 tail2 b2 u2 Hq Hgo A2) as (u4 & E4 & A4). exists u4. split; [|exact A4].
        unfold comma_block. unfold de_item, pbind in E4. destruct (de t u2) as [u1 [a|e|p|]]; try discriminate.
        destruct (eat_tcomma tok_lexer fm u1) as [u3 [[]|e|p|]]; try discriminate. exact E4.
    Qed.
    Lemma loc_list (l : list (@pm tst val)) : Forall (fun p => loc Q0 p low) l -> loc Q0 (de_list l) low.
    Proof.
      induction 1 as [|p l Hp H IH]; [apply (loc_to _ _ nothing); [apply none_low | apply loc_retQ]|]. cbn [de_list]. intro u.
      apply (loc_bind Q0 Q0 _ _ low low); auto using low_app. intros a.
      apply loc_pureQ; auto. intro r. apply loc_ret.
    Qed.
    Lemma loc_bracketed (l : list (@pm tst val)) : Forall (fun p => loc Q0 p low) l -> loc QA (de_bracketed tok_lexer fm l) strict.
    Proof.
      intro H. unfold de_bracketed. apply loc_group.
      - unfold k_topen; destruct fm; discriminate.
      - unfold k_tclose; destruct fm; discriminate.
      - unfold k_topen; destruct fm; reflexivity.
      - unfold k_tclose; destruct fm; reflexivity.
      - apply loc_list; exact H.
      - intro a. apply loc_ret.
    Qed.
    Lemma loc_bracketed1 (p : @pm tst val) : loc Q1 p vshape -> loc QA (de_bracketed tok_lexer fm [p]) strict.
    Proof.
      intro H. apply loc_bracketed. constructor; [|constructor]. apply (loc_up Q1); [exact Q0_Q1|].
      apply (loc_to _ _ vshape); [intro; apply single_low | exact H].
    Qed.
    Lemma loc_body cl w {A} (g : val -> A) t : closing cl ->
      loc Q0 (pbind (de t) (fun v => pbind (eat_comma tok_lexer cl w) (fun _ => pret (g v)))) low.
    Proof.
      intro Hc. apply (loc_val _ _ vshape low); [apply Hde| |shp]. intro v.
      apply loc_eat_ret; exact Hc.
    Qed.
    Lemma loc_seqs k t : loc QA (de_seq tok_lexer de n k t) strict.
    Proof.
      unfold de_seq. apply loc_group; try discriminate; [reflexivity|reflexivity| |intro; apply loc_ret].
      apply loc_while; [intros; eapply cond_not; eassumption|]. intros a u _.
      apply (loc_body KBlockClose (chars ", or ]") (fun v => seq_add k v a) t). left; reflexivity.
    Qed.
    Lemma loc_maps k tk0 tv : loc QA (de_map tok_lexer de n k tk0 tv) strict.
    Proof.
      unfold de_map. apply loc_group; try discriminate; [reflexivity|reflexivity| |intro; apply loc_ret].
      apply loc_while; [intros; eapply cond_not; eassumption|]. intros a u _. revert u.
      apply (loc_val _ _ vshape low); [apply Hde| |shp]. intro x.
      apply (loc_seq Q0 _ _ (tk KColon) low); [apply (loc_expect KColon); discriminate| |shp].
      intros _. apply (loc_body KCurlyClose (chars ", or }") (fun y => map_add k x y a) tv). right; left; reflexivity.
    Qed.

    Lemma key_head u u2 x t b t2 b2 : tok_is (l_tok tok_lexer u) (k_key fm) = true ->
      at2 u (x :: t) b -> at2 u2 (x :: t2) b2 -> key_of tok_lexer fm u2 = key_of tok_lexer fm u.
    Proof.
      intros Hk H H2. rewrite (at2_tok _ _ _ _ H) in Hk. apply kind_eq in Hk.
      pose proof (proj1 (real_cons _ _ (at2_real _ _ _ H))) as Hr.
      destruct H as [(T1 & _ & T3) _], H2 as [(S1 & _ & S3) _]. unfold loaded in *. rewrite T1 in T3. rewrite S1 in S3.
      unfold k_key in Hk. unfold key_of. destruct fm, x as [s|s|t0]; cbn in *; try congruence; subst; discriminate.
    Qed.
    Lemma key_real u x t b : tok_is (l_tok tok_lexer u) (k_key fm) = true -> at2 u (x :: t) b -> wtk (ltok_kind x) = 0%Z.
    Proof.
      intros Hk H. rewrite (at2_tok _ _ _ _ H) in Hk. apply kind_eq in Hk. rewrite Hk. unfold k_key; destruct fm; reflexivity.
    Qed.
    Lemma next_colon_is u : tok_is (l_tok tok_lexer u) (k_key fm) = true ->
      p_next_colon tok_lexer u = pbind (expect tok_lexer (k_key fm) []) (fun _ => p_colon tok_lexer) u.
    Proof. intro H. unfold p_next_colon, pbind, expect. rewrite H. reflexivity. Qed.
    Lemma loc_colon : loc QA (p_colon tok_lexer) (tk KColon).
    Proof. apply (loc_expect KColon). discriminate. Qed.
    Definition lown (l : list ltok) : Prop := low l /\ l <> [].
    Lemma loc_key_colon2 : loc QA (pbind (expect tok_lexer (k_key fm) []) (fun _ => p_colon tok_lexer)) lown.
    Proof.
      apply (loc_seq QA _ _ (tk (k_key fm)) (tk KColon)); [apply loc_expect; unfold k_key; destruct fm; discriminate|intros _; apply loc_colon|].
      intros l1 l2 H1 H2. split; [|apply tk_ne in H1; destruct l1; [congruence|discriminate]]. apply low_app; [|shp]. eapply tk_low; [|exact H1]. unfold k_key; destruct fm; reflexivity.
    Qed.
    Lemma loc_key_colon : loc QA (pbind (expect tok_lexer (k_key fm) []) (fun _ => p_colon tok_lexer)) low.
    Proof.
      apply (loc_seq QA _ _ (tk (k_key fm)) (tk KColon)); [apply loc_expect; unfold k_key; destruct fm; discriminate|intros _; apply loc_colon|].
      intros l1 l2 H1 H2. apply low_app; [|shp]. eapply tk_low; [|exact H1]. unfold k_key; destruct fm; reflexivity.
    Qed.
    Lemma loc_field f : loc Q1 (de_field de f) vshape.
    Proof. unfold de_field. destruct (_ && _); [apply loc_mapQ; [exact Q0_Q1 | apply Hde] | apply Hde]. Qed.

    Lemma loc_named_body fs acc u : tok_is (l_tok tok_lexer u) (k_key fm) = true ->
      locat Q0 (named_body tok_lexer fm de n fs acc) low u.
    Proof.
      intro Hk. set (P := fun l : list ltok => low l /\ l <> []). apply (loc_weak Q0 Q0 _ P); [auto | intros l [H _]; exact H|].
      assert (HPn : forall l, P l -> l <> []) by (intros l [_ H]; exact H).
      assert (Hkey : forall x t b u2 t2 b2, at2 u (x :: t) b -> at2 u2 (x :: t2) b2 ->
        key_of tok_lexer fm u2 = key_of tok_lexer fm u /\ tok_is (l_tok tok_lexer u2) (k_key fm) = true).
      { intros x t b u2 t2 b2 H H2. split; [eapply key_head; eassumption|]. rewrite (same_tok _ _ _ _ _ _ _ H H2). exact Hk. }
      assert (Hfin : forall acc', loc Q0 (pbind (eat_scomma tok_lexer fm) (fun _ => pret (acc' : list (option val)))) low).
      { intro acc'. apply loc_eat_ret, sclose_closing. }
      assert (Hpc : forall (m : @pm tst (list (option val))) u0, tok_is (l_tok tok_lexer u0) (k_key fm) = true ->
         pbind (pbind (p_next_colon tok_lexer) (fun _ => m)) (fun acc' => pbind (eat_scomma tok_lexer fm) (fun _ => pret acc')) u0 =
         pbind (pbind (expect tok_lexer (k_key fm) []) (fun _ => p_colon tok_lexer)) (fun _ => pbind m (fun acc' => pbind (eat_scomma tok_lexer fm) (fun _ => pret acc'))) u0).
      { intros m u0 H0. pose proof (next_colon_is u0 H0) as E.
        revert E. generalize (pbind (expect tok_lexer (k_key fm) []) (fun _ => p_colon tok_lexer)). intros X E.
        unfold pbind. rewrite E. destruct (X u0) as [u1 [[]|e|p|]]; reflexivity. }
      destruct (find_field (key_of tok_lexer fm u) fs 0) as [[i f]|] eqn:Ef.
      - set (m := pbind (de_field de f) (fun v => pret (set_nth i (Some v) acc))).
        apply (loc_switch Q0 _ (pbind (pbind (expect tok_lexer (k_key fm) []) (fun _ => p_colon tok_lexer)) (fun _ => pbind m (fun acc' => pbind (eat_scomma tok_lexer fm) (fun _ => pret acc'))))); [exact HPn| | |].
        + rewrite <- Hpc by exact Hk. unfold named_body. unfold pbind at 1. rewrite Ef. reflexivity.
        + intros x t b u2 t2 b2 H H2. destruct (Hkey _ _ _ _ _ _ H H2) as [K1 K2].
          rewrite <- Hpc by exact K2. unfold named_body. unfold pbind at 1. rewrite K1, Ef. reflexivity.
        + revert u Hk Hkey Ef. intros u _ _ _. revert u.
          apply (loc_seq Q0 _ _ lown low); [apply loc_key_colon2| |intros l1 l2 [L1 L1'] L2; split; [apply low_app; assumption | destruct l1; [congruence|discriminate]]]. intros _.
          subst m. apply (loc_val _ _ vshape low); [|intro; apply Hfin|shp].
          apply loc_mapQ with (g := fun v => set_nth i (Some v) acc); [exact Q0_Q1 | apply loc_field].
      - destruct fs as [|f0 fs0].
        { apply loc_never. intros u' v E. unfold named_body, pbind in E. cbn [find_field] in E.
          unfold eat_scomma, eat_comma in E.
          replace (tok_is (l_tok tok_lexer u) KComma) with false in E.
          2:{ revert Hk. unfold k_key. destruct fm, (l_tok tok_lexer u); reflexivity || discriminate. }
          replace (tok_is (l_tok tok_lexer u) (k_sclose fm)) with false in E; [discriminate|].
          revert Hk. unfold k_key, k_sclose. destruct fm, (l_tok tok_lexer u); reflexivity || discriminate. }
        set (fs := f0 :: fs0) in *.
        assert (Hshape : named_body tok_lexer fm de n fs acc u = match fm with
          | Json => pbind (pbind (p_next_colon tok_lexer) (fun _ => pbind (whole_field tok_lexer n) (fun _ => pret acc))) (fun acc' => pbind (eat_scomma tok_lexer fm) (fun _ => pret acc')) u
          | Ron => (u, Err (mk_err (l_pos tok_lexer u) (UnexpectedKey (l_id tok_lexer u)))) end).
        { unfold named_body. unfold pbind at 1. rewrite Ef. subst fs. destruct fm; reflexivity. }
        destruct (fmt_eq_dec fm Ron) as [Er|Hj].
        { apply loc_never. intros u' v E. rewrite Hshape, Er in E. discriminate. }
        assert (Ej : fm = Json) by (destruct fm; congruence).
        set (m := pbind (whole_field tok_lexer n) (fun _ => pret acc)).
        apply (loc_switch Q0 _ (pbind (pbind (expect tok_lexer (k_key fm) []) (fun _ => p_colon tok_lexer)) (fun _ => pbind m (fun acc' => pbind (eat_scomma tok_lexer fm) (fun _ => pret acc'))))); [exact HPn| | |].
        + rewrite <- Hpc by exact Hk. rewrite Hshape, Ej. reflexivity.
        + intros x t b u2 t2 b2 H H2. destruct (Hkey _ _ _ _ _ _ H H2) as [K1 K2].
          rewrite <- Hpc by exact K2. unfold named_body. unfold pbind at 1. rewrite K1, Ef. subst fs m. rewrite Ej. reflexivity.
        + revert u Hk Hkey Ef Hshape. intros u _ _ _ _. revert u.
          apply (loc_seq Q0 _ _ lown low); [apply loc_key_colon2| |intros l1 l2 [L1 L1'] L2; split; [apply low_app; assumption | destruct l1; [congruence|discriminate]]]. intros _.
          subst m. apply (loc_seq Q0 _ _ strict low); [|intro; apply Hfin|shp; apply strict_low; assumption].
          apply loc_mapQ with (g := fun _ : unit => acc); [intros; exact I | apply loc_whole_field; exact Ej].
    Qed.

    Lemma loc_unwrap dflt fs : forall l, loc QA (unwrap_fields tok_lexer dflt fs l) nothing.
    Proof.
      induction fs as [|f fs IH]; intros l; [apply loc_ret|]. destruct l as [|o l]; [apply loc_ret|]. cbn [unwrap_fields].
      apply loc_pureQ; [intros; exact I| |].
      - unfold unwrap_field. destruct o; [destruct (f_skip f); apply loc_ret|]. destruct (f_default f); [apply loc_ret|].
        destruct (_ || _); [apply loc_ret | intro u; apply loc_err].
      - intro v. apply loc_pureQ; [intros; exact I | apply IH|intro; apply loc_ret].
    Qed.
    Lemma loc_named dflt fs : loc QA (de_named tok_lexer fm de n dflt fs) strict.
    Proof.
      unfold de_named. apply loc_group.
      - unfold k_sopen; destruct fm; discriminate.
      - unfold k_sclose; destruct fm; discriminate.
      - unfold k_sopen; destruct fm; reflexivity.
      - unfold k_sclose; destruct fm; reflexivity.
      - apply loc_while.
        + intros u u2 b b2 t t2 H H2 Hs. rewrite (same_head_tok _ _ _ _ _ _ H H2 Hs). reflexivity.
        + intros a u Hu. apply loc_named_body. exact Hu.
      - intro a. apply loc_unwrap.
    Qed.

    Lemma tok_next_buf u u' x tail : tok_next u = (u', Ok tt) -> t_toks u = x :: tail ->
      t_sb u' = match tail with [] => t_sb u | y :: _ => ltok_str y (t_sb u) end /\
      t_ib u' = match tail with [] => t_ib u | y :: _ => ltok_id y (t_ib u) end.
    Proof.
      intros E T. unfold tok_next in E. rewrite T in E. destruct tail as [|y r].
      - destruct (t_bad u); [discriminate|]. injection E as <-. auto.
      - injection E as <-. auto.
    Qed.
    Definition buf_of (k : tok) (u : tst) : str := match k with KStr => t_sb u | _ => t_ib u end.
    Definition buf_after (k : tok) (s : str) (t : list ltok) : str :=
      match t with [] => s | y :: _ => match k with KStr => ltok_str y s | _ => ltok_id y s end end.
    Lemma buf_same k s l t t2 : Q1 t t2 -> buf_after k s (l ++ t) = buf_after k s (l ++ t2).
    Proof.
      intros [H|[H1 H2]].
      - destruct l; [|reflexivity]. cbn. destruct t, t2; try contradiction; [reflexivity|]. simpl in H. subst. reflexivity.
      - destruct l; [|reflexivity]. cbn [app].
        assert (D : forall t, dl t -> buf_after k s t = s).
        { intros [|y r] H; [reflexivity|]. cbn. destruct y as [| |[]]; try discriminate H; destruct k; reflexivity. }
        rewrite (D t H1), (D t2 H2). reflexivity.
    Qed.
    (** What follows a RON name: nothing, or one bracketed group; in JSON there is no such thing. *)
    Definition opens (l : list ltok) : Prop := exists o r, l = o :: r /\ wtk (ltok_kind o) = 1%Z.
    Definition name_rest (l : list ltok) : Prop := nothing l \/ (fm = Ron /\ strict l /\ opens l).
    Lemma loc_opens {A} (Q : Qs) (m : @pm tst A) (P : list ltok -> Prop) : loc Q m P -> (forall l, P l -> l <> []) ->
      (forall u u' v b toks, at2 u toks b -> m u = (u', Ok v) -> opens toks) -> loc Q m (fun l => P l /\ opens l).
    Proof.
      intros H Hne Ho u u' v b toks Ha E. destruct (H u u' v b toks Ha E) as (l & tail & H1 & H2 & H3 & H4 & H5).
      exists l, tail. do 3 (split; [assumption|]). split; [|exact H5]. split; [exact H4|].
      destruct (Ho _ _ _ _ _ Ha E) as (o & r & E1 & E2). subst toks. destruct l as [|x l]; [exfalso; exact (Hne _ H4 eq_refl)|].
      injection E1 as -> _. exists o, l. auto.
    Qed.
    Lemma expect_opens {A} k w (f : unit -> @pm tst A) u u' v b toks : wtk k = 1%Z -> at2 u toks b ->
      pbind (expect tok_lexer k w) f u = (u', Ok v) -> opens toks.
    Proof.
      intros Hk Ha E. unfold pbind, expect in E. destruct toks as [|x tail].
      - rewrite (tok_nil _ _ Ha) in E. destruct k; discriminate.
      - rewrite (at2_tok _ _ _ _ Ha) in E. destruct (tok_is (ltok_kind x) k) eqn:Et; [|discriminate]. apply kind_eq in Et.
        exists x, tail. rewrite Et. auto.
    Qed.
    Lemma name_single s l : name_rest l -> vshape (LId s :: l).
    Proof.
      intros [-> | [Hr ((H1 & H2 & H3) & o & r & El & Ho)]]; [apply strict_single, one_strict; reflexivity|].
      split; [cbn [wt fold_right]; fold (wt l); cbn; lia|]. split; [discriminate|]. intros p q H Hp Hq.
      destruct p as [|y p]; [congruence|]. injection H as <- H. destruct p as [|z p].
      { right. split; [exact Hr|]. exists s, o, r. cbn [app] in H. rewrite <- H. auto. }
      left.
      cbn [wt fold_right ltok_kind wtk]. change (0 < wt (z :: p))%Z. eapply H3; [exact H | discriminate | exact Hq].
    Qed.
    (** A name token, after which the name buffer is read. *)
    Lemma expect_name k w u x tail b u' : k = KStr \/ k = KIdent -> at2 u (x :: tail) b -> expect tok_lexer k w u = (u', Ok tt) ->
      (exists s, buf_of k u = s /\ x = match k with KStr => LStr s | _ => LId s end) /\ at2 u' tail b /\ go_on tail b /\ buf_of k u' = buf_after k (buf_of k u) tail.
    Proof.
      intros Hk Ha E. unfold expect in E. rewrite (at2_tok _ _ _ _ Ha) in E.
      destruct (tok_is (ltok_kind x) k) eqn:Et; [|discriminate]. apply kind_eq in Et.
      pose proof (proj1 (real_cons _ _ (at2_real _ _ _ Ha))) as Hr.
      pose proof Ha as [(T1 & T2 & T3) R]. cbn [l_next tok_lexer] in E.
      pose proof (tok_next_ok _ _ _ _ _ _ T1 T2 E) as Hg.
      destruct (next_raw u x tail b T1 T2 Hg) as (u1' & En' & A1 & _). rewrite E in En'. injection En' as <-.
      destruct (tok_next_buf _ _ _ _ E T1) as [B1 B2]. unfold loaded in T3. rewrite T1 in T3.
      split; [|split; [split; [exact A1 | apply real_cons in R; tauto]|split; [exact Hg|]]].
      - destruct Hk as [-> | ->]; destruct x as [s|s|t0]; cbn in Et; try discriminate; try (subst t0; discriminate);
          exists s; split; auto.
      - destruct Hk as [-> | ->]; unfold buf_of, buf_after; [rewrite B1 | rewrite B2]; destruct tail; reflexivity.
    Qed.
    Lemma expect_name_ok k w u s tail b : k = KStr \/ k = KIdent -> at2 u ((match k with KStr => LStr s | _ => LId s end) :: tail) b -> go_on tail b ->
      exists u', expect tok_lexer k w u = (u', Ok tt) /\ buf_of k u = s.
    Proof.
      intros Hk Ha Hg. destruct (expect_at k w u _ tail b (proj1 Ha)) as (u' & E & _).
      - destruct Hk as [-> | ->]; reflexivity.
      - exact Hg.
      - exists u'. split; [exact E|]. destruct Ha as [(T1 & _ & T3) _]. unfold loaded in T3. rewrite T1 in T3.
        destruct Hk as [-> | ->]; exact T3.
    Qed.
    Lemma loc_name {A} k w (M : str -> @pm tst A) : k = KStr \/ k = KIdent -> (forall s, loc Q1 (M s) (match k with KStr => nothing | _ => name_rest end)) ->
      loc Q1 (pbind (expect tok_lexer k w) (fun _ s1 => M (buf_of k s1) s1)) vshape.
    Proof.
      intros Hk HM u u' v b toks Ha E. unfold pbind in E.
      destruct (expect tok_lexer k w u) as [u1 [[]|e|p|]] eqn:Ee; try discriminate.
      destruct toks as [|x tail].
      { exfalso. unfold expect in Ee. rewrite (tok_nil _ _ Ha) in Ee. destruct Hk as [-> | ->]; discriminate. }
      destruct (expect_name k w u x tail b u1 Hk Ha Ee) as ((s & Hs & Hx) & A1 & G1 & B1).
      rewrite B1, Hs in E.
      destruct (HM _ u1 u' v b tail A1 E) as (l & t & H1 & H2 & Hg & H3 & H5).
      exists (x :: l), t. subst tail. split; [reflexivity|]. split; [exact H2|].
      split. { intros _. destruct l; [exact G1 | apply Hg; discriminate]. }
      split. { destruct Hk as [-> | ->]; subst x; [rewrite H3; apply strict_single, one_strict; reflexivity | apply name_single; exact H3]. }
      intros tail2 b2 u2 Hq Hgo A2. cbn [app] in A2.
      assert (G2 : go_on (l ++ tail2) b2) by (destruct l; [exact Hgo | left; discriminate]).
      rewrite Hx in A2. destruct (expect_name_ok k w u2 s (l ++ tail2) b2 Hk A2 G2) as (u3 & E3 & B3).
      destruct (expect_name k w u2 _ _ b2 u3 Hk A2 E3) as (_ & A3 & _ & B3').
      rewrite B3 in B3'. rewrite <- (buf_same k s l t tail2 Hq) in B3'.
      destruct (H5 tail2 b2 u3 Hq Hgo A3) as (u4 & E4 & A4). exists u4. split; [|exact A4].
      unfold pbind. rewrite E3, B3'. exact E4.
    Qed.
    (** A name, a colon, and the name buffer read after that. *)
    Lemma loc_name_colon {A} w (M : str -> @pm tst A) cl : (forall s, loc Q1 (M s) (closes cl)) ->
      loc Q1 (pbind (expect tok_lexer KStr w) (fun _ => pbind (p_colon tok_lexer) (fun _ s1 => M (l_str tok_lexer s1) s1))) (closes cl).
    Proof.
      intros HM u u' v b toks Ha E. unfold pbind in E.
      destruct (expect tok_lexer KStr w u) as [u1 [[]|e|p|]] eqn:Ee; try discriminate.
      destruct toks as [|x tail].
      { exfalso. unfold expect in Ee. rewrite (tok_nil _ _ Ha) in Ee. discriminate. }
      destruct (expect_name KStr w u x tail b u1 (or_introl eq_refl) Ha Ee) as ((s & Hs & Hx) & A1 & G1 & B1).
      destruct (p_colon tok_lexer u1) as [u3 [[]|e|p|]] eqn:Ec; try discriminate.
      destruct tail as [|y tail].
      { exfalso. unfold p_colon, expect in Ec. rewrite (tok_nil _ _ A1) in Ec. discriminate. }
      assert (Hy : y = LP KColon).
      { unfold p_colon, expect in Ec. rewrite (at2_tok _ _ _ _ A1) in Ec. destruct (tok_is (ltok_kind y) KColon) eqn:Et; [|discriminate].
        apply kind_eq in Et. destruct y; cbn in Et; congruence. }
      subst y.
      assert (Hc : forall u1 tail b u3, at2 u1 (LP KColon :: tail) b -> p_colon tok_lexer u1 = (u3, Ok tt) ->
        at2 u3 tail b /\ go_on tail b /\ l_str tok_lexer u3 = buf_after KStr (t_sb u1) tail).
      { clear. intros u1 tail b u3 A1 Ec. unfold p_colon, expect in Ec. rewrite (at2_tok _ _ _ _ A1) in Ec. cbn [ltok_kind tok_is] in Ec.
        pose proof A1 as [(T1 & T2 & T3) R]. cbn [l_next tok_lexer] in Ec. pose proof (tok_next_ok _ _ _ _ _ _ T1 T2 Ec) as Hg.
        destruct (next_raw u1 _ tail b T1 T2 Hg) as (u1' & En' & A & _). rewrite Ec in En'. injection En' as <-.
        split; [split; [exact A | apply real_cons in R; tauto]|]. split; [exact Hg|].
        destruct (tok_next_buf _ _ _ _ Ec T1) as [B _]. cbn. rewrite B. destruct tail; reflexivity. }
      destruct (Hc _ _ _ _ A1 Ec) as (A3 & G3 & B3).
      assert (B1' : t_sb u1 = s) by (cbn in B1, Hs; congruence).
      rewrite B3, B1' in E.
      destruct (HM _ u3 u' v b tail A3 E) as (l & t & H1 & H2 & Hg & H3 & H5).
      exists (x :: LP KColon :: l), t. subst tail. split; [reflexivity|]. split; [exact H2|]. pose proof (closes_ne _ _ H3) as H4.
      split; [auto|]. split. { apply (closes_app cl [x; LP KColon] l); [|exact H3]. subst x. apply (low_app [_] [_]); apply strict_low, one_strict; reflexivity. }
      intros tail2 b2 u2 Hq Hgo A2. cbn [app] in A2. rewrite Hx in A2.
      assert (G2 : go_on (l ++ tail2) b2) by (left; destruct l; [congruence|discriminate]).
      destruct (expect_name_ok KStr w u2 s (LP KColon :: l ++ tail2) b2 (or_introl eq_refl) A2) as (u4 & E4 & B4); [left; discriminate|].
      destruct (expect_name KStr w u2 _ _ b2 u4 (or_introl eq_refl) A2 E4) as (_ & A4 & _ & B4').
      destruct (expect_at KColon (chars ":") u4 _ _ b2 (proj1 A4) eq_refl G2) as (u5 & E5 & _).
      destruct (Hc _ _ _ _ A4 E5) as (A5 & _ & B5).
      assert (B4'' : t_sb u4 = s) by (cbn in B4, B4'; congruence).
      rewrite B4'', <- (buf_same KStr s l t tail2 Hq) in B5.
      destruct (H5 tail2 b2 u5 Hq Hgo A5) as (u6 & E6 & A6). exists u6. split; [|exact A6].
      unfold pbind. rewrite E4. unfold p_colon at 1. rewrite E5, B5. exact E6.
    Qed.

    Lemma loc_de_body i b : loc QA (de_body tok_lexer fm de n i b) (match b with BUnit => nothing | _ => strict end).
    Proof.
      destruct b as [|ts|fs]; cbn [de_body].
      - apply loc_ret.
      - apply loc_mapQ; [intros; exact I|]. apply loc_bracketed. apply Forall_map. apply Forall_forall. intros; apply loc_item.
      - apply loc_mapQ; [intros; exact I|]. apply loc_named.
    Qed.
    Lemma find_variant_prop p vs : forall i j v, find_variant p vs i = Some (j, v) -> p v = true.
    Proof.
      induction vs as [|w vs IH]; intros i j v H; [discriminate|]. cbn in H. destruct (p w) eqn:Ep.
      - injection H as <- <-. exact Ep.
      - eapply IH; exact H.
    Qed.
    Lemma pbind_ext {A B} (m : @pm tst A) (f g : A -> @pm tst B) u : (forall a u1, f a u1 = g a u1) -> pbind m f u = pbind m g u.
    Proof. intro H. unfold pbind. destruct (m u) as [u1 [a|e|p|]]; auto. Qed.
    Lemma loc_enum_json vs : fm = Json -> loc Q1 (de_enum_json tok_lexer fm de n vs) vshape.
    Proof.
      intros Hj u.
      destruct (tok_is (l_tok tok_lexer u) KCurlyOpen && existsb (fun v => negb (is_unit v)) vs) eqn:Ec.
      - match goal with |- locat _ ?m _ _ => set (m0 := m) end.
        apply (loc_switch Q1 m0
          (pbind (expect tok_lexer KCurlyOpen (chars "{")) (fun _ =>
           pbind (expect tok_lexer KStr (chars "String")) (fun _ =>
           pbind (p_colon tok_lexer) (fun _ s1 =>
             (fun str => match find_variant (fun v => negb (is_unit v) && str_eqb (variant_key Json v) str) vs 0 with
              | Some (i, v) => pbind (de_body tok_lexer fm de n i (v_body v)) (fun r => pbind (expect tok_lexer KCurlyClose (chars "}")) (fun _ => pret r))
              | None => perr tok_lexer (NoSuchEnum str) end) (l_str tok_lexer s1) s1))))); [apply single_ne| | |].
        + subst m0. unfold de_enum_json. rewrite Ec. do 3 (apply pbind_ext; intros [] ?).
          cbn beta. destruct (find_variant _ _ _) as [[i v]|]; reflexivity.
        + intros x t b u2 t2 b2 H H2. subst m0. unfold de_enum_json. rewrite (same_tok _ _ _ _ _ _ _ H H2), Ec.
          do 3 (apply pbind_ext; intros [] ?). cbn beta. destruct (find_variant _ _ _) as [[i v]|]; reflexivity.
        + revert u Ec m0. intros u _ _. revert u.
          apply (loc_seq Q1 _ _ (tk KCurlyOpen) (closes KCurlyClose)); [apply (loc_expect KCurlyOpen); discriminate| |intros; apply strict_single; eapply group_strict; [| |eassumption|eassumption]; reflexivity].
          intros _. apply (loc_name_colon (chars "String") (fun str => match find_variant (fun v => negb (is_unit v) && str_eqb (variant_key Json v) str) vs 0 with
              | Some (i, v) => pbind (de_body tok_lexer fm de n i (v_body v)) (fun r => pbind (expect tok_lexer KCurlyClose (chars "}")) (fun _ => pret r))
              | None => perr tok_lexer (NoSuchEnum str) end) KCurlyClose).
          intro str. destruct (find_variant _ vs 0) as [[i v]|] eqn:Ef; [|intro; apply loc_err].
          apply (loc_then QA Q1 _ _ low (tk KCurlyClose)); [intros; exact I | apply tk_ne | | | intros; apply closes_tk; assumption].
          { eapply loc_to; [|apply loc_de_body]. destruct (v_body v); intros l Hl; [apply none_low; exact Hl | apply strict_low; exact Hl | apply strict_low; exact Hl]. }
          intro r. apply loc_A, loc_pureQ; [intros; exact I | apply (loc_expect KCurlyClose); discriminate | intro; apply loc_ret].
      - destruct (tok_is (l_tok tok_lexer u) KStr && existsb is_unit vs) eqn:Es.
        2:{ apply loc_never. intros u' v. unfold de_enum_json. rewrite Ec, Es. discriminate. }
        match goal with |- locat _ ?m _ _ => set (m0 := m) end.
        apply (loc_switch Q1 m0
          (pbind (expect tok_lexer KStr (chars "String")) (fun _ s1 =>
             (fun str => match find_variant (fun v => is_unit v && str_eqb (variant_key Json v) str) vs 0 with
              | Some (i, v) => pret (VEnum i [])
              | None => perr tok_lexer (NoSuchEnum str) end) (buf_of KStr s1) s1))); [apply single_ne| | |].
        + subst m0. unfold de_enum_json. rewrite Ec, Es. unfold pbind at 1 2.
          destruct (expect _ _ _ u) as [u1 [[]|e|p|]]; try reflexivity. cbn [buf_of l_str tok_lexer].
          destruct (find_variant _ _ _) as [[i v]|]; reflexivity.
        + intros x t b u2 t2 b2 H H2. subst m0. unfold de_enum_json. rewrite (same_tok _ _ _ _ _ _ _ H H2), Ec, Es. unfold pbind at 1 2.
          destruct (expect _ _ _ u2) as [u1 [[]|e|p|]]; try reflexivity. cbn [buf_of l_str tok_lexer].
          destruct (find_variant _ _ _) as [[i v]|]; reflexivity.
        + revert u Ec Es m0. intros u _ _ _. revert u.
          apply (loc_name KStr (chars "String") (fun str => match find_variant (fun v => is_unit v && str_eqb (variant_key Json v) str) vs 0 with
              | Some (i, v) => pret (VEnum i [])
              | None => perr tok_lexer (NoSuchEnum str) end)); [left; reflexivity|].
          intro str. destruct (find_variant _ vs 0) as [[i v]|]; [apply loc_retQ | intro; apply loc_err].
    Qed.
    Lemma loc_enum_ron vs : fm = Ron -> loc Q1 (de_enum_ron tok_lexer fm de n vs) vshape.
    Proof.
      intro Hron. unfold de_enum_ron.
      match goal with |- loc _ ?m _ => assert (Em : forall u, m u = pbind (expect tok_lexer KIdent (chars "Identifier")) (fun _ s1 =>
         (fun str => match find_variant (fun v => str_eqb (variant_key Ron v) str) vs 0 with
           | Some (i, v) => de_body tok_lexer fm de n i (v_body v)
           | None => perr tok_lexer (NoSuchEnum str) end) (buf_of KIdent s1) s1) u) end.
      { intro u. unfold pbind. destruct (expect _ _ _ u) as [u1 [[]|e|p|]]; try reflexivity. cbn [buf_of l_id tok_lexer].
        destruct (find_variant _ _ _) as [[i v]|]; reflexivity. }
      intro u. eapply loc_switch; [apply single_ne | apply Em | intros; apply Em|]. revert u.
      apply (loc_name KIdent (chars "Identifier") (fun str => match find_variant (fun v => str_eqb (variant_key Ron v) str) vs 0 with
           | Some (i, v) => de_body tok_lexer fm de n i (v_body v)
           | None => perr tok_lexer (NoSuchEnum str) end)); [right; reflexivity|].
      intro str. destruct (find_variant _ vs 0) as [[i v]|]; [|intro; apply loc_err].
      pose proof (loc_de_body i (v_body v)) as HB. apply loc_A. destruct (v_body v) as [|ts|fs].
      - eapply loc_to; [|exact HB]. intros l Hl. left; exact Hl.
      - eapply loc_to; [|apply loc_opens; [exact HB | apply strict_ne |]].
        + intros l [H1 H2]. right. auto.
        + intros u u' w b toks Ha E. cbn [de_body] in E. unfold pmap, pbind at 1 in E.
          destruct (de_bracketed tok_lexer fm (map (de_item tok_lexer fm de) ts) u) as [u1 [a|e|p|]] eqn:E1; try discriminate.
          unfold de_bracketed in E1. eapply expect_opens; [|exact Ha|exact E1]. destruct fm; reflexivity.
      - eapply loc_to; [|apply loc_opens; [exact HB | apply strict_ne |]].
        + intros l [H1 H2]. right. auto.
        + intros u u' w b toks Ha E. cbn [de_body] in E. unfold pmap, pbind at 1 in E.
          destruct (de_named tok_lexer fm de n false fs u) as [u1 [a|e|p|]] eqn:E1; try discriminate.
          unfold de_named in E1. eapply expect_opens; [|exact Ha|exact E1]. destruct fm; reflexivity.
    Qed.
    Lemma loc_unnamed tr fs : loc Q1 (de_unnamed tok_lexer fm de tr fs) vshape.
    Proof.
      assert (Hg : loc Q1 (de_bracketed tok_lexer fm (map (fun f => de_item tok_lexer fm de (f_ty f)) fs)) vshape).
      { apply (loc_to _ _ strict); [apply strict_single|]. apply loc_A, loc_bracketed, Forall_map, Forall_forall. intros; apply loc_item. }
      assert (H1 : forall t, loc Q1 (de_bracketed tok_lexer fm [de t]) vshape) by (intro t; apply (loc_to _ _ strict); [apply strict_single|]; apply loc_A, loc_bracketed1, Hde).
      assert (HS : forall l, strict l -> vshape l) by apply strict_single. pose proof loc_expect as HX. pose proof Hde as HD.
      unfold de_unnamed. destruct fm; [|exact Hg]. destruct fs as [|f [|g fs]]; [| |exact Hg].
      - apply loc_A. apply (loc_to _ _ strict); [exact HS|]. apply (loc_seq QA _ _ (tk KCurlyOpen) (tk KCurlyClose)); [apply HX; discriminate| |intros l1 l2 L1 L2; eapply group_strict; [| |exact L1|apply (closes_tk _ []); [apply low_nil | exact L2]]; reflexivity].
        intros _. apply loc_pureQ; [intros; exact I | apply HX; discriminate|intro; apply loc_ret].
      - destruct tr; [apply loc_mapQ; [exact Q0_Q1 | apply HD]|]. apply H1.
    Qed.
  End Named.

  Lemma loc_S {A} (m : @pm tst A) : loc QA m strict -> loc Q1 m vshape.
  Proof. intro H. apply loc_A, (loc_to _ _ strict); [apply strict_single | exact H]. Qed.
  Variables (F : flt) (c : cfg) (G : env).
  Theorem loc_de : forall n t, loc Q1 (de_text tok_lexer F c G fm n t) vshape.
  Proof.
    induction n as [|n IH]; intro t; [intro u; apply loc_never; discriminate|].
    pose proof loc_enum_json as HEJ. pose proof loc_unnamed as HU. pose proof loc_enum_ron as HER.
    pose proof loc_expect as HX. assert (HS : forall A (m : @pm tst A), loc QA m strict -> loc Q1 m vshape) by (intros; apply loc_S; assumption).
    destruct t; cbn [de_text].
    - apply loc_S, loc_int.
    - apply loc_mapQ; [exact Q0_Q1 | apply loc_S, loc_f64].
    - apply loc_mapQ; [exact Q0_Q1 | apply loc_S, loc_f64].
    - apply loc_S, loc_bool.
    - apply loc_mapQ; [exact Q0_Q1 | apply loc_S, loc_str].
    - destruct fm; apply HS.
      + apply loc_pureQ; [intros; exact I | |intro; apply loc_ret]. eapply loc_to; [|apply (HX KNull); discriminate]. intros l Hl. eapply tk_strict; [|exact Hl]; reflexivity.
      + apply (loc_seq QA _ _ (tk KParenOpen) (tk KParenClose)); [apply (HX KParenOpen); discriminate| |intros l1 l2 L1 L2; eapply group_strict; [| |exact L1|apply (closes_tk _ []); [apply low_nil | exact L2]]; reflexivity].
        intros _. apply loc_pureQ; [intros; exact I | apply HX; discriminate|intro; apply loc_ret].
    - apply loc_opt, IH.
    - apply loc_mapQ; [exact Q0_Q1 | apply loc_S, loc_seqs, IH].
    - apply loc_mapQ; [exact Q0_Q1 | apply loc_S, loc_maps, IH].
    - apply loc_mapQ; [exact Q0_Q1 | apply loc_S, (loc_bracketed _ IH)]. apply Forall_forall. intros p Hp. apply repeat_spec in Hp. subst p.
      apply loc_item, IH.
    - destruct (tuple_arity _); [|intro; apply loc_never; discriminate].
      apply loc_mapQ; [exact Q0_Q1 | apply loc_S, (loc_bracketed _ IH)]. apply Forall_map, Forall_forall. intros x _. apply loc_comma_block, IH.
    - apply IH.
    - apply loc_S, loc_dur.
    - apply loc_time.
    - destruct (fmt_eq_dec fm Ron) as [Er|Hj].
      + intro u; apply loc_never. intros u' v. rewrite Er. discriminate.
      + assert (Ej : fm = Json) by (destruct fm; congruence).
        assert (H : loc Q1 (pmap (p_from p) (de_text tok_lexer F c G fm n t)) vshape) by (apply loc_mapQ; [exact Q0_Q1 | apply IH]).
        destruct fm; [exact H | congruence].
    - rename n0 into i. destruct (nth_error G i) as [d|]; [|intro; apply loc_never; discriminate].
      destruct d as [dflt cn fs|tr fs|vs|p t].
      + apply loc_mapQ; [exact Q0_Q1 | apply loc_S, loc_named, IH].
      + destruct (existsb _ _); [intro; apply loc_never; discriminate|].
        assert (H : loc Q1 (pmap VSeq (de_unnamed tok_lexer fm (de_text tok_lexer F c G fm n) tr fs)) vshape)
          by (apply loc_mapQ; [exact Q0_Q1 | apply HU, IH]).
        destruct fm; [exact H|]. destruct fs; [intro; apply loc_never; discriminate | exact H].
      + destruct (fmt_eq_dec fm Ron) as [Er|Hj].
        * specialize (HER _ n IH vs Er). destruct fm; [congruence | exact HER].
        * assert (Ej : fm = Json) by (destruct fm; congruence).
          specialize (HEJ _ n IH vs Ej). destruct fm; [exact HEJ | congruence].
      + destruct (fmt_eq_dec fm Ron) as [Er|Hj].
        * intro u; apply loc_never. intros u' v. rewrite Er. discriminate.
        * assert (Ej : fm = Json) by (destruct fm; congruence).
          assert (H : loc Q1 (pmap (p_from p) (de_text tok_lexer F c G fm n t)) vshape) by (apply loc_mapQ; [exact Q0_Q1 | apply IH]).
          destruct fm; [exact H | congruence].
  Qed.
End Loc.
