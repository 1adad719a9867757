(** Reading a list of tokens: what each reader does on the tokens it expects. *)
From Verif Require Import Base Utf8 Types BinModel Text TextModel TextSim TextToks TextLex.
Local Open Scope N_scope.

(** ** Well-bracketed token lists *)
Definition bracket (o c : tok) : Prop :=
  (o = KBlockOpen /\ c = KBlockClose) \/ (o = KCurlyOpen /\ c = KCurlyClose) \/ (o = KParenOpen /\ c = KParenClose).
Definition is_bracket (t : ltok) : bool :=
  match t with
  | LP KBlockOpen | LP KBlockClose | LP KCurlyOpen | LP KCurlyClose | LP KParenOpen | LP KParenClose => true
  | _ => false
  end.
Inductive bal : list ltok -> Prop :=
| bal_nil : bal []
| bal_app a b : bal a -> bal b -> bal (a ++ b)
| bal_leaf t : is_bracket t = false -> bal [t]
| bal_wrap o c l : bracket o c -> bal l -> bal (LP o :: l ++ [LP c]).

Definition scalar_tok (fm : fmt) (t : ltok) : bool :=
  match t with
  | LStr _ | LP (KU64 _) | LP (KI64 _) | LP (KF64 _) | LP (KBool _) => true
  | LP KNull => match fm with Json => true | Ron => false end
  | LId _ => match fm with Json => false | Ron => true end
  | _ => false
  end.
(** The tokens of one value: a scalar or a well-bracketed group, in RON possibly
    after a variant name. *)
Inductive vtoks (fm : fmt) : list ltok -> Prop :=
| vt_scalar t : scalar_tok fm t = true -> vtoks fm [t]
| vt_group o c l : bracket o c -> bal l -> vtoks fm (LP o :: l ++ [LP c])
| vt_named s o c l : fm = Ron -> bracket o c -> bal l -> vtoks fm (LId s :: LP o :: l ++ [LP c]).

Lemma bal_cons t l : is_bracket t = false -> bal l -> bal (t :: l).
Proof. intros H Hl. apply (bal_app [t] l); [apply bal_leaf; assumption | assumption]. Qed.
Lemma vtoks_bal fm l : vtoks fm l -> bal l.
Proof.
  intros [t H|o c0 l0 H Hb|s o c0 l0 H H0 Hb].
  - apply bal_leaf. destruct t as [| |[]]; try reflexivity; discriminate.
  - apply bal_wrap; assumption.
  - apply bal_cons; [reflexivity|]. apply bal_wrap; assumption.
Qed.
Lemma vtoks_head fm l : vtoks fm l -> exists x r, l = x :: r /\
  match x with LP KBlockClose | LP KCurlyClose | LP KParenClose | LP KComma | LP KColon | LP KEof | LP KBof | LP KIdent | LP KStr => False | _ => True end.
Proof.
  intros [t H|o c0 l0 H Hb|s o c0 l0 H H0 Hb]; eexists _, _; (split; [reflexivity|]).
  - destruct t as [| |[]]; try exact I; discriminate.
  - destruct H as [[-> _]|[[-> _]|[-> _]]]; exact I.
  - exact I.
Qed.

(** ** States *)
Definition loaded (u : tst) : Prop :=
  match t_toks u with LStr x :: _ => t_sb u = x | LId x :: _ => t_ib u = x | _ => True end.
Definition at_ (u : tst) (l : list ltok) (b : bool) : Prop :=
  t_toks u = l /\ t_bad u = b /\ loaded u.
Definition go_on (tail : list ltok) (b : bool) : Prop := tail <> [] \/ b = false.
Definition delim_tok (t : ltok) : bool :=
  match t with
  | LP KComma | LP KColon | LP KBlockClose | LP KCurlyClose | LP KParenClose => true
  | _ => false
  end.
Definition delim (tail : list ltok) (b : bool) : Prop :=
  match tail with [] => b = false | x :: _ => delim_tok x = true end.
Lemma delim_go tail b : delim tail b -> go_on tail b.
Proof. destruct tail; simpl; [right; assumption | left; discriminate]. Qed.

Definition reads {A} (m : @pm tst A) (l : list ltok) (v : A) : Prop :=
  forall tail b u, delim tail b -> at_ u (l ++ tail) b -> exists u', m u = (u', Ok v) /\ at_ u' tail b.

Notation L := tok_lexer.

Lemma next_raw u x tail b : t_toks u = x :: tail -> t_bad u = b -> go_on tail b ->
  exists u', tok_next u = (u', Ok tt) /\ at_ u' tail b /\
    (match tail with LStr _ :: _ => True | _ => t_sb u' = t_sb u end) /\
    (match tail with LId _ :: _ | LP (KBool _) :: _ | LP KNull :: _ => True | _ => t_ib u' = t_ib u end).
Proof.
  intros H1 H2 Hg. unfold tok_next. rewrite H1. destruct tail as [|y tail].
  - destruct Hg as [Hg|Hg]; [congruence|]. rewrite H2, Hg.
    eexists. split; [reflexivity|]. repeat split; auto.
  - eexists. split; [reflexivity|]. split.
    + repeat split; auto. unfold loaded; cbn. destruct y as [| |[]]; cbn; auto.
    + cbn. destruct y as [| |[]]; cbn; auto. all: try (destruct b0; auto).
Qed.
Lemma next_at u x tail b : at_ u (x :: tail) b -> go_on tail b ->
  exists u', tok_next u = (u', Ok tt) /\ at_ u' tail b /\
    (match tail with LStr _ :: _ => True | _ => t_sb u' = t_sb u end) /\
    (match tail with LId _ :: _ | LP (KBool _) :: _ | LP KNull :: _ => True | _ => t_ib u' = t_ib u end).
Proof. intros (H1 & H2 & _). eapply next_raw; eassumption. Qed.
Lemma tok_at u x tail b : at_ u (x :: tail) b -> l_tok L u = ltok_kind x.
Proof. intros (H & _). cbn. rewrite H. reflexivity. Qed.
Lemma tok_at_nil u b : at_ u [] b -> l_tok L u = KEof.
Proof. intros (H & _). cbn. rewrite H. reflexivity. Qed.

Lemma expect_at k w u x tail b : at_ u (x :: tail) b -> tok_is (ltok_kind x) k = true -> go_on tail b ->
  exists u', expect L k w u = (u', Ok tt) /\ at_ u' tail b /\
    (match tail with LStr _ :: _ => True | _ => t_sb u' = t_sb u end) /\
    (match tail with LId _ :: _ | LP (KBool _) :: _ | LP KNull :: _ => True | _ => t_ib u' = t_ib u end).
Proof.
  intros H Hk Hg. unfold expect. rewrite (tok_at _ _ _ _ H), Hk. apply (next_at u x tail b); assumption.
Qed.

Lemma pbind_ok {A B} (m : @pm tst A) (f : A -> @pm tst B) u u' a : m u = (u', Ok a) -> pbind m f u = f a u'.
Proof. intro H. unfold pbind. rewrite H. reflexivity. Qed.

Lemma reads_map {A B} (f : A -> B) (m : @pm tst A) l a : reads m l a -> reads (pmap f m) l (f a).
Proof.
  intros H tail b u Hd Ha. destruct (H tail b u Hd Ha) as (u' & E & Ha'). exists u'.
  unfold pmap. rewrite (pbind_ok _ _ _ _ _ E). split; [reflexivity | assumption].
Qed.
Lemma reads_ret_bind {A B} (f : A -> @pm tst B) (m : @pm tst A) l a v : reads m l a ->
  (forall u, f a u = (u, Ok v)) -> reads (pbind m f) l v.
Proof.
  intros H Hf tail b u Hd Ha. destruct (H tail b u Hd Ha) as (u' & E & Ha'). exists u'.
  rewrite (pbind_ok _ _ _ _ _ E). rewrite Hf. split; [reflexivity | assumption].
Qed.

(** One token, then the value is already known. *)
Lemma reads_one {A B} (m : @pm tst A) (f : A -> @pm tst B) x a v :
  (forall u tail b, at_ u (x :: tail) b -> exists u', m u = (u', Ok a) /\ at_ u' (x :: tail) b) ->
  (forall u, f a u = (u, Ok v)) ->
  reads (pbind m (fun a => pbind (l_next L) (fun _ => f a))) [x] v.
Proof.
  intros Hm Hf tail b u Hd Ha. destruct (Hm u tail b Ha) as (u1 & E & Ha1).
  rewrite (pbind_ok _ _ _ _ _ E).
  destruct (next_at u1 x tail b Ha1 (delim_go _ _ Hd)) as (u2 & E2 & Ha2 & _).
  unfold pbind. cbn [l_next tok_lexer]. rewrite E2. exists u2. rewrite Hf. auto.
Qed.

(** ** Comma-separated items up to a closing bracket *)
Fixpoint jt (ls : list (list ltok)) (tr : bool) : list ltok :=
  match ls with
  | [] => []
  | x :: r =>
    match r with
    | [] => x ++ if tr then [LP KComma] else []
    | _ => x ++ LP KComma :: jt r tr
    end
  end.

Lemma jt_bal ls tr : Forall bal ls -> bal (jt ls tr).
Proof.
  induction 1 as [|x ls Hx Hls IH]; [constructor|]. cbn [jt]. destruct ls as [|y ls].
  - apply bal_app; [assumption|]. destruct tr; [apply bal_leaf; reflexivity | constructor].
  - apply bal_app; [assumption|]. apply bal_cons; [reflexivity | assumption].
Qed.

Definition closing (k : tok) : Prop := k = KBlockClose \/ k = KCurlyClose \/ k = KParenClose.
Lemma closing_delim k : closing k -> delim_tok (LP k) = true.
Proof. intros [-> | [-> | ->]]; reflexivity. Qed.
Lemma closing_self k : closing k -> tok_is k k = true.
Proof. intros [-> | [-> | ->]]; reflexivity. Qed.
Lemma closing_comma k : closing k -> tok_is k KComma = false.
Proof. intros [-> | [-> | ->]]; reflexivity. Qed.

Lemma eat_comma_comma cl w u tail b : at_ u (LP KComma :: tail) b -> go_on tail b ->
  exists u', eat_comma L cl w u = (u', Ok tt) /\ at_ u' tail b.
Proof.
  intros H Hg. unfold eat_comma. rewrite (tok_at _ _ _ _ H). cbn [ltok_kind tok_is].
  destruct (next_at _ _ _ _ H Hg) as (u' & E & Ha & _). exists u'. auto.
Qed.
Lemma eat_comma_close cl w u tail b : closing cl -> at_ u (LP cl :: tail) b ->
  eat_comma L cl w u = (u, Ok tt).
Proof.
  intros Hc H. unfold eat_comma. rewrite (tok_at _ _ _ _ H). cbn [ltok_kind].
  rewrite closing_comma, closing_self by assumption. reflexivity.
Qed.

Definition inner {A} (m : @pm tst A) (l : list ltok) (a : A) (close : tok) : Prop :=
  forall tail b u, at_ u (l ++ LP close :: tail) b -> exists u', m u = (u', Ok a) /\ at_ u' (LP close :: tail) b.

Section Loop.
  Context {A : Type}.
  Variable cond : tst -> bool.
  Variables item body : A -> @pm tst A.
  Variable close : tok.
  Variable what : str.
  Hypothesis Hbody : forall a u,
    body a u = pbind (item a) (fun a' => pbind (eat_comma L close what) (fun _ => pret a')) u.
  Hypothesis Hclose : closing close.
  Hypothesis cond_close : forall u tail b, at_ u (LP close :: tail) b -> cond u = false.

  Definition step (a : A) (l : list ltok) (a' : A) : Prop :=
    (forall tail b u, at_ u (l ++ tail) b -> cond u = true) /\ reads (item a) l a'.
  Inductive steps : A -> list (list ltok) -> A -> Prop :=
  | steps_nil a : steps a [] a
  | steps_cons a l a' ls a'' : step a l a' -> steps a' ls a'' -> steps a (l :: ls) a''.

  Lemma loop_at ls a a' : steps a ls a' -> forall n tr, (length ls < n)%nat ->
    inner (while_ n cond body a) (jt ls tr) a' close.
  Proof.
    induction 1 as [a|a l a1 ls a2 Hs Hss IH]; intros n tr Hn tail b u Ha.
    - destruct n; [lia|]. cbn [while_]. cbn [jt app] in Ha. rewrite (cond_close _ _ _ Ha). eauto.
    - destruct n as [|n]; [simpl in Hn; lia|]. cbn [while_].
      destruct Hs as [Hc Hr].
      assert (Hc1 : cond u = true).
      { cbn [jt] in Ha. destruct ls; rewrite <- app_assoc in Ha; eapply Hc; exact Ha. }
      rewrite Hc1.
      assert (Hrest : exists tl1, jt (l :: ls) tr ++ LP close :: tail = l ++ tl1 /\ delim tl1 b /\
        exists u', forall u1, at_ u1 tl1 b -> eat_comma L close what u1 = (u' u1, Ok tt) /\
                   at_ (u' u1) (jt ls tr ++ LP close :: tail) b).
      { assert (Hcomma : forall tl1, tl1 = LP KComma :: jt ls tr ++ LP close :: tail ->
          exists u', forall u1, at_ u1 tl1 b -> eat_comma L close what u1 = (u' u1, Ok tt) /\
                   at_ (u' u1) (jt ls tr ++ LP close :: tail) b).
        { intros tl1 ->. exists (fun u1 => fst (eat_comma L close what u1)). intros u1 H1.
          destruct (eat_comma_comma close what _ _ _ H1) as (u' & E & H2).
          { left. destruct (jt ls tr); discriminate. }
          rewrite E. auto. }
        cbn [jt]. destruct ls as [|y ls].
        - destruct tr.
          + eexists. rewrite <- app_assoc. split; [reflexivity|]. split; [reflexivity|]. apply Hcomma. reflexivity.
          + exists (LP close :: tail). rewrite <- app_assoc. split; [reflexivity|].
            split; [apply closing_delim; assumption|]. exists (fun u1 => u1). intros u1 H1.
            split; [eapply eat_comma_close; eassumption | exact H1].
        - eexists. rewrite <- app_assoc. split; [reflexivity|]. split; [reflexivity|]. apply Hcomma. reflexivity. }
      destruct Hrest as (tl1 & E1 & Hd & f & Hf). rewrite E1 in Ha.
      destruct (Hr tl1 b u Hd Ha) as (u1 & Eu1 & Ha1). destruct (Hf u1 Ha1) as [Eu2 Ha2].
      assert (Eb : body a u = (f u1, Ok a1)).
      { rewrite Hbody, (pbind_ok _ _ _ _ _ Eu1), (pbind_ok _ _ _ _ _ Eu2). reflexivity. }
      rewrite (pbind_ok _ _ _ _ _ Eb). apply (IH n tr); [simpl in Hn; lia | exact Ha2].
  Qed.
End Loop.

Lemma reads_bracket {A B} o cl w w' (m : @pm tst A) (k : A -> @pm tst B) l a v :
  inner m l a cl -> closing cl -> tok_is o o = true -> (forall u, k a u = (u, Ok v)) ->
  reads (pbind (expect L o w) (fun _ => pbind m (fun a => pbind (expect L cl w') (fun _ => k a))))
        (LP o :: l ++ [LP cl]) v.
Proof.
  intros Hm Hcl Ho Hk tail b u Hd Ha. cbn [app] in Ha. rewrite <- app_assoc in Ha. cbn [app] in Ha.
  destruct (expect_at o w u _ _ _ Ha Ho) as (u1 & E1 & Ha1 & _).
  { left. destruct l; discriminate. }
  rewrite (pbind_ok _ _ _ _ _ E1).
  destruct (Hm tail b u1 Ha1) as (u2 & E2 & Ha2). rewrite (pbind_ok _ _ _ _ _ E2).
  destruct (expect_at cl w' u2 _ _ _ Ha2 (closing_self _ Hcl) (delim_go _ _ Hd)) as (u3 & E3 & Ha3 & _).
  rewrite (pbind_ok _ _ _ _ _ E3). rewrite Hk. eauto.
Qed.

(** Fixed number of elements, each followed by a comma or the closing bracket. *)
Definition item_reads {A} (p : @pm tst A) (l : list ltok) (v : A) (close : tok) : Prop :=
  (forall tail b u, go_on tail b -> at_ u (l ++ LP KComma :: tail) b -> exists u', p u = (u', Ok v) /\ at_ u' tail b) /\
  inner p l v close.
Lemma list_inner close (ps : list (@pm tst val)) ls vs :
  Forall2 (fun p lv => item_reads p (fst lv) (snd lv) close) ps (combine ls vs) ->
  length ls = length ps -> length vs = length ps ->
  inner (de_list ps) (jt ls false) vs close.
Proof.
  revert ls vs; induction ps as [|p ps IH]; intros ls vs H Hl Hv tail b u Ha.
  - destruct ls; [|discriminate]. destruct vs; [|discriminate]. cbn in Ha. exists u. split; [reflexivity | exact Ha].
  - destruct ls as [|l ls]; [discriminate|]. destruct vs as [|v vs]; [discriminate|]. cbn [combine] in H.
    inversion H as [|p' lv ps' ls' Hp Hps E1 E2]; subst. cbn [fst snd] in Hp. destruct Hp as [Hp1 Hp2].
    cbn [de_list jt] in *. destruct ls as [|y ls].
    + rewrite app_nil_r in Ha. destruct ps; [|discriminate]. destruct vs; [|discriminate].
      destruct (Hp2 tail b u Ha) as (u1 & E1 & Ha1). rewrite (pbind_ok _ _ _ _ _ E1). exists u1. split; [reflexivity | exact Ha1].
    + rewrite <- app_assoc in Ha. cbn [app] in Ha.
      assert (Hg : go_on (jt (y :: ls) false ++ LP close :: tail) b) by (left; destruct (jt (y :: ls) false); discriminate).
      destruct (Hp1 _ b u Hg Ha) as (u1 & E1 & Ha1).
      rewrite (pbind_ok _ _ _ _ _ E1).
      destruct (IH (y :: ls) vs Hps ltac:(simpl in *; lia) ltac:(simpl in *; lia) tail b u1 Ha1) as (u2 & E2 & Ha2).
      rewrite (pbind_ok _ _ _ _ _ E2). exists u2. split; [reflexivity | exact Ha2].
Qed.

Section Items.
  Variable fm : fmt.
  Variable de : ty -> @pm tst val.
  Notation tclose := (k_tclose fm).
  Lemma tclose_closing : closing tclose.
  Proof. unfold k_tclose. destruct fm; [left | right; right]; reflexivity. Qed.
  Lemma sclose_closing : closing (k_sclose fm).
  Proof. unfold k_sclose. destruct fm; [right; left | right; right]; reflexivity. Qed.

  Lemma item_reads_item t l v : reads (de t) l v -> item_reads (de_item L fm de t) l v tclose.
  Proof.
    intro H. split.
    - intros tail b u Hg Ha. destruct (H (LP KComma :: tail) b u eq_refl Ha) as (u1 & E1 & Ha1).
      unfold de_item. rewrite (pbind_ok _ _ _ _ _ E1).
      destruct (eat_comma_comma tclose (w_tcomma fm) _ _ _ Ha1 Hg) as (u2 & E2 & Ha2).
      unfold eat_tcomma. rewrite (pbind_ok _ _ _ _ _ E2). exists u2. split; [reflexivity | exact Ha2].
    - intros tail b u Ha. destruct (H (LP tclose :: tail) b u (closing_delim _ tclose_closing) Ha) as (u1 & E1 & Ha1).
      unfold de_item. rewrite (pbind_ok _ _ _ _ _ E1). unfold eat_tcomma.
      rewrite (pbind_ok _ _ _ _ _ (eat_comma_close _ _ _ _ _ tclose_closing Ha1)). exists u1. split; [reflexivity | exact Ha1].
  Qed.
  Lemma item_reads_block t l v : reads (de t) l v -> item_reads (comma_block L fm de t) l v tclose.
  Proof.
    intro H. split.
    - intros tail b u Hg Ha. destruct (H (LP KComma :: tail) b u eq_refl Ha) as (u1 & E1 & Ha1).
      unfold comma_block. rewrite E1.
      destruct (eat_comma_comma tclose (w_tcomma fm) _ _ _ Ha1 Hg) as (u2 & E2 & Ha2).
      unfold eat_tcomma. rewrite E2. eauto.
    - intros tail b u Ha. destruct (H (LP tclose :: tail) b u (closing_delim _ tclose_closing) Ha) as (u1 & E1 & Ha1).
      unfold comma_block. rewrite E1. unfold eat_tcomma.
      rewrite (eat_comma_close _ _ _ _ _ tclose_closing Ha1). eauto.
  Qed.
  Lemma reads_bracketed (ps : list (@pm tst val)) ls vs :
    Forall2 (fun p lv => item_reads p (fst lv) (snd lv) tclose) ps (combine ls vs) ->
    length ls = length ps -> length vs = length ps ->
    reads (de_bracketed L fm ps) (LP (k_topen fm) :: jt ls false ++ [LP tclose]) vs.
  Proof.
    intros H Hl Hv. unfold de_bracketed.
    refine (reads_bracket (k_topen fm) tclose _ _ _ _ _ _ _ (list_inner _ ps ls vs H Hl Hv) tclose_closing _ (fun u => eq_refl)).
    unfold k_topen; destruct fm; reflexivity.
  Qed.
End Items.

(** ** Lexing of joined pieces *)
Section LexJoin.
  Variable F : flt.
  Variable fm : fmt.
  Notation lexes := (lexes F fm).
  Notation lexes_any := (lexes_any F fm).

  Lemma lexes_join sep outs ls : lexes_any sep [LP KComma] -> sep <> [] -> boundary sep ->
    Forall2 lexes outs ls -> lexes (join sep outs) (jt ls false).
  Proof.
    intros Hs Hne Hb H. induction H as [|o l outs ls Ho H IH]; [apply lexes_weak, lexes_any_nil|].
    cbn [join jt]. destruct H as [|o2 l2 outs ls Ho2 H].
    - rewrite app_nil_r. exact Ho.
    - change (LP KComma :: jt (l2 :: ls) false) with ([LP KComma] ++ jt (l2 :: ls) false).
      apply lexes_app; [exact Ho | apply lexes_app_r; [exact Hs | exact IH] |].
      destruct Hb as [->|Hb]; [congruence|]. right. destruct sep; [congruence | exact Hb].
  Qed.
  Lemma lexes_comma : lexes_any [c_comma] [LP KComma].
  Proof. apply lexes_punct. destruct fm; reflexivity. Qed.
  Lemma lexes_colon : lexes_any [c_colon] [LP KColon].
  Proof. apply lexes_punct. destruct fm; reflexivity. Qed.
  Lemma lexes_each outs ls : Forall2 lexes outs ls -> lexes_any (each comma outs) (jt ls true).
  Proof.
    intro H. induction H as [|o l outs ls Ho H IH]; [apply lexes_any_nil|].
    change (each comma (o :: outs)) with ((o ++ [c_comma]) ++ each comma outs). cbn [jt].
    destruct H as [|o2 l2 outs ls Ho2 H].
    - rewrite app_nil_r. apply lexes_app_l; [exact Ho | apply lexes_comma | discriminate | right; reflexivity].
    - change (LP KComma :: jt (l2 :: ls) true) with ([LP KComma] ++ jt (l2 :: ls) true). rewrite app_assoc.
      apply lexes_any_app; [|exact IH].
      apply lexes_app_l; [exact Ho | apply lexes_comma | discriminate | right; reflexivity].
  Qed.
  Lemma lexes_wrap a z ta tz s l : punct fm a = Some ta -> punct fm z = Some tz -> bound_char z = true ->
    lexes s l -> lexes_any (wrap a z s) (LP ta :: l ++ [LP tz]).
  Proof.
    intros Ha Hz Hb Hs. unfold wrap.
    change (a :: s ++ [z]) with ([a] ++ (s ++ [z])). change (LP ta :: l ++ [LP tz]) with ([LP ta] ++ (l ++ [LP tz])).
    apply lexes_any_app; [apply lexes_punct; assumption|].
    apply lexes_app_l; [exact Hs | apply lexes_punct; assumption | discriminate | right; exact Hb].
  Qed.
  Lemma lexes_wrap_t s l : lexes s l -> lexes_any (wrap (t_open fm) (t_close fm) s) (LP (k_topen fm) :: l ++ [LP (k_tclose fm)]).
  Proof. intro H. apply lexes_wrap; try exact H; unfold t_open, t_close, k_topen, k_tclose; destruct fm; reflexivity. Qed.
  Lemma lexes_wrap_s s l : lexes s l -> lexes_any (wrap (s_open fm) (s_close fm) s) (LP (k_sopen fm) :: l ++ [LP (k_sclose fm)]).
  Proof. intro H. apply lexes_wrap; try exact H; unfold s_open, s_close, k_sopen, k_sclose; destruct fm; reflexivity. Qed.
  Lemma lexes_wrap_c s l : lexes s l -> lexes_any (wrap c_lcur c_rcur s) (LP KCurlyOpen :: l ++ [LP KCurlyClose]).
  Proof. intro H. apply lexes_wrap; try exact H; destruct fm; reflexivity. Qed.
  Lemma lexes_wrap_b s l : lexes s l -> lexes_any (wrap c_lbr c_rbr s) (LP KBlockOpen :: l ++ [LP KBlockClose]).
  Proof. intro H. apply lexes_wrap; try exact H; destruct fm; reflexivity. Qed.
End LexJoin.
