(** Reading a RON text is reading the document it denotes. *)
From Verif Require Import Base Utf8 Types BinModel Text TextModel TextSim TextToks TextLex TextRead SpecText SpecGram SpecList TextRound TextGram TextFuel TextLocal TextRun SpecObj TextEmbed TextObj TextList PropsObj PropsList PropsTok SpecDoc Doc SpecRon.
Local Open Scope N_scope.

(** ** Induction on documents *)
Section DocInd.
  Variable P : rdoc -> Prop.
  Hypotheses (H1 : forall b, P (RBool b)) (H2 : forall s, P (RNum s)) (H3 : forall s, P (RStr s)) (H4 : forall s, P (RWord s))
    (H5 : forall l, Forall P l -> P (RList l)) (H6 : forall l, Forall P l -> P (RTup l))
    (H7 : forall ms, Forall (fun m => P (snd m)) ms -> P (RObj ms))
    (H8 : forall es, Forall (fun m => P (fst m) /\ P (snd m)) es -> P (RMap es))
    (H9 : forall w p, P p -> P (RVar w p)).
  Fixpoint rdoc_induct (d : rdoc) : P d :=
    match d with
    | RBool b => H1 b | RNum s => H2 s | RStr s => H3 s | RWord s => H4 s
    | RList l => H5 l ((fix go l := match l return Forall P l with [] => Forall_nil _ | x :: r => Forall_cons _ (rdoc_induct x) (go r) end) l)
    | RTup l => H6 l ((fix go l := match l return Forall P l with [] => Forall_nil _ | x :: r => Forall_cons _ (rdoc_induct x) (go r) end) l)
    | RObj ms => H7 ms ((fix go l := match l return Forall (fun m => P (snd m)) l with [] => Forall_nil _ | x :: r => Forall_cons _ (rdoc_induct (snd x)) (go r) end) ms)
    | RMap es => H8 es ((fix go l := match l return Forall (fun m => P (fst m) /\ P (snd m)) l with [] => Forall_nil _ | x :: r => Forall_cons _ (conj (rdoc_induct (fst x)) (rdoc_induct (snd x))) (go r) end) es)
    | RVar w p => H9 w p (rdoc_induct p)
    end.
End DocInd.

(** ** More fuel *)
Lemma rfields_in (m m' : ty -> rdoc -> val -> Prop) dflt fs ms vs : (forall k d t v, In (k, d) ms -> m t d v -> m' t d v) -> rfields_means m dflt fs ms vs -> rfields_means m' dflt fs ms vs.
Proof.
  intros H (H1 & H2 & H3). split; [|split; [|exact H3]].
  - eapply f2_impl; [|exact H1]. intros f v. unfold field_from. destruct (f_skip f); [auto|]. intros [(d & Hd & Hv)|Hv]; [|auto].
    left. exists d. split; [exact Hd|]. eapply field_in; [|exact Hv]. intros t w. eapply H. eapply last_named_in. exact Hd.
  - intros k d f A B C D. destruct (H2 k d f A B C D) as [w Hw]. exists w. eapply field_in; [|exact Hw]. intros t x. eapply H. exact A.
Qed.
Lemma rmeans1_impl F c G (m m' : ty -> rdoc -> val -> Prop) : (forall t d v, m t d v -> m' t d v) -> forall t d v, rmeans1 F c G m t d v -> rmeans1 F c G m' t d v.
Proof.
  intros IH t d v H.
  assert (IT : forall ts ds vs, tuple_means m ts ds vs -> tuple_means m' ts ds vs) by (intros; eapply tuple_means_impl; [exact IH | eassumption]).
  assert (IF : forall dflt fs ms vs, rfields_means m dflt fs ms vs -> rfields_means m' dflt fs ms vs) by (intros; eapply rfields_in; [|eassumption]; intros; apply IH; assumption).
  destruct t; try exact H; cbn [rmeans1] in *.
  - destruct H as [H|(H & w & H1 & H2)]; [auto|]. right. split; [exact H|]. exists w. auto.
  - destruct H as (ds & ws & H1 & H2 & H3). exists ds, ws. split; [exact H1|]. split; [|exact H3]. eapply f2_impl; [|exact H2]. auto.
  - destruct H as (ds & ws & H1 & H2 & H3). exists ds, ws. split; [exact H1|]. split; [|exact H3]. eapply f2_impl; [|exact H2]. intros a b [A B]; auto.
  - destruct H as (ds & ws & H1 & H2 & H3 & H4). exists ds, ws. split; [exact H1|]. split; [exact H2|]. split; [|exact H4]. eapply f2_impl; [|exact H3]. auto.
  - destruct H as (H0 & ds & ws & H1 & H2 & H3). split; [exact H0|]. exists ds, ws. auto.
  - apply IH. exact H.
  - match goal with |- context [nth_error G ?j] => destruct (nth_error G j) as [[dflt cn fs|tr fs|vs|p t']|] end; try exact H.
    + destruct H as (ms & vs & H1 & H2 & H3). exists ms, vs. auto.
    + destruct H as (H0 & Hn & ds & ws & H1 & H2 & H3). split; [exact H0|]. split; [exact Hn|]. exists ds, ws. auto.
    + destruct H as (tag & vr & H1 & H2). exists tag, vr. split; [exact H1|]. destruct (v_body vr); [exact H2 | |].
      * destruct H2 as (ds & ws & A & B & C); exists ds, ws; auto.
      * destruct H2 as (p & ms & ws & A & B & C & D); exists p, ms, ws; auto.
Qed.
Lemma rmeans_S F c G : forall n t d v, rmeans F c G n t d v -> rmeans F c G (S n) t d v.
Proof. induction n as [|n IH]; intros t d v H; [contradiction|]. eapply (rmeans1_impl F c G); [|exact H]. exact IH. Qed.
Lemma rmeans_le F c G n m t d v : (n <= m)%nat -> rmeans F c G n t d v -> rmeans F c G m t d v.
Proof. induction 1; [auto | intro H2; apply rmeans_S; auto]. Qed.
Lemma rfuel_fields (m : nat -> ty -> rdoc -> val -> Prop) : (forall n n' t d v, (n <= n')%nat -> m n t d v -> m n' t d v) ->
  forall dflt fs ms vs, rfields_means (fuel_ex m) dflt fs ms vs -> exists k, rfields_means (m k) dflt fs ms vs.
Proof.
  intros Hle dflt fs ms vs (H1 & H2 & H3). destruct fs as [|f fs].
  - exists O. inversion H1; subst. split; [constructor|]. split; [|exact H3]. intros k d f _ [].
  - destruct (fuel_fields m Hle dflt (f :: fs) ms vs) as [k (K1 & K2 & _)].
    + split; [exact H1|]. split; [exact H2 | discriminate].
    + exists k. split; [exact K1|]. split; [exact K2 | exact H3].
Qed.

(** ** The texts of a document *)
Section Parts.
  Variable F : flt.
  Notation value := (value_text F Ron).
  Notation ins := (inside F Ron).
  Lemma gap_inside g : gap g -> ins g.
  Proof. intro H. rewrite <- (app_nil_r g). apply in_gap; [exact H | constructor]. Qed.
  Lemma comma_ends s : ends ([44] ++ s). Proof. right; cbn; tauto. Qed.
  Lemma colon_ends s : ends ([58] ++ s). Proof. right; cbn; tauto. Qed.
  Lemma gap_end g : gap g -> ends g.
  Proof. intro H. rewrite <- (app_nil_r g). apply gap_ends; [exact H | left; reflexivity]. Qed.
  Lemma true_word : ron_word (chars "true").
  Proof. exists 116, [114; 117; 101]. split; [reflexivity|]. split; [right; left; lia|]. repeat (constructor; [left; right; left; lia|]). constructor. Qed.
  Lemma false_word : ron_word (chars "false").
  Proof. exists 102, [97; 108; 115; 101]. split; [reflexivity|]. split; [right; left; lia|]. repeat (constructor; [left; right; left; lia|]). constructor. Qed.
  Lemma rdenotes_inside :
    (forall d x, rdenotes F d x -> value x /\ (forall r, ends r -> ins r -> ins (x ++ r)) /\ (in_parens d -> exists a, x = 40 :: a ++ [41] /\ ins a)) /\
    (forall l s, rseq F l s -> ins s) /\ (forall ms s, rmembers F ms s -> ins s) /\ (forall es s, rentries F es s -> ins s).
  Proof.
    assert (Hgrp : forall (o cl : N) s, brackets Ron o cl -> ins s -> value (o :: s ++ [cl]) /\ (forall r, ends r -> ins r -> ins ((o :: s ++ [cl]) ++ r))).
    { intros o cl s Hb Hs. split; [apply va_group; auto|]. intros r He Hr. cbn [app]. rewrite <- app_assoc. apply in_group; auto. }
    assert (Hw : forall w, ron_name w -> value w /\ (forall r, ends r -> ins r -> ins (w ++ r))).
    { intros w (Hw & _). split; [apply va_word; exact Hw|]. intros r He Hr. apply in_word; auto. }
    assert (Hk : forall (k : str) x b e r, (forall r, ends r -> ins r -> ins (k ++ r)) -> (forall r, ends r -> ins r -> ins (x ++ r)) -> gap b -> gap e -> ends r -> ins r -> forall c, gap c -> ins (k ++ b ++ [58] ++ c ++ x ++ e ++ r)).
    { intros k x b e r Hk Hx Hb He Er Ir c Hc. apply Hk; [apply gap_ends; [exact Hb | apply colon_ends]|]. apply in_gap; [exact Hb|]. apply in_mark; [right; reflexivity|].
      apply in_gap; [exact Hc|]. apply Hx; [apply gap_ends; assumption|]. apply in_gap; assumption. }
    assert (E0 : ends []) by (left; reflexivity). assert (I0 : ins []) by constructor.
    apply rdenotes_mutind.
    - split; [apply va_word; exact true_word|]. split; [|intros []]. intros r He Hr. apply in_word; auto. exact true_word.
    - split; [apply va_word; exact false_word|]. split; [|intros []]. intros r He Hr. apply in_word; auto. exact false_word.
    - intros s H. split; [apply va_num; exact H|]. split; [|intros []]. intros r He Hr. apply in_num; auto.
    - intros b s H. split; [apply va_str; exists s; exact H|]. split; [|intros []]. intros r He Hr. apply in_str; [exists s; exact H | exact Hr].
    - intros w H. destruct (Hw w H). split; [assumption|]. split; [assumption | intros []].
    - intros l s _ H. destruct (Hgrp 91 93 s) as [A B]; [left; auto | exact H|]. split; [exact A|]. split; [exact B | intros []].
    - intros l s _ H. destruct (Hgrp 40 41 s) as [A B]; [right; right; auto | exact H|]. split; [exact A|]. split; [exact B|]. intros _. exists s. auto.
    - intros ms s _ _ H. destruct (Hgrp 40 41 s) as [A B]; [right; right; auto | exact H|]. split; [exact A|]. split; [exact B|]. intros _. exists s. auto.
    - intros l s _ H. destruct (Hgrp 123 125 s) as [A B]; [right; left; auto | exact H|]. split; [exact A|]. split; [exact B | intros []].
    - intros w g p x Hwn Hg Hp _ (_ & Hx & Ha). destruct (Ha Hp) as (a & -> & Ia). pose proof Hwn as (W1 & W2 & W3).
      split; [apply va_named; auto|]. split; [|intros []]. intros r He Hr. rewrite <- !app_assoc. apply (Hw w Hwn); [|apply in_gap; [exact Hg | apply Hx; assumption]].
      apply gap_ends; [exact Hg | right; cbn; tauto].
    - intros g Hg. apply gap_inside; exact Hg.
    - intros a d x b Ha _ (_ & Hx & _) Hb. apply in_gap; [exact Ha|]. apply Hx; [apply gap_end; exact Hb | apply gap_inside; exact Hb].
    - intros a d x b l s Ha _ (_ & Hx & _) Hb _ Hs. apply in_gap; [exact Ha|]. apply Hx; [apply gap_ends; [exact Hb | apply comma_ends]|].
      apply in_gap; [exact Hb|]. apply in_mark; [left; reflexivity | exact Hs].
    - intros g Hg. apply gap_inside; exact Hg.
    - intros a k b c d x e Ha Hkn Hb Hc _ (_ & Hx & _) He. apply in_gap; [exact Ha|]. rewrite <- (app_nil_r e). apply Hk; auto. apply (Hw k Hkn).
    - intros a k b c d x e ms s Ha Hkn Hb Hc _ (_ & Hx & _) He _ Hs. apply in_gap; [exact Ha|]. apply Hk; auto; [apply (Hw k Hkn) | apply comma_ends|].
      apply in_mark; [left; reflexivity | exact Hs].
    - intros g Hg. apply gap_inside; exact Hg.
    - intros a k y b c d x e Ha _ (_ & Hy & _) Hb Hc _ (_ & Hx & _) He. apply in_gap; [exact Ha|]. rewrite <- (app_nil_r e). apply Hk; auto.
    - intros a k y b c d x e ms s Ha _ (_ & Hy & _) Hb Hc _ (_ & Hx & _) He _ Hs. apply in_gap; [exact Ha|]. apply Hk; auto; [apply comma_ends|].
      apply in_mark; [left; reflexivity | exact Hs].
  Qed.
  Lemma rdenotes_value d x : rdenotes F d x -> value x.
  Proof. intro H. apply rdenotes_inside in H. tauto. Qed.

  Definition rmden (m : str * rdoc) (e : str * str) : Prop := fst e = fst m /\ rdenotes F (snd m) (snd e).
  Definition reden (m : rdoc * rdoc) (e : str * str) : Prop := rdenotes F (fst m) (fst e) /\ rdenotes F (snd m) (snd e).
  Lemma rseq_items l s : rseq F l s -> exists xs, Forall2 (rdenotes F) l xs /\
    (items_text F Ron xs s \/ (exists s' g, items_text F Ron xs s' /\ gap g /\ s = s' ++ [44] ++ g) \/ xs = [] /\ gap s).
  Proof.
    induction 1 as [g Hg|a d x b Ha Hd Hb|a d x b l s Ha Hd Hb Hl (xs & H2 & Hx)].
    - exists []. auto.
    - exists [x]. split; [auto|]. left. apply its_one; eauto using rdenotes_value.
    - exists (x :: xs). split; [auto|]. destruct Hx as [Hx|[(s' & g & Hx & Hg & ->)|[-> Hs]]].
      + left. apply its_more; eauto using rdenotes_value.
      + right. left. exists (a ++ x ++ b ++ [44] ++ s'), g. split; [apply its_more; eauto using rdenotes_value|]. split; [exact Hg|]. rewrite <- !app_assoc. reflexivity.
      + right. left. exists (a ++ x ++ b), s. split; [apply its_one; eauto using rdenotes_value|]. split; [exact Hs|]. rewrite <- !app_assoc. reflexivity.
  Qed.
  Lemma rmembers_members ms s : rmembers F ms s -> exists es, Forall2 rmden ms es /\
    (members_text F Ron es s \/ (exists s' g, members_text F Ron es s' /\ gap g /\ s = s' ++ [44] ++ g) \/ es = [] /\ gap s).
  Proof.
    assert (Hm : forall a k b c d x e, gap a -> ron_name k -> gap b -> gap c -> rdenotes F d x -> gap e -> SpecGram.member_text F Ron (k, x) (a ++ k ++ b ++ [58] ++ c ++ x ++ e)).
    { intros a k b c d x e Ha Hk Hb Hc Hd He. exists a, k, b, c, e. cbn [fst snd]. split; [reflexivity|]. split; [split; [reflexivity | exact Hk]|].
      repeat (split; [assumption|]). eapply rdenotes_value; exact Hd. }
    induction 1 as [g Hg|a k b c d x e Ha Hk Hb Hc Hd He|a k b c d x e ms s Ha Hk Hb Hc Hd He Hl (es & H2 & Hx)].
    - exists []. auto.
    - exists [(k, x)]. split; [constructor; [split; [reflexivity | exact Hd] | constructor]|]. left. apply mt_one. eapply Hm; eassumption.
    - exists ((k, x) :: es). split; [constructor; [split; [reflexivity | exact Hd] | exact H2]|].
      assert (E : forall r, a ++ k ++ b ++ [58] ++ c ++ x ++ e ++ [44] ++ r = (a ++ k ++ b ++ [58] ++ c ++ x ++ e) ++ [44] ++ r) by (intro; rewrite <- !app_assoc; reflexivity).
      rewrite E. destruct Hx as [Hx|[(s' & g & Hx & Hg & ->)|[-> Hs]]].
      + left. apply mt_more; [eapply Hm; eassumption | exact Hx].
      + right. left. exists ((a ++ k ++ b ++ [58] ++ c ++ x ++ e) ++ [44] ++ s'), g. split; [apply mt_more; [eapply Hm; eassumption | exact Hx]|]. split; [exact Hg|]. rewrite <- !app_assoc. reflexivity.
      + right. left. exists (a ++ k ++ b ++ [58] ++ c ++ x ++ e), s. split; [apply mt_one; eapply Hm; eassumption|]. split; [exact Hs | reflexivity].
  Qed.
  Lemma rentries_entries ms s : rentries F ms s -> exists es, Forall2 reden ms es /\
    (entries_text F Ron es s \/ (exists s' g, entries_text F Ron es s' /\ gap g /\ s = s' ++ [44] ++ g) \/ es = [] /\ gap s).
  Proof.
    assert (Hm : forall a k y b c d x e, gap a -> rdenotes F k y -> gap b -> gap c -> rdenotes F d x -> gap e -> entry_text F Ron (y, x) (a ++ y ++ b ++ [58] ++ c ++ x ++ e)).
    { intros a k y b c d x e Ha Hk Hb Hc Hd He. exists a, b, c, e. cbn [fst snd]. split; [reflexivity|].
      repeat (split; [assumption|]). split; eapply rdenotes_value; eassumption. }
    induction 1 as [g Hg|a k y b c d x e Ha Hk Hb Hc Hd He|a k y b c d x e ms s Ha Hk Hb Hc Hd He Hl (es & H2 & Hx)].
    - exists []. auto.
    - exists [(y, x)]. split; [constructor; [split; [exact Hk | exact Hd] | constructor]|]. left. apply en_one. eapply Hm; eassumption.
    - exists ((y, x) :: es). split; [constructor; [split; [exact Hk | exact Hd] | exact H2]|].
      assert (E : forall r, a ++ y ++ b ++ [58] ++ c ++ x ++ e ++ [44] ++ r = (a ++ y ++ b ++ [58] ++ c ++ x ++ e) ++ [44] ++ r) by (intro; rewrite <- !app_assoc; reflexivity).
      rewrite E. destruct Hx as [Hx|[(s' & g & Hx & Hg & ->)|[-> Hs]]].
      + left. apply en_more; [eapply Hm; eassumption | exact Hx].
      + right. left. exists ((a ++ y ++ b ++ [58] ++ c ++ x ++ e) ++ [44] ++ s'), g. split; [apply en_more; [eapply Hm; eassumption | exact Hx]|]. split; [exact Hg|]. rewrite <- !app_assoc. reflexivity.
      + right. left. exists (a ++ y ++ b ++ [58] ++ c ++ x ++ e), s. split; [apply en_one; eapply Hm; eassumption|]. split; [exact Hs | reflexivity].
  Qed.

  (** ** The tokens of a document *)
  Notation lexs := (lexs F Ron).
  Notation lexes := (lexes F Ron).
  Notation vtext := (vtext F Ron).
  Notation mtok := (mtok F Ron).
  Notation etok := (etok F Ron).
  (** What is in round brackets. *)
  Definition payload (p : rdoc) (l : list ltok) : Prop :=
    match p with
    | RTup ds => exists xs ls tr, Forall2 vtext xs ls /\ Forall2 (rdenotes F) ds xs /\ l = brk_toks Ron ls tr
    | RObj ms => ms <> [] /\ exists es ls tr, Forall2 mtok es ls /\ Forall2 rmden ms es /\ l = obj_toks Ron ls tr
    | _ => False
    end.
  Definition shape (d : rdoc) (l : list ltok) : Prop :=
    match d with
    | RBool b => l = [LP (KBool b)]
    | RNum s => number_ok F s /\ exists t, num_value F s t /\ l = [LP t]
    | RStr s => l = [LStr s]
    | RWord w => l = [LId w]
    | RList ds => exists xs ls tr, Forall2 vtext xs ls /\ Forall2 (rdenotes F) ds xs /\ l = LP KBlockOpen :: jt ls tr ++ [LP KBlockClose]
    | RTup _ | RObj _ => payload d l
    | RMap ms => exists es ls tr, Forall2 etok es ls /\ Forall2 reden ms es /\ l = LP KCurlyOpen :: jt ls tr ++ [LP KCurlyClose]
    | RVar w p => exists lp, l = LId w :: lp /\ payload p lp
    end.
  Lemma lexes_unique x l l' : lexes x l -> lexes x l' -> l = l'.
  Proof. intros A B. apply lexes_end in A, B. congruence. Qed.
  Lemma name_lex w : ron_name w -> lexes w [LId w].
  Proof. intros (W1 & W2 & W3). destruct (lexes_words F Ron w W1) as (t & T1 & _ & T3). rewrite (T3 W2 W3 eq_refl) in T1. exact T1. Qed.
  Lemma paren_shape d x : in_parens d -> rdenotes F d x -> exists l, lexes_any F Ron x l /\ payload d l.
  Proof.
    intros Hp H. inversion H; subst; try contradiction; clear Hp.
    - match goal with Q : rseq F _ _ |- _ => destruct (rseq_items _ _ Q) as (xs & Hx & Hs) end.
      assert (Hl : list_text F Ron 40 41 xs (40 :: s ++ [41])) by (exists [], [], s; split; [reflexivity|]; split; [constructor|]; split; [constructor | exact Hs]).
      destruct (list_lexes F Ron 40 KParenOpen 41 KParenClose xs _ eq_refl eq_refl eq_refl Hl) as (ls & tr & L & V).
      eexists. split; [exact L|]. exists xs, ls, tr. split; [exact V|]. split; [exact Hx | reflexivity].
    - match goal with Q : rmembers F _ _ |- _ => destruct (rmembers_members _ _ Q) as (es & Hx & Hs) end.
      assert (Hl : object_text F Ron es (40 :: s ++ [41])) by (exists [], [], s; split; [reflexivity|]; split; [constructor|]; split; [constructor | exact Hs]).
      destruct (object_any F Ron es _ Hl) as (ls & tr & L & V).
      eexists. split; [exact L|]. split; [assumption|]. exists es, ls, tr. split; [exact V|]. split; [exact Hx | reflexivity].
  Qed.
  Lemma has_shape d x l : rdenotes F d x -> lexes x l -> shape d l.
  Proof.
    intros H L. assert (U : forall l', lexes x l' -> l = l') by (intros l'; apply lexes_unique; exact L).
    destruct H as [| |s Hs|b s Hs|w Hw|ds s Hs|ds s Hs|ms s Hm Hs|es s Hs|w g p x Hw Hg Hp Hx].
    - apply U. apply lexes_word; try reflexivity; discriminate.
    - apply U. apply lexes_word; try reflexivity; discriminate.
    - split; [exact Hs|]. destruct (number_tok F s Hs) as [t Ht]. exists t. split; [exact Ht|]. apply U. apply lexes_number. exact Ht.
    - apply U. apply lexes_weak, lexes_quoted. exact Hs.
    - apply U. apply name_lex. exact Hw.
    - destruct (rseq_items _ _ Hs) as (xs & Hx & Hi).
      assert (Hl : list_text F Ron 91 93 xs (91 :: s ++ [93])) by (exists [], [], s; split; [reflexivity|]; split; [constructor|]; split; [constructor | exact Hi]).
      destruct (list_lexes F Ron 91 KBlockOpen 93 KBlockClose xs _ eq_refl eq_refl eq_refl Hl) as (ls & tr & L2 & V).
      exists xs, ls, tr. split; [exact V|]. split; [exact Hx|]. apply U, lexes_weak. exact L2.
    - destruct (paren_shape (RTup ds) _ I (rn_tup F ds s Hs)) as (l' & L2 & P). rewrite (U l' (lexes_weak F Ron _ _ L2)). exact P.
    - destruct (paren_shape (RObj ms) _ I (rn_obj F ms s Hm Hs)) as (l' & L2 & P). rewrite (U l' (lexes_weak F Ron _ _ L2)). exact P.
    - destruct (rentries_entries _ _ Hs) as (xs & Hx & Hi).
      assert (Hl : map_text F Ron xs (123 :: s ++ [125])) by (exists [], [], s; split; [reflexivity|]; split; [constructor|]; split; [constructor | exact Hi]).
      destruct (map_lexes F Ron xs _ Hl) as (ls & tr & L2 & V).
      exists xs, ls, tr. split; [exact V|]. split; [exact Hx|]. apply U, lexes_weak. exact L2.
    - destruct (paren_shape p x Hp Hx) as (l' & L2 & P). exists l'. split; [|exact P]. apply U.
      change (LId w :: l') with ([LId w] ++ [] ++ l'). apply lexes_app; [apply name_lex; exact Hw| |].
      + apply lexes_app_r; [apply gap_lexes; exact Hg | apply lexes_weak; exact L2].
      + destruct (proj2 (proj2 (proj1 rdenotes_inside p x Hx)) Hp) as (a & -> & _).
        destruct Hg as [|y g Hy|body g|body g]; right; try reflexivity. cbn [app cur]. destruct Hy as [-> | [-> | [-> | ->]]]; reflexivity.
  Qed.
  Lemma rdenotes_vtext d x : rdenotes F d x -> exists l, vtext x l /\ shape d l.
  Proof.
    intro H. destruct (value_vtext F Ron x (rdenotes_value _ _ H)) as [l Hl]. exists l. split; [exact Hl|]. eapply has_shape; [exact H | apply Hl].
  Qed.
  Lemma rdenotes_document d x : rdenotes F d x -> rdocument F d x.
  Proof. intro H. exists [], x, []. rewrite app_nil_r. repeat split; try constructor. exact H. Qed.
End Parts.

Section Runs.
  Variables (F : flt) (c : cfg) (G : env).
  Notation de := (de_text tok_lexer F c G Ron).
  Notation parses := (parses F c G Ron).
  Notation entire := (entire F c G Ron).
  Notation vtext := (vtext F Ron).
  Notation shape := (shape F).
  Notation payload := (payload F).
  Notation at2 := (at2 Ron).

  (** The run on the tokens [l] that takes them all. *)
  Definition rruns (n : nat) (t : ty) (l : list ltok) (v : val) : Prop := exists u', de n t (st0 l false) = (u', Ok v) /\ at2 u' [] false.
  Definition RR (t : ty) (l : list ltok) (v : val) : Prop := exists n, rruns n t l v.
  Lemma at2_fun u l l' b b' : at2 u l b -> at2 u l' b' -> l = l'.
  Proof. intros [(A & _) _] [(B & _) _]. congruence. Qed.
  Lemma vt_at2 x l : vtext x l -> at2 (st0 l false) l false.
  Proof. intros [L _]. apply (st0_at2 F Ron x). apply lexes_end. exact L. Qed.
  Lemma RR_entire t x l v : vtext x l -> (entire t x v <-> RR t l v).
  Proof.
    intro Hv. pose proof (vt_at2 x l Hv) as A0. rewrite <- (app_nil_r l) in A0 at 2. split.
    - intro H. destruct (entire_reads F c G Ron t x l v Hv H) as [N HN]. destruct (HN N (le_n N) [] false (st0 l false) eq_refl A0) as (u' & E & A). exists N, u'. auto.
    - intros (n & u' & E & A). destruct (embed_entire F c G Ron n t x l [] false _ u' v Hv eq_refl A0 E) as [[H _]|(_ & o & r & _ & A2)]; [exact H|].
      pose proof (at2_fun _ _ _ _ _ A A2). discriminate.
  Qed.
  Lemma rruns_le n m t l v : (n <= m)%nat -> rruns n t l v -> rruns m t l v.
  Proof. intros Hn (u' & H & A). exists u'. split; [|exact A]. rewrite <- H. apply de_mono; [exact Hn|]. rewrite H. discriminate. Qed.

  Definition head_ok (d : rdoc) (l : list ltok) : Prop :=
    match d with
    | RBool b => l = [LP (KBool b)]
    | RNum s => number_ok F s /\ exists t, num_value F s t /\ l = [LP t] /\ match t with KU64 _ | KI64 _ | KF64 _ => True | _ => False end
    | RStr s => l = [LStr s]
    | RWord w => l = [LId w]
    | RList _ => exists r, l = LP KBlockOpen :: r
    | RTup _ | RObj _ => exists r, l = LP KParenOpen :: r
    | RMap _ => exists r, l = LP KCurlyOpen :: r
    | RVar w _ => exists r, l = LId w :: LP KParenOpen :: r
    end.
  Lemma shape_head d l : shape d l -> head_ok d l.
  Proof.
    destruct d as [b|s|s|w|ds|ds|ms|es|w p]; cbn [RonDoc.shape head_ok]; try (intro H; exact H).
    - intros (H & t & Hv & ->). split; [exact H|]. exists t. split; [exact Hv|]. split; [reflexivity|].
      pose proof (tok_literal F s t Hv) as Q. destruct t; try contradiction; exact I.
    - intros (xs & ls & tr & _ & _ & ->). eauto.
    - intros (xs & ls & tr & _ & _ & ->). unfold brk_toks. cbn [k_topen]. eauto.
    - intros (_ & xs & ls & tr & _ & _ & ->). unfold obj_toks. cbn [k_sopen]. eauto.
    - intros (xs & ls & tr & _ & _ & ->). eauto.
    - intros (lp & -> & Hp). destruct p; try contradiction; destruct Hp as (xs & Hp); [destruct Hp as (ls & tr & _ & _ & ->); unfold brk_toks; cbn [k_topen] | destruct Hp as (es & ls & tr & _ & _ & ->); unfold obj_toks; cbn [k_sopen]]; eauto.
  Qed.
  Ltac stc := cbn [st0 l_tok tok_lexer t_toks tok_kind ltok_kind tok_is l_next tok_next t_bad ltok_str ltok_id t_sb t_ib l_str l_id l_take].
  Ltac stc_in H := cbn [st0 l_tok tok_lexer t_toks tok_kind ltok_kind tok_is l_next tok_next t_bad ltok_str ltok_id t_sb t_ib l_str l_id l_take] in H.
  Ltac done2 := eexists; split; [reflexivity | split; [split; [reflexivity | split; [reflexivity | exact I]] | reflexivity]].
  (** All the shapes, with their first tokens. *)
  Ltac heads S := apply shape_head in S; match type of S with head_ok ?d _ => destruct d as [b|s|s|w|ds|ds|ms|es|w p]; cbn [head_ok] in S;
    [subst | destruct S as (Hno & t & Hv & -> & Q) | subst | subst | destruct S as (r & ->) | destruct S as (r & ->) | destruct S as (r & ->) | destruct S as (r & ->) | destruct S as (r & ->)] end.

  (** *** Scalars *)
  Lemma RR_int k d l v : shape d l -> (RR (TInt k) l v <-> exists s z, d = RNum s /\ v = VZ z /\ int_means c k s z).
  Proof.
    intro S. heads S; try (split; [intros ([|n] & u' & H & _); [discriminate|]; destruct k; discriminate H | intros (s0 & z & Hd & _); discriminate]).
    split.
    - intros ([|n] & u' & H & _); [discriminate|]. cbn [de_text] in H. unfold de_int in H.
      assert (K1 : k <> U128) by (intros ->; discriminate). assert (K2 : k <> I128) by (intros ->; discriminate).
      assert (Hz : exists z, v = VZ z /\ int_of_tok c k t = Some z).
      { unfold int_of_tok.
        assert (Hs : (if ik_signed k then pbind (i64_range tok_lexer (- i_bound k) (i_bound k - 1)) (fun v => pbind (l_next tok_lexer) (fun _ => pret (VZ (cast c k v))))
           else pbind (u64_range tok_lexer (u_max k)) (fun v => pbind (l_next tok_lexer) (fun _ => pret (VZ (cast c k (Z.of_N v)))))) (st0 [LP t] false) = (u', Ok v)) by (destruct k; try congruence; exact H).
        clear H. destruct (ik_signed k); unfold pbind, i64_range, u64_range in Hs; stc_in Hs; destruct t; try discriminate Hs.
        - destruct (_ <? _)%Z; [discriminate|]. stc_in Hs. injection Hs as _ <-. eauto.
        - destruct (_ <? _)%Z; [discriminate|]. stc_in Hs. injection Hs as _ <-. eauto.
        - destruct (_ <? _); [discriminate|]. stc_in Hs. injection Hs as _ <-. eauto. }
      destruct Hz as (z & -> & Hz). exists s, z. split; [reflexivity|]. split; [reflexivity|]. apply (int_of_tok_means F c k s t z K1 K2 Hv). exact Hz.
    - intros (s' & z & E & -> & Hm). injection E as <-. pose proof Hm as (K1 & K2 & _).
      apply (int_of_tok_means F c k s t z K1 K2 Hv) in Hm. exists 1%nat. unfold rruns. cbn [de_text]. unfold de_int, int_of_tok in *.
      assert (Hs : exists u', (if ik_signed k then pbind (i64_range tok_lexer (- i_bound k) (i_bound k - 1)) (fun v => pbind (l_next tok_lexer) (fun _ => pret (VZ (cast c k v))))
           else pbind (u64_range tok_lexer (u_max k)) (fun v => pbind (l_next tok_lexer) (fun _ => pret (VZ (cast c k (Z.of_N v)))))) (st0 [LP t] false) = (u', Ok (VZ z)) /\ at2 u' [] false).
      { destruct (ik_signed k); unfold pbind, i64_range, u64_range; stc; destruct t; try discriminate.
        - destruct (_ <? _)%Z; [discriminate|]. injection Hm as <-. stc. done2.
        - destruct (_ <? _)%Z; [discriminate|]. injection Hm as <-. stc. done2.
        - destruct (_ <? _); [discriminate|]. injection Hm as <-. stc. done2. }
      destruct k; try congruence; exact Hs.
  Qed.
  Lemma rf64_runs d l (f : N -> val) v : shape d l ->
    ((exists u', pmap f (de_f64 tok_lexer F) (st0 l false) = (u', Ok v) /\ at2 u' [] false) <-> exists s b, d = RNum s /\ v = f b /\ double_means F s b).
  Proof.
    intro S. heads S; try (split; [intros (u' & H & _); discriminate H | intros (s0 & z & Hd & _); discriminate]).
    split.
    - intros (u' & H & _). unfold pmap, de_f64, pbind, as_f64 in H. stc_in H. exists s.
      destruct t; try contradiction; stc_in H; injection H as _ <-; eexists; (split; [reflexivity|]; split; [reflexivity|]); apply (double_of_tok_means F s _ _ Hno Hv); reflexivity.
    - intros (s' & b & E & -> & Hm). injection E as <-. apply (double_of_tok_means F s t b Hno Hv) in Hm.
      unfold pmap, de_f64, pbind, as_f64. stc. destruct t; try contradiction; cbn in Hm; injection Hm as <-; stc; done2.
  Qed.
  Lemma RR_f64 d l v : shape d l -> (RR TF64 l v <-> exists s b, d = RNum s /\ v = VF b /\ double_means F s b).
  Proof. intro S. rewrite <- (rf64_runs d l VF v S). split; [intros ([|n] & u' & H & A); [discriminate | exists u'; auto] | intro H; exists 1%nat; exact H]. Qed.
  Lemma RR_f32 d l v : shape d l -> (RR TF32 l v <-> exists s b, d = RNum s /\ v = VF (f32_of_f64 F b) /\ double_means F s b).
  Proof. intro S. rewrite <- (rf64_runs d l (fun b => VF (f32_of_f64 F b)) v S). split; [intros ([|n] & u' & H & A); [discriminate | exists u'; auto] | intro H; exists 1%nat; exact H]. Qed.
  Lemma RR_bool d l v : shape d l -> (RR TBool l v <-> (exists b, d = RBool b /\ v = VBool b) \/ (exists s n, d = RNum s /\ nat_means s n /\ v = VBool (negb (n =? 0)))).
  Proof.
    intro S. heads S; try (split; [intros ([|n] & u' & H & _); discriminate H | intros [(b0 & Hd & _)|(s0 & n0 & Hd & _)]; discriminate]).
    - split.
      + intros ([|n] & u' & H & _); [discriminate|]. cbn [de_text] in H. unfold de_bool, pbind, as_bool in H. stc_in H. injection H as _ <-. left. eauto.
      + intros [(b' & E & ->)|(s & n & E & _)]; [|discriminate]. injection E as <-. exists 1%nat. done2.
    - split.
      + intros ([|n] & u' & H & _); [discriminate|]. cbn [de_text] in H. unfold de_bool, pbind, as_bool in H. stc_in H. destruct t; try contradiction; try discriminate.
        stc_in H. injection H as _ <-. right. exists s, n0. split; [reflexivity|]. split; [apply (nat_of_tok F s _ n0 Hv); reflexivity | reflexivity].
      + intros [(b' & E & ->)|(s' & n & E & Hm & ->)]; [discriminate|]. injection E as <-. apply (nat_of_tok F s t n Hv) in Hm. subst t. exists 1%nat. done2.
  Qed.
  Lemma RR_str d l v : shape d l -> (RR TStr l v <-> exists s, d = RStr s /\ v = VStr s).
  Proof.
    intro S. heads S; try (split; [intros ([|n] & u' & H & _); discriminate H | intros (s0 & Hd & _); discriminate]).
    - split; [intros ([|n] & u' & H & _); [discriminate|]; destruct t; try contradiction; discriminate H | intros (s0 & Hd & _); discriminate].
    - split.
      + intros ([|n] & u' & H & _); [discriminate|]. cbn [de_text] in H. unfold pmap, de_str, pbind, as_string in H. stc_in H. injection H as _ <-. eauto.
      + intros (s' & E & ->). injection E as <-. exists 1%nat. done2.
  Qed.

  (** *** What is in brackets *)
  Lemma ebind_inv {A} k w (f : unit -> @pm tst A) u u' v : pbind (expect tok_lexer k w) f u = (u', Ok v) -> tok_is (l_tok tok_lexer u) k = true.
  Proof. intro H. apply bind_first in H as (u1 & H & _). unfold expect in H. destruct (tok_is (l_tok tok_lexer u) k); [reflexivity | discriminate]. Qed.
  Lemma head_list d l : shape d l -> tok_is (l_tok tok_lexer (st0 l false)) KBlockOpen = true -> exists ds, d = RList ds.
  Proof. intros S H. heads S; try discriminate H; [|eauto]. destruct t; try contradiction; discriminate H. Qed.
  Lemma head_curly d l : shape d l -> tok_is (l_tok tok_lexer (st0 l false)) KCurlyOpen = true -> exists es, d = RMap es.
  Proof. intros S H. heads S; try discriminate H; [|eauto]. destruct t; try contradiction; discriminate H. Qed.
  Lemma head_paren d l : shape d l -> tok_is (l_tok tok_lexer (st0 l false)) KParenOpen = true -> in_parens d.
  Proof. intros S H. heads S; try discriminate H; try exact I. destruct t; try contradiction; discriminate H. Qed.
  Lemma head_word d l : shape d l -> tok_is (l_tok tok_lexer (st0 l false)) KIdent = true -> (exists w, d = RWord w) \/ exists w p, d = RVar w p.
  Proof. intros S H. heads S; try discriminate H; eauto. destruct t; try contradiction; discriminate H. Qed.
  Lemma seq_list k te d l v : shape d l -> RR (TSeq k te) l v -> exists ds, d = RList ds.
  Proof. intros S ([|n] & u' & H & _); [discriminate|]. cbn [de_text] in H. apply map_inv_ok in H as (a & H & ->). eapply head_list; [exact S|]. eapply ebind_inv. exact H. Qed.
  Lemma RR_seq k te xs ls tr v : let l := LP KBlockOpen :: jt ls tr ++ [LP KBlockClose] in Forall2 vtext xs ls -> at2 (st0 l false) l false ->
    (RR (TSeq k te) l v <-> exists ws, Forall2 (entire te) xs ws /\ v = VSeq (seq_of k ws [])).
  Proof.
    intros l Hls A0. rewrite <- (app_nil_r l) in A0 at 2. split.
    - intros ([|n] & u' & H & _); [discriminate|]. cbn [de_text] in H. apply map_inv_ok in H as (a & H & ->).
      destruct (seq_inv2 F c G Ron k te n xs ls tr a [] false _ u' Hls A0 (or_intror eq_refl) H) as (ws & Hw & -> & _).
      exists ws. split; [exact Hw|]. rewrite fold_seq_of. reflexivity.
    - intros (ws & Hw & ->). destruct (seq_fwd F c G Ron k te xs ls tr ws Hls Hw) as [N HN]. destruct (HN N (le_n N) [] false _ eq_refl A0) as (u' & E & A).
      exists (S N), u'. split; [|exact A]. cbn [de_text]. unfold pmap, pbind. fold l. rewrite E, fold_seq_of. reflexivity.
  Qed.
  Lemma map_curly k tk tv d l v : shape d l -> RR (TMap k tk tv) l v -> exists es, d = RMap es.
  Proof. intros S ([|n] & u' & H & _); [discriminate|]. cbn [de_text] in H. apply map_inv_ok in H as (a & H & ->). eapply head_curly; [exact S|]. eapply ebind_inv. exact H. Qed.
  Lemma RR_map k tk tv es ls tr v : let l := LP KCurlyOpen :: jt ls tr ++ [LP KCurlyClose] in Forall2 (etok F Ron) es ls -> at2 (st0 l false) l false ->
    (RR (TMap k tk tv) l v <-> exists ws, Forall2 (fun e w => entire tk (fst e) (fst w) /\ entire tv (snd e) (snd w)) es ws /\ v = VMap (map_of k ws [])).
  Proof.
    intros l Hls A0. rewrite <- (app_nil_r l) in A0 at 2. split.
    - intros ([|n] & u' & H & _); [discriminate|]. cbn [de_text] in H. apply map_inv_ok in H as (a & H & ->).
      destruct (map_inv2 F c G Ron k tk tv n es ls tr a [] false _ u' Hls A0 (or_intror eq_refl) H) as (ws & Hw & -> & _).
      exists ws. split; [exact Hw|]. rewrite fold_map_of. reflexivity.
    - intros (ws & Hw & ->). destruct (map_fwd F c G Ron k tk tv es ls tr ws Hls Hw) as [N HN]. destruct (HN N (le_n N) [] false _ eq_refl A0) as (u' & E & A).
      exists (S N), u'. split; [|exact A]. cbn [de_text]. unfold pmap, pbind. fold l. rewrite E, fold_map_of. reflexivity.
  Qed.

  (** Round brackets. *)
  Lemma id_then_colon n t k u tail b u1 v u' : at2 u (LId k :: LP KColon :: tail) b -> de n t u = (u1, Ok v) -> eat_tcomma tok_lexer Ron u1 = (u', Ok tt) -> False.
  Proof.
    intros A H E. assert (V : vtoks Ron [LId k]) by (apply vt_scalar; reflexivity).
    destruct (embed_split F c G Ron n t [LId k] (LP KColon :: tail) b u u1 v V eq_refl A H) as [[A1 _]|(_ & s & o & r & Q & _)]; [|discriminate].
    unfold eat_tcomma, eat_comma in E. rewrite (at2_tok Ron _ _ _ _ A1) in E. discriminate.
  Qed.
  Lemma brk_obj n ps ts es ls tr tail b u u' vs : Forall2 (good_item F c G Ron) ps ts -> es <> [] -> Forall2 (mtok F Ron) es ls -> at2 u (obj_toks Ron ls tr ++ tail) b ->
    de_bracketed tok_lexer Ron (map (fun p => p n) ps) u = (u', Ok vs) -> False.
  Proof.
    intros Hps Hne Hm A H. destruct Hm as [|e l es ls (lv & Hv & ->) Hm]; [congruence|].
    apply bind_first in H as (u1 & E1 & H). unfold obj_toks in A. cbn [app k_sopen] in A. rewrite <- app_assoc in A.
    destruct (expect2 Ron (k_topen Ron) (w_topen Ron) _ _ _ b A eq_refl) as (u1' & E1' & A1); [left; destruct ls; discriminate|].
    rewrite E1' in E1. injection E1 as <-.
    assert (A2 : exists r, at2 u1' (LId (fst e) :: LP KColon :: r) b).
    { cbn [jt] in A1. destruct ls; cbn [app keytok] in A1; eexists; exact A1. }
    destruct A2 as [r A2]. unfold pbind in H. destruct Hps as [|p t ps ts Hp Hps]; cbn [map de_list] in H.
    - unfold pret in H at 1. unfold expect in H. rewrite (at2_tok Ron _ _ _ _ A2) in H. discriminate.
    - unfold pbind in H. destruct (p n u1') as [u2 [x|e2|q|]] eqn:E2; try discriminate. apply Hp in E2 as (u3 & E3 & E4).
      eapply id_then_colon; eassumption.
  Qed.
  Lemma brk_payload n ps ts p lp tail b u u' vs : Forall2 (good_item F c G Ron) ps ts -> payload p lp -> at2 u (lp ++ tail) b -> go_on tail b ->
    de_bracketed tok_lexer Ron (map (fun p => p n) ps) u = (u', Ok vs) -> exists ds, p = RTup ds /\ at2 u' tail b.
  Proof.
    intros Hps Hp A Hg H. destruct p as [| | | | |ds|ms| |]; try contradiction.
    - destruct Hp as (xs & ls & tr & Hls & _ & ->). exists ds. split; [reflexivity|]. eapply (brk_inv F c G Ron n ps ts xs ls tr vs tail b u u'); eassumption.
    - destruct Hp as (Hne & es & ls & tr & Hm & He & ->). exfalso. eapply (brk_obj n ps ts es); try eassumption. intros ->. inversion He. congruence.
  Qed.
  (** A reader of bracketed items. *)
  Section Brk.
    Variables (T : ty) (ps : list (nat -> @pm tst val)) (ts : list ty).
    Hypothesis Hps : Forall2 (good_item F c G Ron) ps ts.
    Hypothesis Hstep : forall n u, de (S n) T u = pmap VSeq (de_bracketed tok_lexer Ron (map (fun p => p n) ps)) u.
    Lemma brk_tup d l v : shape d l -> at2 (st0 l false) l false -> RR T l v -> exists ds, d = RTup ds.
    Proof.
      intros Sh A0 ([|n] & u' & H & _); [discriminate|]. rewrite Hstep in H. apply map_inv_ok in H as (a & H & ->).
      pose proof (head_paren d l Sh (ebind_inv _ _ _ _ _ _ H)) as Hp. rewrite <- (app_nil_r l) in A0 at 2.
      destruct d; try contradiction; (edestruct (brk_payload n ps ts) as (ds & Ed & _); [exact Hps | exact Sh | exact A0 | right; reflexivity | exact H | eauto]).
    Qed.
    Lemma RR_brk xs ls tr v : let l := brk_toks Ron ls tr in Forall2 vtext xs ls -> at2 (st0 l false) l false ->
      (RR T l v <-> exists ws, v = VSeq ws /\ tuple_value F c G Ron ts xs ws).
    Proof.
      intros l Hls A0. rewrite <- (app_nil_r l) in A0 at 2. split.
      - intros ([|n] & u' & H & _); [discriminate|]. rewrite Hstep in H. apply map_inv_ok in H as (a & H & ->). exists a. split; [reflexivity|].
        eapply (brk_inv F c G Ron n ps ts xs ls tr a [] false _ u' Hps Hls A0 (or_intror eq_refl) H).
      - intros (ws & -> & Hw). destruct (brk_fwd F c G Ron ps ts xs ls tr ws Hps Hls Hw) as [N HN]. destruct (HN N (le_n N) [] false _ eq_refl A0) as (u' & E & A).
        exists (S N), u'. split; [|exact A]. rewrite Hstep. unfold pmap, pbind. fold l. rewrite E. reflexivity.
    Qed.
  End Brk.

  (** Named fields. *)
  Lemma named_tup n dflt fs ds xs ls tr tail b u u' vs : Forall2 vtext xs ls -> Forall2 (rdenotes F) ds xs -> at2 u (brk_toks Ron ls tr ++ tail) b -> go_on tail b ->
    de_named tok_lexer Ron (de n) n dflt fs u = (u', Ok vs) -> ds = [].
  Proof.
    intros Hv Hx A Hg H. destruct Hx as [|d x ds xs Hd Hx]; [reflexivity|]. exfalso. inversion Hv as [|? l ? ls' Hl Hls]; subst.
    pose proof (has_shape F d x l Hd (proj1 Hl)) as Sh.
    apply bind_first in H as (u1 & E1 & H). unfold brk_toks in A. cbn [app k_topen] in A. rewrite <- app_assoc in A.
    destruct (jt_cons (k_tclose Ron) l ls' tr tail) as (tl & Et & Htl). cbn [app] in A, Et. rewrite Et in A.
    assert (Hdl : delim_tok (hd (LP KEof) tl) = true) by (destruct Htl as [(_ & _ & ->)| ->]; reflexivity).
    destruct (expect2 Ron (k_sopen Ron) (w_sopen Ron) _ _ _ b A eq_refl) as (u1' & E1' & A1).
    { left. pose proof (shape_head d l Sh) as Hh. destruct d; cbn [head_ok] in Hh; [| |subst; discriminate|subst; discriminate| | | | |]; try (destruct Hh as (r & ->); discriminate); [subst; discriminate|]. destruct Hh as (_ & t & _ & -> & _). discriminate. }
    rewrite E1' in E1. injection E1 as <-.
    assert (Hk : forall w y r, at2 u1' (LId w :: y :: r) b -> tok_is (ltok_kind y) KColon = false -> False).
    { intros w y r A2 Hy. unfold pbind at 1 in H. destruct n as [|n']; [discriminate H|]. remember (S n') as m eqn:Em.
      rewrite Em in H. cbn [while_] in H. rewrite <- Em in H. rewrite (at2_tok Ron _ _ _ _ A2) in H. cbn [ltok_kind k_key tok_is] in H.
      destruct (named_body tok_lexer Ron (de m) m fs (map (fun _ => None) fs) u1') as [u2 [a|e|q|]] eqn:E2; [|unfold pbind in H; rewrite E2 in H; discriminate H..].
      unfold named_body, pbind at 1 in E2.
      destruct (find_field (key_of tok_lexer Ron u1') fs 0) as [[i f]|] eqn:Ef.
      - unfold pbind at 1, p_next_colon, pbind at 1 in E2.
        assert (Hgo : go_on (y :: r) b) by (left; discriminate). destruct (next_at u1' (LId w) (y :: r) b (proj1 A2) Hgo) as (u3 & E3 & A3 & _). cbn [l_next tok_lexer] in E2. rewrite E3 in E2.
        unfold p_colon, expect in E2. rewrite (tok_at _ _ _ _ A3) in E2. rewrite Hy in E2. discriminate.
      - destruct fs as [|f fs]; [|discriminate]. unfold eat_scomma, eat_comma, pbind in E2. rewrite (at2_tok Ron _ _ _ _ A2) in E2. discriminate. }
    assert (Hn : forall y r, at2 u1' (y :: r) b -> tok_is (ltok_kind y) KIdent = false -> tok_is (ltok_kind y) KParenClose = false -> False).
    { intros y r A2 Hy1 Hy2. unfold pbind at 1 in H. destruct n as [|n']; [discriminate H|]. cbn [while_] in H. rewrite (at2_tok Ron _ _ _ _ A2) in H. cbn [k_key] in H. rewrite Hy1 in H.
      unfold pbind, expect in H. rewrite (at2_tok Ron _ _ _ _ A2) in H. cbn [k_sclose] in H. rewrite Hy2 in H. discriminate. }
    apply shape_head in Sh. destruct d as [x0|s|s|w|ds0|ds0|ms|es|w p]; cbn [head_ok] in Sh; try (destruct Sh as (r & ->)); subst.
    - eapply Hn; [exact A1 | reflexivity | reflexivity].
    - destruct Sh as (_ & t & _ & -> & Q). destruct t; try contradiction; (eapply Hn; [exact A1 | reflexivity | reflexivity]).
    - eapply Hn; [exact A1 | reflexivity | reflexivity].
    - cbn [app] in A1. destruct Htl as [(_ & _ & ->)| ->]; (eapply Hk; [exact A1 | reflexivity]).
    - eapply Hn; [exact A1 | reflexivity | reflexivity].
    - eapply Hn; [exact A1 | reflexivity | reflexivity].
    - eapply Hn; [exact A1 | reflexivity | reflexivity].
    - eapply Hn; [exact A1 | reflexivity | reflexivity].
    - cbn [app] in A1. eapply Hk; [exact A1 | reflexivity].
  Qed.

  (** *** The parts of a document, read exactly *)
  Notation rm := (rmeans F c G).
  Notation mx := (fuel_ex (rmeans F c G)).
  Definition exact_on (d : rdoc) : Prop := forall x, rdenotes F d x -> forall t v, entire t x v <-> mx t d v.
  Definition kids (d : rdoc) : Prop :=
    match d with
    | RList ds | RTup ds => Forall exact_on ds
    | RObj ms => Forall (fun m => exact_on (snd m)) ms
    | RMap es => Forall (fun m => exact_on (fst m) /\ exact_on (snd m)) es
    | _ => True
    end.
  Lemma list_exact t ds xs ws : Forall exact_on ds -> Forall2 (rdenotes F) ds xs -> (Forall2 (entire t) xs ws <-> Forall2 (mx t) ds ws).
  Proof.
    intros He Hx. revert ws. induction Hx as [|d x ds xs Hd Hx IH]; intro ws; [split; intro H; inversion H; constructor|].
    inversion He as [|? ? H1 H2]; subst. split; intro H; inversion H as [|? ? ? ? A B]; subst; (constructor; [apply (H1 x Hd); exact A | apply IH; assumption]).
  Qed.
  Lemma entries_exact tk tv ms es ws : Forall (fun m => exact_on (fst m) /\ exact_on (snd m)) ms -> Forall2 (reden F) ms es ->
    (Forall2 (fun e w => entire tk (fst e) (fst w) /\ entire tv (snd e) (snd w)) es ws <-> Forall2 (fun m w => mx tk (fst m) (fst w) /\ mx tv (snd m) (snd w)) ms ws).
  Proof.
    intros He Hx. revert ws. induction Hx as [|d x ds xs [Hd1 Hd2] Hx IH]; intro ws; [split; intro H; inversion H; constructor|].
    inversion He as [|? ? [H1 H1'] H2]; subst. split; intro H; inversion H as [|? ? ? ? [A1 A2] B]; subst; (constructor; [split; [apply (H1 _ Hd1); exact A1 | apply (H1' _ Hd2); exact A2] | apply IH; assumption]).
  Qed.
  Lemma tuple_exact ts ds xs ws : Forall exact_on ds -> Forall2 (rdenotes F) ds xs -> (tuple_value F c G Ron ts xs ws <-> tuple_means mx ts ds ws).
  Proof.
    intros He Hx. revert ts ws. induction Hx as [|d x ds xs Hd Hx IH]; intros ts ws.
    - split; [intros [E H]; destruct ts; [inversion H; constructor | discriminate] | intro H; inversion H; split; [reflexivity | constructor]].
    - inversion He as [|? ? H1 H2]; subst. split.
      + intros [E H]. destruct ts as [|t ts]; [discriminate|]. cbn [combine] in H. inversion H as [|? v ? vs A B]; subst. cbn [fst snd] in A. constructor; [apply (H1 x Hd); exact A|].
        apply IH; [assumption|]. split; [cbn in E; congruence | exact B].
      + intro H. inversion H as [|t ? v ts' ? vs A B]; subst. apply IH in B; [|assumption]. destruct B as [E B]. split; [cbn; congruence|]. cbn [combine]. constructor; [cbn [fst snd]; apply (H1 x Hd); exact A | exact B].
  Qed.
  Lemma rkeys_same ms es : Forall2 (rmden F) ms es -> map fst es = map fst ms.
  Proof. induction 1 as [|m e ms es [E _] H IH]; cbn; congruence. Qed.
  Lemma rlast_there k d ms es : Forall2 (rmden F) ms es -> last_named k d ms -> exists x, last_member k x es /\ rdenotes F d x.
  Proof.
    intros H (pre & post & -> & Hn). apply Forall2_app_inv_l in H as (e1 & e2 & H1 & H2 & ->). inversion H2 as [|? [k' x] ? post' [E Hd] H3]; subst. cbn in E, Hd. subst k'.
    exists x. split; [|exact Hd]. exists e1, post'. split; [reflexivity|]. rewrite (rkeys_same _ _ H3). exact Hn.
  Qed.
  Lemma rlast_back k x ms es : Forall2 (rmden F) ms es -> last_member k x es -> exists d, last_named k d ms /\ rdenotes F d x.
  Proof.
    intros H (pre & post & -> & Hn). apply Forall2_app_inv_r in H as (e1 & e2 & H1 & H2 & ->). inversion H2 as [|[k' d] ? post' ? [E Hd] H3]; subst. cbn in E, Hd. subst k'.
    exists d. split; [|exact Hd]. exists e1, post'. split; [reflexivity|]. rewrite <- (rkeys_same _ _ H3). exact Hn.
  Qed.
  Lemma rin_there k d ms es : Forall2 (rmden F) ms es -> In (k, d) ms -> exists x, In (k, x) es /\ rdenotes F d x.
  Proof.
    induction 1 as [|m e ms es [E Hd] H IH]; [contradiction|]. intros [Hi|Hi].
    - subst m. destruct e as [k' x]. cbn in E, Hd. subst k'. exists x. split; [left; reflexivity | exact Hd].
    - destruct (IH Hi) as (x & H1 & H2). exists x. split; [right; exact H1 | exact H2].
  Qed.
  Lemma rin_back k x ms es : Forall2 (rmden F) ms es -> In (k, x) es -> exists d, In (k, d) ms /\ rdenotes F d x.
  Proof.
    induction 1 as [|m e ms es [E Hd] H IH]; [contradiction|]. intros [Hi|Hi].
    - subst e. destruct m as [k' d]. cbn in E, Hd. subst k'. exists d. split; [left; reflexivity | exact Hd].
    - destruct (IH Hi) as (d & H1 & H2). exists d. split; [right; exact H1 | exact H2].
  Qed.
  Lemma rfield_exact f d x v : exact_on d -> rdenotes F d x -> (field_entire F c G Ron f x v <-> field_means mx f d v).
  Proof.
    intros He H. unfold field_entire, field_means. destruct (f_isopt f && f_hasproxy f).
    - split; intros (w & E & Q); exists w; (split; [exact E | apply (He x H); exact Q]).
    - apply (He x H).
  Qed.
  Lemma fields_exact dflt fs ms es vs : Forall (fun m => exact_on (snd m)) ms -> Forall2 (rmden F) ms es -> (named_value F c G Ron dflt fs es vs <-> rfields_means mx dflt fs ms vs).
  Proof.
    intros He H. assert (Hx : forall k d, In (k, d) ms -> exact_on d) by (intros k d Hi; rewrite Forall_forall in He; apply (He (k, d) Hi)).
    assert (Hfe : forall k f d x v, In (k, d) ms -> rdenotes F d x -> (field_entire F c G Ron f x v <-> field_means mx f d v)) by (intros k f d x v Hi; apply rfield_exact; eapply Hx; exact Hi).
    unfold named_value, rfields_means. split; intros (H1 & H2 & H3).
    - split; [|split].
      + eapply f2_impl; [|exact H1]. intros f v. unfold field_of, field_from. destruct (f_skip f); [auto|]. rewrite (rkeys_same _ _ H). intros [(x & Hl & Hv)|Hl]; [|right; exact Hl].
        left. destruct (rlast_back _ _ _ _ H Hl) as (d & A & B). exists d. split; [exact A | apply (Hfe _ f d x v (last_named_in _ _ _ A) B); exact Hv].
      + intros k d f Hk Hf Hs Ek. destruct (rin_there _ _ _ _ H Hk) as (x & A & B). destruct (H2 k x f A Hf Hs Ek) as [w Hw]. exists w. apply (Hfe k f d x w Hk B). exact Hw.
      + intros k d Hk. destruct (rin_there _ _ _ _ H Hk) as (x & A & B). exact (H3 k x A).
    - split; [|split].
      + eapply f2_impl; [|exact H1]. intros f v. unfold field_of, field_from. destruct (f_skip f); [auto|]. rewrite (rkeys_same _ _ H). intros [(d & Hl & Hv)|Hl]; [|right; exact Hl].
        left. destruct (rlast_there _ _ _ _ H Hl) as (x & A & B). exists x. split; [exact A | apply (Hfe _ f d x v (last_named_in _ _ _ Hl) B); exact Hv].
      + intros k x f Hk Hf Hs Ek. destruct (rin_back _ _ _ _ H Hk) as (d & A & B). destruct (H2 k d f A Hf Hs Ek) as [w Hw]. exists w. apply (Hfe k f d x w A B). exact Hw.
      + intros k x Hk. destruct (rin_back _ _ _ _ H Hk) as (d & A & B). exact (H3 k d A).
  Qed.
  Lemma named_pay dflt fs p lp : distinct_fields fs -> kids p -> payload p lp ->
    (forall n vs tail b u u', at2 u (lp ++ tail) b -> go_on tail b -> de_named tok_lexer Ron (de n) n dflt fs u = (u', Ok vs) ->
       (exists ms, as_members p ms /\ rfields_means mx dflt fs ms vs) /\ at2 u' tail b) /\
    (forall ms vs, as_members p ms -> rfields_means mx dflt fs ms vs -> exists N, forall n, (N <= n)%nat -> reads2 Ron (de_named tok_lexer Ron (de n) n dflt fs) lp vs).
  Proof.
    intros Hu Hk Hp. destruct p as [| | | | |ds|ms| |]; try contradiction; cbn [kids] in Hk.
    - destruct Hp as (xs & ls & tr & Hls & Hx & ->). split.
      + intros n vs tail b u u' A Hg H. pose proof (named_tup n dflt fs ds xs ls tr tail b u u' vs Hls Hx A Hg H) as ->. inversion Hx; subst. inversion Hls; subst.
        destruct (named_inv F c G Ron dflt fs Hu n [] [] tr vs tail b u u' (Forall2_nil _) A Hg H) as [Hv A']. split; [|exact A'].
        exists []. split; [left; auto|]. apply (fields_exact dflt fs [] [] vs); [constructor | constructor | exact Hv].
      + intros ms vs [[E ->]|E] Hv; [|discriminate]. injection E as ->. inversion Hx; subst. inversion Hls; subst.
        apply (fields_exact dflt fs [] [] vs) in Hv; [|constructor..]. exact (named_fwd F c G Ron dflt fs Hu [] [] tr vs (Forall2_nil _) Hv).
    - destruct Hp as (Hne & es & ls & tr & Hls & Hx & ->). split.
      + intros n vs tail b u u' A Hg H. destruct (named_inv F c G Ron dflt fs Hu n es ls tr vs tail b u u' Hls A Hg H) as [Hv A']. split; [|exact A'].
        exists ms. split; [right; reflexivity|]. apply (fields_exact dflt fs ms es vs Hk Hx). exact Hv.
      + intros ms' vs [[E ->]|E] Hv; [discriminate|]. injection E as <-. apply (fields_exact dflt fs ms es vs Hk Hx) in Hv.
        exact (named_fwd F c G Ron dflt fs Hu es ls tr vs Hls Hv).
  Qed.
  Lemma brk_pay ps ts p lp : Forall2 (good_item F c G Ron) ps ts -> kids p -> payload p lp ->
    (forall n vs tail b u u', at2 u (lp ++ tail) b -> go_on tail b -> de_bracketed tok_lexer Ron (map (fun p => p n) ps) u = (u', Ok vs) ->
       (exists ds, p = RTup ds /\ tuple_means mx ts ds vs) /\ at2 u' tail b) /\
    (forall ds vs, p = RTup ds -> tuple_means mx ts ds vs -> exists N, forall n, (N <= n)%nat -> reads2 Ron (de_bracketed tok_lexer Ron (map (fun p => p n) ps)) lp vs).
  Proof.
    intros Hps Hk Hp. split.
    - intros n vs tail b u u' A Hg H. destruct (brk_payload n ps ts p lp tail b u u' vs Hps Hp A Hg H) as (ds & -> & A'). split; [|exact A']. exists ds. split; [reflexivity|].
      destruct Hp as (xs & ls & tr & Hls & Hx & ->). apply (tuple_exact ts ds xs vs Hk Hx). eapply (brk_inv F c G Ron n ps ts xs ls tr vs tail b u u'); eassumption.
    - intros ds vs -> Hm. destruct Hp as (xs & ls & tr & Hls & Hx & ->). apply (tuple_exact ts ds xs vs Hk Hx) in Hm.
      exact (brk_fwd F c G Ron ps ts xs ls tr vs Hps Hls Hm).
  Qed.
  (** A type read by a bracketed list of items. *)
  Lemma RR_tuple T ps ts (f : list val -> val) d l v : Forall2 (good_item F c G Ron) ps ts ->
    (forall n u, de (S n) T u = pmap f (de_bracketed tok_lexer Ron (map (fun p => p n) ps)) u) -> kids d -> shape d l -> at2 (st0 l false) l false ->
    (RR T l v <-> exists ds ws, d = RTup ds /\ tuple_means mx ts ds ws /\ v = f ws).
  Proof.
    intros Hps Hstep Hk Sh A0. rewrite <- (app_nil_r l) in A0 at 2. split.
    - intros ([|n] & u' & H & _); [discriminate|]. rewrite Hstep in H. apply map_inv_ok in H as (a & H & ->).
      assert (Hp : payload d l) by (pose proof (head_paren d l Sh (ebind_inv _ _ _ _ _ _ H)); destruct d; try contradiction; exact Sh).
      destruct (proj1 (brk_pay ps ts d l Hps Hk Hp) n a [] false _ u' A0 (or_intror eq_refl) H) as [(ds & -> & Hm) _]. exists ds, a. auto.
    - intros (ds & ws & -> & Hm & ->). destruct (proj2 (brk_pay ps ts (RTup ds) l Hps Hk Sh) ds ws eq_refl Hm) as [N HN].
      destruct (HN N (le_n N) [] false _ eq_refl A0) as (u' & E & A). exists (S N), u'. split; [|exact A]. rewrite Hstep. unfold pmap, pbind. rewrite E. reflexivity.
  Qed.
  Lemma RR_unit d l v : kids d -> shape d l -> at2 (st0 l false) l false -> (RR TUnit l v <-> d = RTup [] /\ v = VUnit).
  Proof.
    intros Hk Sh A0. rewrite (RR_tuple TUnit [] [] (fun _ => VUnit) d l v); try assumption; [|constructor|].
    - split; [intros (ds & ws & -> & H & ->); inversion H; auto | intros [-> ->]; exists [], []; repeat split; constructor].
    - intros n u. cbn [de_text map de_list]. unfold de_bracketed, pmap, pbind, k_topen, k_tclose, w_topen, w_tclose. cbn [de_list].
      destruct (expect tok_lexer KParenOpen (chars "(") u) as [u1 [[]|e|q|]]; try reflexivity. unfold pret at 2. destruct (expect tok_lexer KParenClose (chars ")") u1) as [u2 [[]|e|q|]]; reflexivity.
  Qed.
  Lemma items_good fs : Forall2 (good_item F c G Ron) (map (fun t n => de_item tok_lexer Ron (de n) t) fs) fs.
  Proof. induction fs; cbn; constructor; auto using item_good. Qed.
  Lemma RR_dtuple i tr fs d l v : nth_error G i = Some (DTuple tr fs) -> kids d -> shape d l -> at2 (st0 l false) l false ->
    (RR (TNamed i) l v <-> existsb f_hasproxy fs = false /\ fs <> [] /\ exists ds ws, d = RTup ds /\ tuple_means mx (map f_ty fs) ds ws /\ v = VSeq ws).
  Proof.
    intros HG Hk Sh A0. destruct (existsb f_hasproxy fs) eqn:Hp.
    { split; [intros ([|n] & u' & H & _); [discriminate|]; cbn [de_text] in H; rewrite HG, Hp in H; discriminate | intros [Q _]; discriminate]. }
    destruct fs as [|f fs].
    { split; [intros ([|n] & u' & H & _); [discriminate|]; cbn [de_text] in H; rewrite HG in H; discriminate | intros (_ & Q & _); congruence]. }
    rewrite (RR_tuple (TNamed i) _ (map f_ty (f :: fs)) VSeq d l v (items_good (map f_ty (f :: fs)))); try assumption.
    - split; [intro H; split; [reflexivity|]; split; [discriminate | exact H] | intros (_ & _ & H); exact H].
    - intros n u. cbn [de_text]. rewrite HG, Hp. cbn [de_unnamed]. rewrite !map_map. reflexivity.
  Qed.
  Lemma arr_tuple m t ds ws : tuple_means mx (repeat t m) ds ws <-> length ds = m /\ Forall2 (mx t) ds ws.
  Proof.
    revert ds ws. induction m as [|m IH]; intros ds ws; cbn [repeat].
    - split; [intro H; inversion H; split; [reflexivity | constructor] | intros [E H]; destruct ds; [inversion H; constructor | discriminate]].
    - split.
      + intro H. inversion H as [|? d v ? ds' vs A B]; subst. apply IH in B as [<- B]. split; [reflexivity | constructor; assumption].
      + intros [E H]. destruct ds as [|d ds]; [discriminate|]. inversion H as [|? v ? vs A B]; subst. constructor; [exact A|]. apply IH. split; [cbn in E; congruence | exact B].
  Qed.
  Lemma RR_arr m t d l v : kids d -> shape d l -> at2 (st0 l false) l false ->
    (RR (TArr m t) l v <-> exists ds ws, d = RTup ds /\ length ds = m /\ Forall2 (mx t) ds ws /\ v = VSeq ws).
  Proof.
    intros Hk Sh A0. rewrite (RR_tuple (TArr m t) _ (repeat t m) VSeq d l v (items_good (repeat t m))); try assumption.
    - split; [intros (ds & ws & E & H & E2); apply arr_tuple in H as [H1 H2]; exists ds, ws; auto | intros (ds & ws & E & H1 & H2 & E2); exists ds, ws; split; [exact E|]; split; [apply arr_tuple; auto | exact E2]].
    - intros n u. cbn [de_text]. rewrite map_map. f_equal. f_equal. clear. induction m as [|m IH]; [reflexivity|]. cbn [repeat map]. f_equal. exact IH.
  Qed.
  Lemma blocks_good ts : Forall2 (good_item F c G Ron) (map (fun t n => comma_block tok_lexer Ron (de n) t) ts) ts.
  Proof. induction ts; cbn; constructor; auto using block_good. Qed.
  Lemma RR_tup ts d l v : kids d -> shape d l -> at2 (st0 l false) l false ->
    (RR (TTup ts) l v <-> (2 <= length ts <= 4)%nat /\ exists ds ws, d = RTup ds /\ tuple_means mx ts ds ws /\ v = VSeq ws).
  Proof.
    intros Hk Sh A0. destruct (tuple_arity (length ts)) eqn:Ha.
    - rewrite (RR_tuple (TTup ts) _ ts VSeq d l v (blocks_good ts)); try assumption.
      + assert (Q : (2 <= length ts <= 4)%nat) by (unfold tuple_arity in Ha; apply andb_prop in Ha as [A B]; apply Nat.leb_le in A, B; lia). tauto.
      + intros n u. cbn [de_text]. rewrite Ha, map_map. reflexivity.
    - split; [intros ([|n] & u' & H & _); [discriminate|]; cbn [de_text] in H; rewrite Ha in H; discriminate|].
      intros [Q _]. exfalso. unfold tuple_arity in Ha. apply andb_false_iff in Ha as [A|A]; apply Nat.leb_gt in A; lia.
  Qed.
  Lemma RR_struct i dflt cn fs d l v : nth_error G i = Some (DStruct dflt cn fs) -> distinct_fields fs -> kids d -> shape d l -> at2 (st0 l false) l false ->
    (RR (TNamed i) l v <-> exists ms vs, as_members d ms /\ v = VSeq vs /\ rfields_means mx dflt fs ms vs).
  Proof.
    intros HG Hu Hk Sh A0. rewrite <- (app_nil_r l) in A0 at 2. split.
    - intros ([|n] & u' & H & _); [discriminate|]. cbn [de_text] in H. rewrite HG in H. apply map_inv_ok in H as (a & H & ->).
      assert (Hp : payload d l) by (pose proof (head_paren d l Sh (ebind_inv _ _ _ _ _ _ H)); destruct d; try contradiction; exact Sh).
      destruct (proj1 (named_pay dflt fs d l Hu Hk Hp) n a [] false _ u' A0 (or_intror eq_refl) H) as [(ms & H1 & H2) _]. exists ms, a. auto.
    - intros (ms & vs & Hm & -> & Hv). assert (Hp : payload d l) by (destruct Hm as [[-> _]| ->]; exact Sh).
      destruct (proj2 (named_pay dflt fs d l Hu Hk Hp) ms vs Hm Hv) as [N HN]. destruct (HN N (le_n N) [] false _ eq_refl A0) as (u' & E & A).
      exists (S N), u'. split; [|exact A]. cbn [de_text]. rewrite HG. unfold pmap, pbind. rewrite E. reflexivity.
  Qed.

  (** *** Options *)
  Lemma at_none_head d l : shape d l -> (at_none tok_lexer Ron (st0 l false) = true <-> none_headed d).
  Proof.
    intro S. unfold at_none. heads S; try (split; [intro H; discriminate H | intros [E|[q E]]; discriminate]).
    - split; [destruct t; try contradiction; intro H; discriminate H | intros [E|[q E]]; discriminate].
    - stc. cbn [andb]. rewrite str_eqb_eq. split; [intros ->; left; reflexivity | intros [E|[q E]]; [congruence | discriminate]].
    - stc. cbn [andb]. rewrite str_eqb_eq. split; [intros ->; right; eauto | intros [E|[q E]]; [discriminate | congruence]].
  Qed.
  Lemma opt_run (m : @pm tst val) d l v u' : shape d l -> at2 (st0 l false) l false -> de_opt tok_lexer Ron m (st0 l false) = (u', Ok v) -> at2 u' [] false ->
    d = RWord (chars "None") /\ v = VNone \/ ~ none_headed d /\ exists w, v = VSome w /\ m (st0 l false) = (u', Ok w).
  Proof.
    intros Sh A0 H A. pose proof (at_none_head d l Sh) as Hn. unfold de_opt in H. destruct (at_none tok_lexer Ron (st0 l false)) eqn:E.
    - left. destruct (proj1 Hn eq_refl) as [->|[p ->]].
      + split; [reflexivity|]. cbn [RonDoc.shape] in Sh. subst l. unfold pbind in H. stc_in H. injection H as _ <-. reflexivity.
      + exfalso. apply shape_head in Sh. cbn [head_ok] in Sh. destruct Sh as [r ->]. unfold pbind in H. stc_in H. injection H as <- _. destruct A as [[A _] _]. discriminate.
    - right. split; [intro Q; apply Hn in Q; discriminate|]. apply (map_inv_ok VSome) in H as (w & H & ->). exists w. auto.
  Qed.
  Lemma opt_run_back (m : @pm tst val) d l u' w : shape d l -> ~ none_headed d -> m (st0 l false) = (u', Ok w) -> de_opt tok_lexer Ron m (st0 l false) = (u', Ok (VSome w)).
  Proof.
    intros Sh Hn H. pose proof (at_none_head d l Sh) as Q. unfold de_opt. destruct (at_none tok_lexer Ron (st0 l false)); [exfalso; apply Hn, Q; reflexivity|].
    unfold pmap, pbind. rewrite H. reflexivity.
  Qed.
  Lemma RR_opt t d l v : shape d l -> at2 (st0 l false) l false -> (RR (TOpt t) l v <-> d = RWord (chars "None") /\ v = VNone \/ ~ none_headed d /\ exists w, v = VSome w /\ RR t l w).
  Proof.
    intros Sh A0. split.
    - intros ([|n] & u' & H & A); [discriminate|]. cbn [de_text] in H. destruct (opt_run _ d l v u' Sh A0 H A) as [Q|(Q & w & E & Hw)]; [left; exact Q|].
      right. split; [exact Q|]. exists w. split; [exact E|]. exists n, u'. auto.
    - intros [[-> ->]|(Q & w & -> & n & u' & H & A)].
      + cbn [RonDoc.shape] in Sh. subst l. exists 1%nat. done2.
      + exists (S n), u'. split; [|exact A]. cbn [de_text]. eapply opt_run_back; eassumption.
  Qed.
  Lemma RR_box t l v : RR (TBox t) l v <-> RR t l v.
  Proof.
    split; [intros ([|n] & u' & H & A); [discriminate|]; exists n, u'; auto | intros (n & u' & H & A); exists (S n), u'; auto].
  Qed.

  (** *** Enums *)
  Lemma enum_word n i vs w : nth_error G i = Some (DEnum vs) ->
    de (S n) (TNamed i) (st0 [LId w] false) = match find_variant (fun v => str_eqb (variant_key Ron v) w) vs 0 with
      | Some (tg, vr) => de_body tok_lexer Ron (de n) n tg (v_body vr) {| t_toks := []; t_bad := false; t_sb := []; t_ib := w |}
      | None => perr tok_lexer (NoSuchEnum w) {| t_toks := []; t_bad := false; t_sb := []; t_ib := w |}
      end.
  Proof. intro HG. cbn [de_text]. rewrite HG. reflexivity. Qed.
  Lemma enum_var n i vs w r : nth_error G i = Some (DEnum vs) -> let u := {| t_toks := LP KParenOpen :: r; t_bad := false; t_sb := []; t_ib := w |} in
    de (S n) (TNamed i) (st0 (LId w :: LP KParenOpen :: r) false) = match find_variant (fun v => str_eqb (variant_key Ron v) w) vs 0 with
      | Some (tg, vr) => de_body tok_lexer Ron (de n) n tg (v_body vr) u
      | None => perr tok_lexer (NoSuchEnum w) u
      end.
  Proof. intro HG. cbn [de_text]. rewrite HG. reflexivity. Qed.
  Lemma RR_enum i vs d l v : nth_error G i = Some (DEnum vs) -> distinct_ron (DEnum vs) -> (forall w p, d = RVar w p -> kids p) -> shape d l -> at2 (st0 l false) l false ->
    (RR (TNamed i) l v <-> exists tag vr, nth_error vs tag = Some vr /\
        match v_body vr with
        | BUnit => d = RWord (key_of_variant Ron vr) /\ v = VEnum (N.of_nat tag) []
        | BTuple ts => exists ds ws, d = RVar (key_of_variant Ron vr) (RTup ds) /\ tuple_means mx ts ds ws /\ v = VEnum (N.of_nat tag) ws
        | BStruct fs => exists p ms ws, d = RVar (key_of_variant Ron vr) p /\ as_members p ms /\ rfields_means mx false fs ms ws /\ v = VEnum (N.of_nat tag) ws
        end).
  Proof.
    intros HG [Hnd Hdf] Hk Sh A0. assert (Hfs : forall vr fs, In vr vs -> v_body vr = BStruct fs -> distinct_fields fs).
    { intros vr fs Hi Hb. rewrite Forall_forall in Hdf. specialize (Hdf vr Hi). cbv beta in Hdf. rewrite Hb in Hdf. exact Hdf. }
    assert (OV : forall tag vr, nth_error vs tag = Some vr -> find_variant (fun v => str_eqb (variant_key Ron v) (key_of_variant Ron vr)) vs 0 = Some (N.of_nat tag, vr)).
    { intros tag vr Hv. apply (other_variant Ron vs tag vr (key_of_variant Ron vr) Hnd Hv eq_refl); [intros w Hw; apply str_eqb_eq in Hw; exact Hw | apply str_eqb_eq; reflexivity]. }
    assert (Hvar : forall w p, d = RVar w p -> exists r, l = LId w :: LP KParenOpen :: r /\ payload p (LP KParenOpen :: r) /\
              at2 {| t_toks := LP KParenOpen :: r; t_bad := false; t_sb := []; t_ib := w |} ((LP KParenOpen :: r) ++ []) false).
    { intros w p ->. pose proof (shape_head _ _ Sh) as Hh. cbn [head_ok] in Hh. destruct Hh as [r ->]. exists r. split; [reflexivity|].
      cbn [RonDoc.shape] in Sh. destruct Sh as (lp & E & Hp). injection E as <-. split; [exact Hp|]. rewrite app_nil_r. split; [split; [reflexivity | split; [reflexivity | exact I]]|].
      destruct A0 as [_ A0]. cbn [forallb] in A0 |- *. apply andb_prop in A0. apply A0. }
    assert (Ebr : forall n ts, map (de_item tok_lexer Ron (de n)) ts = map (fun p => p n) (map (fun t n => de_item tok_lexer Ron (de n) t) ts)) by (intros; rewrite map_map; reflexivity).
    split.
    - intros ([|n] & u' & H & A); [discriminate|]. pose proof H as H0. cbn [de_text] in H0. rewrite HG in H0. unfold de_enum_ron in H0. apply ebind_inv in H0.
      destruct (head_word d l Sh H0) as [[w ->]|(w & p & ->)]; clear H0.
      + cbn [RonDoc.shape] in Sh. subst l. rewrite (enum_word n i vs w HG) in H. destruct (find_variant _ vs 0) as [[tg vr]|] eqn:E; [|discriminate].
        destruct (find_variant_some _ _ _ _ _ E) as (tag & -> & Hv & Hp). apply str_eqb_eq in Hp. exists tag, vr. split; [exact Hv|].
        destruct (v_body vr) as [|ts|fs]; cbn [de_body] in H.
        * injection H as _ <-. split; [rewrite <- Hp; reflexivity | reflexivity].
        * apply map_inv_ok in H as (a & H & _). apply ebind_inv in H. discriminate H.
        * apply map_inv_ok in H as (a & H & _). apply ebind_inv in H. discriminate H.
      + destruct (Hvar w p eq_refl) as (r & -> & Hp & A1). specialize (Hk w p eq_refl). rewrite (enum_var n i vs w r HG) in H. destruct (find_variant _ vs 0) as [[tg vr]|] eqn:E; [|discriminate].
        destruct (find_variant_some _ _ _ _ _ E) as (tag & -> & Hv & Hp2). apply str_eqb_eq in Hp2. exists tag, vr. split; [exact Hv|].
        destruct (v_body vr) as [|ts|fs] eqn:Eb; cbn [de_body] in H.
        * exfalso. injection H as <- _. destruct A as [[A _] _]. discriminate.
        * apply map_inv_ok in H as (a & H & ->). rewrite Ebr in H.
          destruct (proj1 (brk_pay _ ts p _ (items_good ts) Hk Hp) n a [] false _ u' A1 (or_intror eq_refl) H) as [(ds & -> & Hm) _]. exists ds, a.
          split; [rewrite <- Hp2; reflexivity|]. split; [exact Hm | reflexivity].
        * apply map_inv_ok in H as (a & H & ->).
          destruct (proj1 (named_pay false fs p _ (Hfs vr fs (nth_error_In _ _ Hv) Eb) Hk Hp) n a [] false _ u' A1 (or_intror eq_refl) H) as [(ms & H1 & H2) _]. exists p, ms, a.
          split; [rewrite <- Hp2; reflexivity|]. split; [exact H1|]. split; [exact H2 | reflexivity].
    - intros (tag & vr & Hv & H). destruct (v_body vr) as [|ts|fs] eqn:Eb.
      + destruct H as [-> ->]. cbn [RonDoc.shape] in Sh. subst l. exists 1%nat. unfold rruns. rewrite (enum_word 0 i vs _ HG), (OV tag vr Hv), Eb. cbn [de_body]. done2.
      + destruct H as (ds & ws & -> & Hm & ->). destruct (Hvar _ _ eq_refl) as (r & -> & Hp & A1). specialize (Hk _ _ eq_refl).
        destruct (proj2 (brk_pay _ ts _ _ (items_good ts) Hk Hp) ds ws eq_refl Hm) as [N HN]. destruct (HN N (le_n N) [] false _ eq_refl A1) as (u' & E & A).
        exists (S N), u'. split; [|exact A]. rewrite (enum_var N i vs _ r HG), (OV tag vr Hv), Eb. cbn [de_body]. rewrite Ebr. unfold pmap, pbind. rewrite E. reflexivity.
      + destruct H as (p & ms & ws & -> & Hm & Hw & ->). destruct (Hvar _ _ eq_refl) as (r & -> & Hp & A1). specialize (Hk _ _ eq_refl).
        destruct (proj2 (named_pay false fs _ _ (Hfs vr fs (nth_error_In _ _ Hv) Eb) Hk Hp) ms ws Hm Hw) as [N HN]. destruct (HN N (le_n N) [] false _ eq_refl A1) as (u' & E & A).
        exists (S N), u'. split; [|exact A]. rewrite (enum_var N i vs _ r HG), (OV tag vr Hv), Eb. cbn [de_body]. unfold pmap, pbind. rewrite E. reflexivity.
  Qed.

  (** *** Durations *)
  Notation dacc := (option N * option N)%type.
  Definition rdstep (a : dacc) (m : rdoc * rdoc) (a' : dacc) : Prop :=
    fst m = RStr (chars "secs") /\ fst a = None /\ (exists s v, snd m = RNum s /\ nat_means s v /\ v < 2 ^ 64 /\ a' = (Some v, snd a)) \/
    fst m = RStr (chars "nanos") /\ snd a = None /\ (exists s v, snd m = RNum s /\ nat_means s v /\ v <= u_max U32 /\ a' = (fst a, Some v)).
  Definition rdT (m : rdoc * rdoc) (l : list ltok) : Prop :=
    exists lk lv, shape (fst m) lk /\ shape (snd m) lv /\ vtoks Ron lk /\ vtoks Ron lv /\ l = lk ++ LP KColon :: lv.
  Lemma rstr_read u s tail b : at2 u (LStr s :: tail) b -> delim tail b -> exists u', de_str tok_lexer u = (u', Ok s) /\ at2 u' tail b.
  Proof. intros [Ha Hr] Hd. destruct (str_read s tail b u Hd Ha) as (u' & E & A). exists u'. split; [exact E|]. split; [exact A|]. apply real_cons in Hr. tauto. Qed.
  Lemma rstr_key d l tail bd u u' key : shape d l -> at2 u (l ++ tail) bd -> de_str tok_lexer u = (u', Ok key) -> exists s', d = RStr s'.
  Proof.
    intros S A H. unfold de_str, as_string, pbind in H. heads S; cbn [app] in A; rewrite (at2_tok Ron _ _ _ _ A) in H; try discriminate; eauto.
    destruct t; try contradiction; discriminate.
  Qed.
  Lemma rno_u64 k d l u tail bd u' v : shape d l -> at2 u (l ++ tail) bd -> de_u64 tok_lexer k u = (u', Ok v) -> exists s, d = RNum s.
  Proof. intros S A H. unfold de_u64, u64_range, pbind in H. heads S; cbn [app] in A; rewrite (at2_tok Ron _ _ _ _ A) in H; try discriminate; eauto. Qed.
  Lemma ru64_read k u t tail b u' v : at2 u (LP t :: tail) b -> delim tail b -> (de_u64 tok_lexer k u = (u', Ok v) -> t = KU64 v /\ v <= u_max k /\ at2 u' tail b) /\
    (t = KU64 v -> v <= u_max k -> exists u2, de_u64 tok_lexer k u = (u2, Ok v) /\ at2 u2 tail b).
  Proof.
    intros Ha Hd. pose proof (at2_tok Ron _ _ _ _ Ha) as Et. cbn [ltok_kind] in Et.
    destruct (next_at u (LP t) tail b (proj1 Ha) (delim_go _ _ Hd)) as (u2 & E2 & A2 & _).
    assert (A3 : at2 u2 tail b) by (split; [exact A2 | destruct Ha as [_ Hr]; apply real_cons in Hr; tauto]).
    unfold de_u64, u64_range, pbind. rewrite Et. split.
    - destruct t; try discriminate. destruct (u_max k <? n) eqn:El; [discriminate|]. apply N.ltb_ge in El. cbn [l_next tok_lexer]. rewrite E2.
      intro H. injection H as <- <-. auto.
    - intros -> Hv. apply N.ltb_ge in Hv. rewrite Hv. cbn [l_next tok_lexer]. rewrite E2. exists u2. auto.
  Qed.
  Lemma vtoks_go_on l tail b : vtoks Ron l -> go_on (l ++ tail) b.
  Proof. intro V. left. destruct (vtoks_head _ _ V) as (y & r & -> & _). discriminate. Qed.
  Lemma rditem_inv (n : nat) a m l tail b u u' a' : rdT m l -> delim tail b -> at2 u (l ++ tail) b -> ditem n a u = (u', Ok a') ->
    (rdstep a m a' /\ at2 u' tail b) \/ (forall u2, eat_comma tok_lexer KCurlyClose (chars ", or }") u' <> (u2, Ok tt)).
  Proof.
    intros (lk & lv & Sk & Sv & Vk & Vv & ->) Hd Ha H. left. destruct m as [k d]. cbn [fst snd] in *. rewrite <- app_assoc in Ha. cbn [app] in Ha.
    unfold ditem, pbind at 1 in H. destruct (de_str tok_lexer u) as [u1 [key|e|q|]] eqn:E1; try discriminate.
    destruct (rstr_key k lk _ b u u1 key Sk Ha E1) as [s' ->]. cbn [RonDoc.shape] in Sk. subst lk. cbn [app] in Ha.
    destruct (rstr_read u s' _ b Ha eq_refl) as (u1' & E1' & A1). rewrite E1' in E1. injection E1 as -> ->.
    destruct (expect2 Ron KColon (chars ":") u1 _ _ b A1 eq_refl (vtoks_go_on lv tail b Vv)) as (u2 & E2 & A2). change (p_colon tok_lexer u1 = (u2, Ok tt)) in E2.
    assert (Hnum : forall k u3 v, de_u64 tok_lexer k u2 = (u3, Ok v) -> exists s, d = RNum s /\ nat_means s v /\ v <= u_max k /\ at2 u3 tail b).
    { intros k u3 v E3. destruct (rno_u64 k d lv u2 tail b u3 v Sv A2 E3) as [s ->]. destruct Sv as (_ & t & Hv & ->).
      destruct (proj1 (ru64_read k u2 t tail b u3 v A2 Hd) E3) as (-> & Hm & A3). exists s. split; [reflexivity|]. split; [apply (nat_of_tok F s (KU64 v) v Hv); reflexivity|]. auto. }
    unfold rdstep. cbn [fst snd].
    destruct (str_eqb key (chars "secs")) eqn:Ek.
    - apply str_eqb_eq in Ek. subst key. destruct (fst a) eqn:Ea; [discriminate|]. unfold pbind at 1 in H. rewrite E2 in H. unfold pbind in H.
      destruct (de_u64 tok_lexer U64 u2) as [u3 [v|e|p|]] eqn:E3; try discriminate. injection H as <- <-. destruct (Hnum _ _ _ E3) as (s & -> & Hm & Hb & A3).
      split; [|exact A3]. left. split; [reflexivity|]. split; [reflexivity|]. exists s, v. split; [reflexivity|]. split; [exact Hm|]. split; [cbn in Hb; lia | reflexivity].
    - destruct (str_eqb key (chars "nanos")) eqn:Ek2; [|discriminate]. apply str_eqb_eq in Ek2. subst key. destruct (snd a) eqn:Ea; [discriminate|]. unfold pbind at 1 in H. rewrite E2 in H. unfold pbind in H.
      destruct (de_u64 tok_lexer U32 u2) as [u3 [v|e|p|]] eqn:E3; try discriminate. injection H as <- <-. destruct (Hnum _ _ _ E3) as (s & -> & Hm & Hb & A3).
      split; [|exact A3]. right. split; [reflexivity|]. split; [reflexivity|]. exists s, v. auto.
  Qed.
  Lemma rditem_fwd a m l a' : rdT m l -> rdstep a m a' -> exists N, forall n, (N <= n)%nat -> reads2 Ron (ditem n a) l a'.
  Proof.
    intros (lk & lv & Sk & Sv & Vk & Vv & ->) Hs. exists O. intros n _ tail b u Hd Ha. destruct m as [k d]. unfold rdstep in Hs. cbn [fst snd] in *. rewrite <- app_assoc in Ha. cbn [app] in Ha.
    assert (Hk : exists s', k = RStr s') by (destruct Hs as [(-> & _)|(-> & _)]; eauto). destruct Hk as [s' ->]. cbn [RonDoc.shape] in Sk. subst lk. cbn [app] in Ha.
    destruct (rstr_read u s' _ b Ha eq_refl) as (u1 & E1 & A1).
    destruct (expect2 Ron KColon (chars ":") u1 _ _ b A1 eq_refl (vtoks_go_on lv tail b Vv)) as (u2 & E2 & A2). change (p_colon tok_lexer u1 = (u2, Ok tt)) in E2.
    unfold ditem, pbind at 1. rewrite E1. destruct Hs as [(Ek & Ea & s & v & Es & Hm & Hv & ->)|(Ek & Ea & s & v & Es & Hm & Hv & ->)]; cbn [fst snd] in Ek, Es; apply (f_equal (fun z => match z with RStr q => q | _ => [] end)) in Ek; cbv beta iota in Ek; subst s' d;
      destruct Sv as (_ & t & Hn & ->); apply (nat_of_tok F s t v Hn) in Hm; subst t.
    - replace (str_eqb (chars "secs") (chars "secs")) with true by reflexivity. rewrite Ea. unfold pbind at 1. rewrite E2. unfold pbind.
      destruct (proj2 (ru64_read U64 u2 (KU64 v) tail b u2 v A2 Hd) eq_refl) as (u3 & E3 & A3); [cbn; lia|]. rewrite E3. exists u3. auto.
    - replace (str_eqb (chars "nanos") (chars "secs")) with false by reflexivity. replace (str_eqb (chars "nanos") (chars "nanos")) with true by reflexivity.
      rewrite Ea. unfold pbind at 1. rewrite E2. unfold pbind.
      destruct (proj2 (ru64_read U32 u2 (KU64 v) tail b u2 v A2 Hd) eq_refl Hv) as (u3 & E3 & A3). rewrite E3. exists u3. auto.
  Qed.
  Lemma rdur_close u tail b : at2 u (LP KCurlyClose :: tail) b -> negb (tok_is (l_tok tok_lexer u) KCurlyClose) = false.
  Proof. intro H. rewrite (at2_tok Ron _ _ _ _ H). reflexivity. Qed.
  Lemma rdur_cond (m : rdoc * rdoc) l tail b u : rdT m l -> at2 u (l ++ tail) b -> negb (tok_is (l_tok tok_lexer u) KCurlyClose) = true.
  Proof.
    intros (lk & lv & _ & _ & Vk & _ & ->) H. destruct (vtoks_head _ _ Vk) as (y & r & -> & Hy). cbn [app] in H. rewrite (at2_tok Ron _ _ _ _ H).
    destruct y as [| |[]]; try contradiction; reflexivity.
  Qed.
  Lemma rdT_all ms es ls : Forall2 (reden F) ms es -> Forall2 (etok F Ron) es ls -> Forall2 rdT ms ls.
  Proof.
    intros H. revert ls. induction H as [|m e ms es [H1 H2] H IH]; intros ls Hl; inversion Hl as [|? l ? ls' (lk & lv & Vk & Vv & ->) Hl']; subst; constructor; [|apply IH; exact Hl'].
    exists lk, lv. split; [eapply has_shape; [exact H1 | apply Vk]|]. split; [eapply has_shape; [exact H2 | apply Vv]|]. split; [apply Vk|]. split; [apply Vv | reflexivity].
  Qed.
  Lemma rdchain_inv ms s o : chain rdstep (None, None) ms (Some s, o) -> rdur_entries ms s (match o with Some x => x | None => 0 end) /\ s < 2 ^ 64.
  Proof.
    intro C. inversion C as [|a m1 a1 r1 a2 S1 C1]; subst. destruct m1 as [k1 d1]. unfold rdstep in S1. cbn [fst snd] in S1.
    destruct S1 as [(-> & _ & s1 & v1 & -> & M1 & B1 & ->)|(-> & _ & s1 & v1 & -> & M1 & B1 & ->)].
    - inversion C1 as [|a m2 a3 r2 a4 S2 C2]; subst.
      + split; [|exact B1]. exists s1, []. split; [exact M1|]. left. auto.
      + destruct m2 as [k2 d2]. unfold rdstep in S2. cbn [fst snd] in S2. destruct S2 as [(_ & Q & _)|(-> & _ & s2 & v2 & -> & M2 & B2 & ->)]; [discriminate|].
        inversion C2 as [|a m3 a5 r3 a6 S3 C3]; subst.
        * split; [|exact B1]. exists s1, s2. split; [exact M1|]. right. split; [exact M2|]. left. reflexivity.
        * unfold rdstep in S3. cbn [fst snd] in S3. destruct S3 as [(_ & Q & _)|(_ & Q & _)]; discriminate.
    - inversion C1 as [|a m2 a3 r2 a4 S2 C2]; subst.
      destruct m2 as [k2 d2]. unfold rdstep in S2. cbn [fst snd] in S2. destruct S2 as [(-> & _ & s2 & v2 & -> & M2 & B2 & ->)|(_ & Q & _)]; [|discriminate].
      inversion C2 as [|a m3 a5 r3 a6 S3 C3]; subst.
      + split; [|exact B2]. exists s2, s1. split; [exact M2|]. right. split; [exact M1|]. right. reflexivity.
      + unfold rdstep in S3. cbn [fst snd] in S3. destruct S3 as [(_ & Q & _)|(_ & Q & _)]; discriminate.
  Qed.
  Lemma rdchain_fwd ms s b : rdur_entries ms s b -> s < 2 ^ 64 -> b <= 1000000000 -> exists o, chain rdstep (None, None) ms (Some s, o) /\ b = match o with Some x => x | None => 0 end.
  Proof.
    intros (sa & sb & Ma & H) Hs Hb. destruct H as [[-> ->]|[Mb [-> | ->]]].
    - exists None. split; [|reflexivity]. econstructor; [|constructor]. left. split; [reflexivity|]. split; [reflexivity|]. exists sa, s. auto.
    - exists (Some b). split; [|reflexivity]. econstructor; [|econstructor; [|constructor]].
      + left. split; [reflexivity|]. split; [reflexivity|]. exists sa, s. cbn [snd]. auto.
      + right. split; [reflexivity|]. split; [reflexivity|]. exists sb, b. cbn [snd fst]. split; [reflexivity|]. split; [exact Mb|]. split; [|reflexivity]. change (u_max U32) with 4294967295. lia.
    - exists (Some b). split; [|reflexivity]. econstructor; [|econstructor; [|constructor]].
      + right. split; [reflexivity|]. split; [reflexivity|]. exists sb, b. cbn [snd fst]. split; [reflexivity|]. split; [exact Mb|]. split; [|reflexivity]. change (u_max U32) with 4294967295. lia.
      + left. split; [reflexivity|]. split; [reflexivity|]. exists sa, s. cbn [snd fst]. auto.
  Qed.
  Lemma rdur_inv n d l u' v : shape d l -> at2 (st0 l false) l false -> de_dur tok_lexer n (st0 l false) = (u', Ok v) -> exists s ns, rdur_means d s ns /\ v = VDur s ns.
  Proof.
    intros Sh A0 H. destruct (head_curly d l Sh (ebind_inv _ _ _ _ _ _ H)) as [ms ->]. cbn [RonDoc.shape] in Sh. destruct Sh as (es & ls & tr & Hls & Hx & ->).
    apply bind_first in H as (u1 & E1 & H).
    destruct (expect2 Ron KCurlyOpen (chars "{") _ _ _ false A0 eq_refl (or_intror eq_refl)) as (u1' & E1' & A1). rewrite E1' in E1. injection E1 as <-.
    unfold pbind at 1 in H. destruct (while_ n _ _ _ u1') as [u2 [acc|e|p|]] eqn:E2; try discriminate.
    destruct (loop_inv Ron _ ditem (fun _ => dur_body tok_lexer) KCurlyClose (chars ", or }") dbody curly_closing rdur_close rdT rdstep rdur_cond rditem_inv n n tr ms ls (rdT_all ms es ls Hx Hls) _ _ _ _ [] false A1 E2) as [C A2].
    destruct (expect2 Ron KCurlyClose (chars "}") u2 _ _ false A2 eq_refl (or_intror eq_refl)) as (u3 & E3 & A3).
    unfold pbind at 1 in H. rewrite E3 in H. destruct acc as [[s|] o]; cbn [fst snd] in H; [|discriminate].
    destruct (rdchain_inv ms s o C) as [Hm Hs]. set (b := match o with Some x => x | None => 0 end) in *.
    destruct (1000000000 <? b) eqn:Eb; [discriminate|]. apply N.ltb_ge in Eb. destruct (b <? 1000000000) eqn:Eb2.
    - apply N.ltb_lt in Eb2. injection H as _ <-. exists s, b. split; [|reflexivity]. exists ms, s, b. auto 8.
    - apply N.ltb_ge in Eb2. destruct (s + 1 <? 2 ^ 64) eqn:Es; [|discriminate]. apply N.ltb_lt in Es. injection H as _ <-. exists (s + 1), 0. split; [|reflexivity].
      exists ms, s, b. split; [reflexivity|]. split; [exact Hm|]. split; [exact Hs|]. right. split; [lia|]. auto.
  Qed.
  Lemma rdur_fwd d l s ns : shape d l -> at2 (st0 l false) l false -> rdur_means d s ns -> exists n u', de_dur tok_lexer n (st0 l false) = (u', Ok (VDur s ns)) /\ at2 u' [] false.
  Proof.
    intros Sh A0 (ms & a & b & -> & Hm & Ha & Hb). cbn [RonDoc.shape] in Sh. destruct Sh as (es & ls & tr & Hls & Hx & ->).
    destruct (expect2 Ron KCurlyOpen (chars "{") _ _ _ false A0 eq_refl (or_intror eq_refl)) as (u1 & E1 & A1).
    destruct (rdchain_fwd ms a b Hm Ha ltac:(destruct Hb; lia)) as (o & C & Eo).
    destruct (loop_fwd Ron (fun s => negb (tok_is (l_tok tok_lexer s) KCurlyClose)) ditem (fun _ => dur_body tok_lexer) KCurlyClose (chars ", or }") dbody curly_closing rdur_close rdT rdstep rdur_cond rditem_inv rditem_fwd tr ms ls _ _ C (rdT_all ms es ls Hx Hls)) as [N HN].
    set (n := Nat.max N (S (length ls))).
    destruct (HN n n ltac:(lia) ltac:(lia) [] false u1 A1) as (u2 & E2 & A2).
    destruct (expect2 Ron KCurlyClose (chars "}") u2 _ _ false A2 eq_refl (or_intror eq_refl)) as (u3 & E3 & A3).
    exists n, u3. split; [|exact A3]. unfold de_dur. unfold pbind at 1. rewrite E1. unfold pbind at 1. rewrite E2. unfold pbind at 1. rewrite E3. cbn [fst snd]. rewrite <- Eo.
    destruct Hb as [(Hb & -> & ->)|(-> & -> & Hb & ->)].
    - replace (1000000000 <? b) with false by (symmetry; apply N.ltb_ge; lia). replace (b <? 1000000000) with true by (symmetry; apply N.ltb_lt; lia). reflexivity.
    - replace (1000000000 <? 1000000000) with false by reflexivity. replace (a + 1 <? 2 ^ 64) with true by (symmetry; apply N.ltb_lt; lia). reflexivity.
  Qed.
  Lemma RR_dur d l v : shape d l -> at2 (st0 l false) l false -> (RR TDur l v <-> exists s ns, rdur_means d s ns /\ v = VDur s ns).
  Proof.
    intros Sh A0. split.
    - intros ([|n] & u' & H & _); [discriminate|]. cbn [de_text] in H. eapply rdur_inv; eassumption.
    - intros (s & ns & Hm & ->). destruct (rdur_fwd d l s ns Sh A0 Hm) as (n & u' & H & A). exists (S n), u'. auto.
  Qed.
  Lemma RR_time d l v : shape d l -> at2 (st0 l false) l false ->
    (RR TTime l v <-> d = RWord (chars "None") /\ v = VTime 0 0 \/ exists s ns, rdur_means d s ns /\ s <= time_max c /\ v = VTime (Z.of_N s) ns).
  Proof.
    intros Sh A0. split.
    - intros ([|n] & u' & H & A); [discriminate|]. cbn [de_text] in H. unfold de_time, pbind at 1 in H.
      destruct (de_opt tok_lexer Ron (de_dur tok_lexer n) (st0 l false)) as [u1 [w|e|p|]] eqn:E; try discriminate.
      assert (A1 : at2 u1 [] false).
      { destruct w; try (destruct w); try (destruct (_ <=? _)); try discriminate; injection H as <- _; exact A. }
      destruct (opt_run _ d l w u1 Sh A0 E A1) as [[-> ->]|(Q & x & -> & Hx)].
      + injection H as _ <-. left. auto.
      + destruct (rdur_inv n d l u1 x Sh A0 Hx) as (s & ns & Hm & ->). destruct (s <=? time_max c) eqn:El; [|discriminate]. apply N.leb_le in El. injection H as _ <-. right. exists s, ns. auto.
    - intros [[-> ->]|(s & ns & Hm & Hl & ->)].
      + cbn [RonDoc.shape] in Sh. subst l. exists 1%nat. done2.
      + destruct (rdur_fwd d l s ns Sh A0 Hm) as (n & u' & H & A). exists (S n), u'. split; [|exact A]. cbn [de_text]. unfold de_time, pbind at 1.
        assert (Q : ~ none_headed d) by (destruct Hm as (es & a & b & -> & _); intros [Q|[p Q]]; discriminate).
        rewrite (opt_run_back _ d l u' _ Sh Q H). apply N.leb_le in Hl. rewrite Hl. reflexivity.
  Qed.

  (** *** Everything *)
  Lemma mx_step t d v : mx t d v <-> rmeans1 F c G mx t d v.
  Proof.
    split.
    - intros [[|n] H]; [contradiction|]. cbn [rmeans] in H. eapply rmeans1_impl; [|exact H]. intros t' d' v' Q. exists n. exact Q.
    - intro H. assert (Hle := rmeans_le F c G).
      destruct t as [k0| | | | | |t'|k0 t'|k0 tk tv|n t'|ts|t'| | |p t'|i]; cbn [rmeans1] in H; try (exists 1%nat; exact H).
      + destruct H as [H|(Hd & w & E & k & H)]; [exists 1%nat; left; exact H | exists (S k); right; split; [exact Hd|]; exists w; auto].
      + destruct H as (ds & ws & E & H & E2). apply (fuel_f2 (fun k => rm k t')) in H as [k H]; [|intros j k a b Hjk; apply Hle; exact Hjk]. exists (S k), ds, ws. auto.
      + destruct H as (es & ws & E & H & E2).
        assert (X : Forall2 (fun m w => exists k, rm k tk (fst m) (fst w) /\ rm k tv (snd m) (snd w)) es ws).
        { eapply f2_impl; [|exact H]. intros m w [[k1 K1] [k2 K2]]. exists (Nat.max k1 k2). split; [eapply Hle; [|exact K1]; lia | eapply Hle; [|exact K2]; lia]. }
        apply (fuel_f2 (fun k m w => rm k tk (fst m) (fst w) /\ rm k tv (snd m) (snd w))) in X as [k X]; [exists (S k), es, ws; auto|].
        intros j k a b Hjk [A B]. split; eapply Hle; eassumption.
      + destruct H as (ds & ws & E & El & H & E2). apply (fuel_f2 (fun k => rm k t')) in H as [k H]; [|intros j k a b Hjk; apply Hle; exact Hjk]. exists (S k), ds, ws. auto.
      + destruct H as (Ha & ds & ws & E & H & E2). apply (fuel_tuple (rmeans F c G) Hle) in H as [k H]. exists (S k). split; [exact Ha|]. exists ds, ws. auto.
      + destruct H as [k H]. exists (S k). exact H.
      + destruct (nth_error G i) as [[dflt cn fs|tr fs|vs|p t']|] eqn:EG; try contradiction.
        * destruct H as (ms & vs & E & E2 & H). apply (rfuel_fields (rmeans F c G) Hle) in H as [k H]. exists (S k). cbn [rmeans rmeans1]. rewrite EG. exists ms, vs. auto.
        * destruct H as (Hp & Hn & ds & ws & E & H & E2). apply (fuel_tuple (rmeans F c G) Hle) in H as [k H]. exists (S k). cbn [rmeans rmeans1]. rewrite EG.
          split; [exact Hp|]. split; [exact Hn|]. exists ds, ws. auto.
        * destruct H as (tag & vr & Hv & H). destruct (v_body vr) as [|ts|fs] eqn:Eb.
          -- exists 1%nat. cbn [rmeans rmeans1]. rewrite EG. exists tag, vr. split; [exact Hv|]. rewrite Eb. exact H.
          -- destruct H as (ds & ws & E & H & E2). apply (fuel_tuple (rmeans F c G) Hle) in H as [k H]. exists (S k). cbn [rmeans rmeans1]. rewrite EG. exists tag, vr. split; [exact Hv|]. rewrite Eb. exists ds, ws. auto.
          -- destruct H as (p & ms & ws & E & Hm & H & E2). apply (rfuel_fields (rmeans F c G) Hle) in H as [k H]. exists (S k). cbn [rmeans rmeans1]. rewrite EG. exists tag, vr. split; [exact Hv|]. rewrite Eb. exists p, ms, ws. auto.
  Qed.
  Section Main.
    Hypothesis HGd : Forall distinct_ron G.
    Lemma ron_names i d : nth_error G i = Some d -> distinct_ron d.
    Proof. intro H. rewrite Forall_forall in HGd. apply HGd. eapply nth_error_In. exact H. Qed.
    Lemma RR_means d l : kids d -> (forall w p, d = RVar w p -> kids p) -> shape d l -> at2 (st0 l false) l false -> forall t v, RR t l v <-> mx t d v.
    Proof.
      intros Hk Hkv Sh A0. induction t as [k0| | | | | |t' IHt|k0 t' IHt|k0 tk IHk tv IHv|n t' IHt|ts|t' IHt| | |p t' IHt|i]; intro v; rewrite mx_step; cbn [rmeans1].
      - apply RR_int; exact Sh.
      - apply RR_f32; exact Sh.
      - apply RR_f64; exact Sh.
      - apply RR_bool; exact Sh.
      - apply RR_str; exact Sh.
      - apply RR_unit; assumption.
      - rewrite (RR_opt t' d l v Sh A0). split; (intros [H|(H & w & E & Hw)]; [left; exact H | right; split; [exact H|]; exists w; split; [exact E|]; apply IHt; exact Hw]).
      - split.
        + intro H. destruct (seq_list k0 t' d l v Sh H) as [ds ->]. cbn [RonDoc.shape] in Sh. destruct Sh as (xs & ls & tr & Hls & Hx & ->).
          apply (RR_seq k0 t' xs ls tr v Hls A0) in H as (ws & H & E). exists ds, ws. split; [reflexivity|]. split; [|exact E]. apply (list_exact t' ds xs ws Hk Hx). exact H.
        + intros (ds & ws & -> & H & E). cbn [RonDoc.shape] in Sh. destruct Sh as (xs & ls & tr & Hls & Hx & ->).
          apply (RR_seq k0 t' xs ls tr v Hls A0). exists ws. split; [|exact E]. apply (list_exact t' ds xs ws Hk Hx). exact H.
      - split.
        + intro H. destruct (map_curly k0 tk tv d l v Sh H) as [ms ->]. cbn [RonDoc.shape] in Sh. destruct Sh as (es & ls & tr & Hls & Hx & ->).
          apply (RR_map k0 tk tv es ls tr v Hls A0) in H as (ws & H & E). exists ms, ws. split; [reflexivity|]. split; [|exact E]. apply (entries_exact tk tv ms es ws Hk Hx). exact H.
        + intros (ms & ws & -> & H & E). cbn [RonDoc.shape] in Sh. destruct Sh as (es & ls & tr & Hls & Hx & ->).
          apply (RR_map k0 tk tv es ls tr v Hls A0). exists ws. split; [|exact E]. apply (entries_exact tk tv ms es ws Hk Hx). exact H.
      - apply RR_arr; assumption.
      - apply RR_tup; assumption.
      - rewrite RR_box. apply IHt.
      - apply RR_dur; assumption.
      - apply RR_time; assumption.
      - split; [intros ([|n] & u' & H & _); discriminate | contradiction].
      - destruct (nth_error G i) as [[dflt cn fs|tr fs|vs|p t']|] eqn:EG.
        + apply (RR_struct i dflt cn fs d l v EG (ron_names i _ EG)); assumption.
        + apply (RR_dtuple i tr fs d l v EG); assumption.
        + apply (RR_enum i vs d l v EG (ron_names i _ EG)); assumption.
        + split; [intros ([|n] & u' & H & _); [discriminate|]; cbn [de_text] in H; rewrite EG in H; discriminate | contradiction].
        + split; [intros ([|n] & u' & H & _); [discriminate|]; cbn [de_text] in H; rewrite EG in H; discriminate | contradiction].
    Qed.
    Lemma exact_step d : kids d -> (forall w p, d = RVar w p -> kids p) -> exact_on d.
    Proof.
      intros Hk Hkv x Hx t v. destruct (rdenotes_vtext F d x Hx) as (l & Hv & Sh). rewrite (RR_entire t x l v Hv). apply RR_means; try assumption. eapply vt_at2. exact Hv.
    Qed.
    Theorem ron_exact d : exact_on d.
    Proof.
      cut (exact_on d /\ kids d); [intros [H _]; exact H|]. assert (Q : forall d, kids d -> (forall w p, d = RVar w p -> kids p) -> exact_on d /\ kids d) by (intros; split; [apply exact_step; assumption | assumption]).
      induction d as [| | | |ds IH|ds IH|ms IH|es IH|w p IH] using rdoc_induct; apply Q; try exact I; try (intros; discriminate).
      - eapply Forall_impl; [|exact IH]. intros a [A _]. exact A.
      - eapply Forall_impl; [|exact IH]. intros a [A _]. exact A.
      - eapply Forall_impl; [|exact IH]. intros a [A _]. exact A.
      - eapply Forall_impl; [|exact IH]. intros m [[A _] [B _]]. auto.
      - intros w' p' E. injection E as <- <-. exact (proj2 IH).
    Qed.
  End Main.
End Runs.
