(** Where the JSON readers break down, exactly: the readers of the types. *)
From Verif Require Import Base Utf8 Types TyAll BinModel Text TextModel TextSim TextToks TextLex TextRead SpecText SpecGram SpecObj SpecList TextGram TextMain TextFuel TextLocal TextRun TextEmbed TextObj TextList SpecTok TokLex SpecDoc Doc SpecAcc AccBase AccDoc AccDe SpecTerm SpecCrash CrashBase.
Local Open Scope N_scope.

Lemma wc_app ls ls' : with_commas (ls ++ ls') = with_commas ls ++ with_commas ls'.
Proof. induction ls as [|l ls IH]; [reflexivity|]. cbn [app with_commas]. rewrite IH, <- app_assoc. reflexivity. Qed.
(** A value at which reading breaks down begins with a bracket. *)
Definition opens (xs : list lexeme) : Prop := exists r, xs = XP 91 :: r \/ xs = XP 123 :: r.

Section Brackets.
  Variable F : flt.
  Notation L := tok_lexer.
  Notation atx := (atx F Json).
  Notation inv := (inv F Json).
  Notation fwd := (fwd F Json).
  Notation both := (both F Json).
  Notation kd := (kd F Json).
  Notation kh := (kh F Json).
  Notation cinv := (cinv F).
  Notation cfwd := (cfwd F).
  Variables (op cl : N) (kop kcl : tok).
  Hypothesis Hop : forall x, kd x = kop <-> x = XP op.
  Hypothesis Hcl : forall x, kd x = kcl <-> x = XP cl.
  Hypothesis Sop : simple kop.
  Hypothesis Scl : simple kcl.
  Hypothesis Hcc : kcl <> KComma.

  Section Loop.
    Context {A B : Type}.
    Variables (cnd : option lexeme -> bool) (I : A -> rel A) (J : A -> list lexeme -> A -> Prop) (C : A -> list lexeme -> crash -> Prop) (FC : A -> crash -> Prop).
    Hypothesis HI : forall a nx l a', hstr nx = None -> (I a nx l a' <-> J a l a').
    Hypothesis Hst : forall a l a', J a l a' -> exists x r, l = x :: r /\ cnd (Some x) = true.
    Hypothesis HC : forall a l k, C a l k -> exists x r, l = x :: r /\ cnd (Some x) = true.
    Hypothesis Hc0 : cnd (Some (XP cl)) = false.
    Variables (cond : tst -> bool) (a0 : A) (fin : A -> @pm tst B) (w1 w2 w3 : str).
    Hypothesis Hcond : forall u xs b, atx u xs b -> cond u = cnd (head xs).
    Definition c_loop : crel := fun _ xs k =>
      (exists ls a l, run J a0 ls a /\ C a l k /\ xs = XP op :: with_commas ls ++ l) \/
      (exists ls ys a, run J a0 ls a /\ listed ls ys /\ xs = between op cl ys /\ FC a k).
    Notation IR := (item_rel F kcl I).
    Lemma IR_iff a nx xs a' : IR a nx xs a' <-> exists l, J a l a' /\ (xs = l ++ [xcomma] \/ xs = l /\ nx = Some (XP cl)).
    Proof. apply (item_rel_iff F cl kcl Hcl (proj2 Scl) I J HI). Qed.
    Lemma citer_commas a nx xs k : citer cnd IR (fun a _ => C a) a nx xs k <-> exists ls a' l, run J a ls a' /\ C a' l k /\ xs = with_commas ls ++ l.
    Proof.
      split.
      - induction 1 as [a nx xs k Hc H|a nx xs1 xs2 a1 k Hc H1 H2 (ls & a' & l & Hr & Hk & ->)].
        + exists [], a, xs. split; [constructor|]. auto.
        + apply IR_iff in H1 as (l1 & Hj & Hx). destruct Hx as [-> |[-> Hh]].
          * exists (l1 :: ls), a', l. split; [econstructor; eassumption|]. split; [exact Hk|]. cbn [with_commas]. rewrite <- !app_assoc. reflexivity.
          * exfalso. assert (Hd : cnd (hd_of (with_commas ls ++ l) nx) = true).
            { clear -Hr Hk Hst HC. destruct Hr as [a|a l1 a1 ls a2 Hj Hr].
              - destruct (HC _ _ _ Hk) as (x & r & -> & Hx). exact Hx.
              - destruct (Hst _ _ _ Hj) as (x & r & -> & Hx). exact Hx. }
            rewrite Hh in Hd. congruence.
      - intros (ls & a' & l & Hr & Hk & ->). induction Hr as [a|a l1 a1 ls a2 Hj Hr IH].
        + cbn [with_commas app]. destruct (HC _ _ _ Hk) as (x & r & -> & Hx). constructor; [exact Hx | exact Hk].
        + specialize (IH Hk). cbn [with_commas]. replace ((l1 ++ xcomma :: with_commas ls) ++ l) with ((l1 ++ [xcomma]) ++ (with_commas ls ++ l)) by (rewrite <- !app_assoc; reflexivity).
          destruct (Hst _ _ _ Hj) as (x & r & El & Hx). eapply ci_step; [subst l1; exact Hx | apply IR_iff; exists l1; split; [exact Hj | left; reflexivity] | exact IH].
    Qed.
    Lemma citer_nobad a nx : ~ citer cnd IR (fun a _ => C a) a nx [] BadValue.
    Proof.
      intro H. apply citer_commas in H as (ls & a' & l & _ & Hk & E). destruct (HC _ _ _ Hk) as (x & r & -> & _). destruct (with_commas ls); discriminate E.
    Qed.
    Definition body_of (item : A -> @pm tst A) (a : A) : @pm tst A := pbind (item a) (fun a' => pbind (eat_comma L kcl w2) (fun _ => pret a')).
    Lemma loop_ext (body : A -> @pm tst A) item : (forall a u, cond u = true -> body a u = body_of item a u) -> forall k a u, while_ k cond (body_of item) a u = while_ k cond body a u.
    Proof. intro Hb. induction k as [|k IH]; intros a u; [reflexivity|]. cbn [while_]. destruct (cond u) eqn:Ec; [|reflexivity]. apply pbind_ext; [symmetry; exact (Hb _ _ Ec) | exact IH]. Qed.
    Definition r_loop : crel := c_then (r_tok F Json kop) (fun _ nx xs k => citer cnd IR (fun a _ => C a) a0 nx xs k \/ c_then (iter cnd IR a0) (fun a => c_then (r_tok F Json kcl) (fun _ _ xs k => xs = [] /\ FC a k)) nx xs k).
    Lemma r_loop_iff nx xs k : r_loop nx xs k <-> c_loop nx xs k.
    Proof.
      assert (Hl := fun xs a' => iter_listed F cl kcl Hcl (proj2 Scl) cnd I J HI Hst Hc0 a0 xs a'). split.
      - intros (x1 & x2 & [] & -> & H1 & [H2|(x3 & x4 & a & -> & H2 & x5 & x6 & [] & -> & H3 & -> & Hk)]); apply (r_tok_op F op kop Hop) in H1; subst x1.
        + apply citer_commas in H2 as (ls & a & l & Hr & Hk & ->). left. exists ls, a, l. auto.
        + apply (r_tok_cl F cl kcl Hcl) in H3. subst x5. rewrite app_nil_r in *. cbn [hd_of] in H2. apply Hl in H2 as (ls & Hr & Hls). right. exists ls, x3, a. auto.
      - intros [(ls & a & l & Hr & Hk & ->)|(ls & ys & a & Hr & Hls & -> & Hk)].
        + exists [XP op], (with_commas ls ++ l), tt. split; [reflexivity|]. split; [apply (r_tok_op F op kop Hop); reflexivity|]. left. apply citer_commas. exists ls, a, l. auto.
        + exists [XP op], (ys ++ [XP cl]), tt. split; [reflexivity|]. split; [apply (r_tok_op F op kop Hop); reflexivity|]. right. exists ys, [XP cl], a. split; [reflexivity|]. split; [apply Hl; eauto|].
          exists [XP cl], [], tt. split; [reflexivity|]. split; [apply (r_tok_cl F cl kcl Hcl); reflexivity | auto].
    Qed.
    Lemma tok_len k nx xs u : r_tok F Json k nx xs u -> (1 <= length xs)%nat.
    Proof. intros (x & -> & _). cbn. lia. Qed.
    Lemma IR_len a nx xs a' : IR a nx xs a' -> (1 <= length xs)%nat.
    Proof. intro H. apply IR_iff in H as (l & Hj & Hx). destruct (Hst _ _ _ Hj) as (x & r & -> & _). destruct Hx as [-> |[-> _]]; cbn; lia. Qed.
    Lemma inv_body n (item : nat -> A -> @pm tst A) : (forall a, both n (fun j => item j a) (I a)) -> forall a, both n (fun j => body_of (item j) a) (IR a).
    Proof.
      intros Hit a. unfold body_of, item_rel. apply (both_bind F Json n (fun j => item j a) (fun j a' => pbind (eat_comma L kcl w2) (fun _ => pret a'))); [apply Hit|]. intro a'.
      apply (both_bind F Json n (fun _ => eat_comma L kcl w2) (fun _ _ => pret a')); [apply both_comma; assumption|]. intros _. apply both_ret.
    Qed.
    Lemma cinv_loop K n (body : A -> @pm tst A) (item : nat -> A -> @pm tst A) :
      (forall a u, cond u = true -> body a u = body_of (item n) a u) -> (forall a, both n (fun j => item j a) (I a)) ->
      (forall a, (1 <= K)%nat -> cinv (K - 1) (item n a) (fun _ => C a)) -> (forall a k, cinv k (fin a) (fun _ xs k => xs = [] /\ FC a k)) -> (K < n)%nat ->
      cinv K (pbind (expect L kop w1) (fun _ => pbind (while_ n cond body a0) (fun a => pbind (expect L kcl w3) (fun _ => fin a)))) c_loop.
    Proof.
      intros Hb Hit Hci Hfin HK. eapply cinv_weak; [|intros nx xs k H; apply r_loop_iff; exact H].
      apply (cinv_then F K 1); [apply (proj1 (both_expect F Json n kop w1 Sop)) | apply tok_len | apply calm_expect|]. intros _ HK1.
      assert (Hin : cinv (K - 1) (pbind (while_ n cond (body_of (item n)) a0) (fun a => pbind (expect L kcl w3) (fun _ => fin a)))
        (fun nx xs k => citer cnd IR (fun a _ => C a) a0 nx xs k \/ c_then (iter cnd IR a0) (fun a => c_then (r_tok F Json kcl) (fun _ _ xs k => xs = [] /\ FC a k)) nx xs k)).
      { apply (cinv_bind F (K - 1) 0 (while_ n cond (body_of (item n)) a0)); [|intros; lia| |].
        - apply (proj1 (both_while F Json cnd IR cond (fun j => body_of (item j)) Hcond n a0 (inv_body n item Hit))).
        - apply (cinv_while F cnd IR (fun a _ => C a) cond Hcond (body_of (item n))); [intro a; apply (proj1 (inv_body n item Hit a)) | intros a nx xs a'; apply IR_len | | lia].
          intro a. apply cinv_first; [apply Hci; exact HK1|]. intro a'. apply calm_bind; [apply calm_comma | intro; apply calm_ret].
        - intros a _. apply (cinv_then F _ 0); [apply (proj1 (both_expect F Json n kcl w3 Scl)) | intros; lia | apply calm_expect|]. intros _ _. apply Hfin. }
      eapply cinv_ext; [|exact Hin]. intro u. apply f_equal. apply pbind_ext; [apply loop_ext; exact Hb | reflexivity].
    Qed.
    Lemma cfwd_loop (body item : nat -> A -> @pm tst A) :
      (forall j a u, cond u = true -> body j a u = body_of (item j) a u) -> (forall n a, both n (fun j => item j a) (I a)) ->
      (forall a, cfwd (fun j => item j a) (fun _ => C a)) -> (forall a, cfwd (fun _ => fin a) (fun _ xs k => xs = [] /\ FC a k)) -> (forall a, ~ FC a BadValue) ->
      cfwd (fun j => pbind (expect L kop w1) (fun _ => pbind (while_ j cond (body j) a0) (fun a => pbind (expect L kcl w3) (fun _ => fin a)))) c_loop.
    Proof.
      intros Hb Hit Hci Hfin Hbad. apply (cfwd_weak F _ r_loop); [|intros nx xs k H; apply r_loop_iff; exact H].
      apply (cfwd_ext F (fun j => pbind (expect L kop w1) (fun _ => pbind (while_ j cond (body_of (item j)) a0) (fun a => pbind (expect L kcl w3) (fun _ => fin a))))).
      { intros j u. apply f_equal. apply pbind_ext; [reflexivity|]. intros _ u1. apply pbind_ext; [apply loop_ext; apply Hb | reflexivity]. }
      assert (Hcb : forall a nx, ~ c_then (iter cnd IR a0) (fun a => c_then (r_tok F Json kcl) (fun _ _ xs k => xs = [] /\ FC a k)) nx [] BadValue /\ ~ c_then (r_tok F Json kcl) (fun _ _ xs k => xs = [] /\ FC a k) nx [] BadValue).
      { intros a nx. split.
        - intros (x1 & x2 & a1 & _ & _ & x3 & x4 & [] & _ & _ & _ & H). exact (Hbad _ H).
        - intros (x3 & x4 & [] & _ & _ & _ & H). exact (Hbad _ H). }
      apply (cfwd_then F (fun _ => expect L kop w1) (fun j _ => pbind (while_ j cond (body_of (item j)) a0) (fun a => pbind (expect L kcl w3) (fun _ => fin a)))).
      - apply (proj2 (both_expect F Json O kop w1 Sop)).
      - intros _ nx xs k [H|H].
        + revert nx xs k H. apply (cfwd_first F (fun j => while_ j cond (body_of (item j)) a0) (fun j a => pbind (expect L kcl w3) (fun _ => fin a))).
          apply (cfwd_while F cnd IR (fun a _ => C a) cond Hcond (fun j => body_of (item j))).
          * intro a. apply (proj2 (inv_body O item (Hit O) a)).
          * intro a. apply (cfwd_first F (fun j => item j a) (fun j a' => pbind (eat_comma L kcl w2) (fun _ => pret a'))). apply Hci.
          * intros a nx H. destruct (HC _ _ _ H) as (x & r & Q & _). discriminate.
        + revert nx xs k H. apply (cfwd_then F (fun j => while_ j cond (body_of (item j)) a0) (fun j a => pbind (expect L kcl w3) (fun _ => fin a))).
          * apply (proj2 (both_while F Json cnd IR cond (fun j => body_of (item j)) Hcond O a0 (inv_body O item (Hit O)))).
          * intro a. apply (cfwd_then F (fun _ => expect L kcl w3) (fun _ _ => fin a)); [apply (proj2 (both_expect F Json O kcl w3 Scl)) | intros _; apply Hfin|].
            intros _ nx [_ H]. exact (Hbad _ H).
          * intros a nx. apply Hcb.
      - intros _ nx [H|H]; [exact (citer_nobad _ _ H) | exact (proj1 (Hcb a0 nx) H)].
    Qed.
  End Loop.

  (** A fixed number of items. *)
  Section Fixed.
    Context {T : Type}.
    Variables (J : T -> list lexeme -> val -> Prop) (C : T -> list lexeme -> crash -> Prop).
    Hypothesis Hst : forall t l v, J t l v -> exists x r, l = x :: r /\ x <> XP cl.
    Hypothesis HC : forall t l k, C t l k -> exists x r, l = x :: r /\ x <> XP cl.
    Definition c_fixed (ts : list T) : crel := fun _ xs k => exists ts1 t ts2 ls l vs, ts = ts1 ++ t :: ts2 /\ each_item J ts1 ls vs /\ C t l k /\ xs = XP op :: with_commas ls ++ l.
    Inductive call (* in one of the items *) : list T -> crel :=
    | ca_here t ts nx xs k : C t xs k -> call (t :: ts) nx xs k
    | ca_next t ts nx xs1 xs2 v k : one_rel cl J t (hd_of xs2 nx) xs1 v -> call ts nx xs2 k -> call (t :: ts) nx (xs1 ++ xs2) k.
    Lemma call_iff ts nx xs k : call ts nx xs k <-> exists ts1 t ts2 ls l vs, ts = ts1 ++ t :: ts2 /\ each_item J ts1 ls vs /\ C t l k /\ xs = with_commas ls ++ l.
    Proof.
      split.
      - induction 1 as [t ts nx xs k H|t ts nx xs1 xs2 v k H1 H2 (ts1 & t' & ts2 & ls & l & vs & -> & He & Hk & ->)].
        + exists [], t, ts, [], xs, []. split; [reflexivity|]. split; [constructor|]. auto.
        + destruct H1 as (l1 & Hj & Hx). destruct Hx as [-> |[-> Hh]].
          * exists (t :: ts1), t', ts2, (l1 :: ls), l, (v :: vs). split; [reflexivity|]. split; [constructor; assumption|]. split; [exact Hk|]. cbn [with_commas]. rewrite <- !app_assoc. reflexivity.
          * exfalso. destruct He as [|t3 l3 v3 ts3 ls3 vs3 Hj3 He3].
            -- destruct (HC _ _ _ Hk) as (x & r & -> & Hne). cbn in Hh. congruence.
            -- destruct (Hst _ _ _ Hj3) as (x & r & -> & Hne). cbn in Hh. congruence.
      - intros (ts1 & t & ts2 & ls & l & vs & -> & He & Hk & ->). induction He as [|t1 l1 v1 ts1 ls vs Hj He IH].
        + cbn [app with_commas]. constructor. exact Hk.
        + cbn [app with_commas]. replace ((l1 ++ xcomma :: with_commas ls) ++ l) with ((l1 ++ [xcomma]) ++ (with_commas ls ++ l)) by (rewrite <- !app_assoc; reflexivity).
          eapply ca_next; [exists l1; split; [exact Hj | left; reflexivity] | exact IH].
    Qed.
    Lemma call_nobad ts nx : ~ call ts nx [] BadValue.
    Proof. intro H. apply call_iff in H as (ts1 & t & ts2 & ls & l & vs & _ & _ & Hk & E). destruct (HC _ _ _ Hk) as (x & r & -> & _). destruct (with_commas ls); discriminate E. Qed.
    Lemma cinv_all K n (p : nat -> T -> @pm tst val) ts : (forall t, In t ts -> both n (fun j => p j t) (one_rel cl J t)) -> (forall t, In t ts -> cinv K (p n t) (fun _ => C t)) ->
      cinv K (de_list (map (p n) ts)) (call ts).
    Proof.
      induction ts as [|t ts IH]; intros Hp Hc; [apply cinv_calm, calm_ret|]. cbn [map de_list].
      eapply cinv_weak; [apply (cinv_bind F K 0 (p n t) (fun v => pbind (de_list (map (p n) ts)) (fun r => pret (v :: r))) (fun _ => C t) (one_rel cl J t) (fun _ => call ts))|].
      - apply (proj1 (Hp t (or_introl eq_refl))).
      - intros; lia.
      - apply Hc. left. reflexivity.
      - intros v _. rewrite Nat.sub_0_r. apply cinv_first; [|intro; apply calm_ret]. apply IH; intros t' Ht'; [apply Hp | apply Hc]; right; exact Ht'.
      - intros nx xs k [H|(x1 & x2 & v & -> & H1 & H2)]; [constructor; exact H | econstructor; eassumption].
    Qed.
    Lemma cfwd_all (p : nat -> T -> @pm tst val) ts : (forall t, In t ts -> both O (fun j => p j t) (one_rel cl J t)) -> (forall t, In t ts -> cfwd (fun j => p j t) (fun _ => C t)) ->
      cfwd (fun j => de_list (map (p j) ts)) (call ts).
    Proof.
      induction ts as [|t ts IH]; intros Hp Hc; [intros nx xs k H; inversion H|]. cbn [map de_list]. intros nx xs k H. inversion H as [t' ts' nx' xs' k' H1|t' ts' nx' xs1 xs2 v k' H1 H2]; subst.
      - revert nx xs k H1 H. intros nx xs k H1 _. revert nx xs k H1. apply (cfwd_first F (fun j => p j t) (fun j v => pbind (de_list (map (p j) ts)) (fun r => pret (v :: r)))). apply Hc. left. reflexivity.
      - assert (H3 : c_then (one_rel cl J t) (fun _ => call ts) nx (xs1 ++ xs2) k) by (exists xs1, xs2, v; auto). clear H H1 H2. revert H3. generalize (xs1 ++ xs2). intros xs. revert nx xs k.
        apply (cfwd_then F (fun j => p j t) (fun j v => pbind (de_list (map (p j) ts)) (fun r => pret (v :: r)))).
        + apply (proj2 (Hp t (or_introl eq_refl))).
        + intro v'. apply (cfwd_first F (fun j => de_list (map (p j) ts)) (fun j r => pret (v' :: r))). apply IH; intros t' Ht'; [apply Hp | apply Hc]; right; exact Ht'.
        + intros _ nx. apply call_nobad.
    Qed.
    Lemma fixed_crash ts nx xs k : c_then (r_tok F Json kop) (fun _ => call ts) nx xs k <-> c_fixed ts nx xs k.
    Proof.
      split.
      - intros (x1 & x2 & [] & -> & H1 & H2). apply (r_tok_op F op kop Hop) in H1. subst x1. apply call_iff in H2 as (ts1 & t & ts2 & ls & l & vs & -> & He & Hk & ->). exists ts1, t, ts2, ls, l, vs. auto.
      - intros (ts1 & t & ts2 & ls & l & vs & -> & He & Hk & ->). exists [XP op], (with_commas ls ++ l), tt. split; [reflexivity|]. split; [apply (r_tok_op F op kop Hop); reflexivity|].
        apply call_iff. exists ts1, t, ts2, ls, l, vs. auto.
    Qed.
    Lemma cinv_fixed K n (p : nat -> T -> @pm tst val) ts w1 w2 : (forall t, In t ts -> both n (fun j => p j t) (one_rel cl J t)) -> (forall t, In t ts -> (1 <= K)%nat -> cinv (K - 1) (p n t) (fun _ => C t)) ->
      cinv K (pbind (expect L kop w1) (fun _ => pbind (de_list (map (p n) ts)) (fun vs => pbind (expect L kcl w2) (fun _ => pret vs)))) (c_fixed ts).
    Proof.
      intros Hp Hc. eapply cinv_weak; [|intros nx xs k H; apply fixed_crash; exact H].
      apply (cinv_then F K 1); [apply (proj1 (both_expect F Json n kop w1 Sop)) | intros nx xs u (x & -> & _); cbn; lia | apply calm_expect|]. intros _ HK.
      apply cinv_first; [apply cinv_all; [exact Hp | intros t Ht; apply Hc; assumption]|]. intro vs. apply calm_bind; [apply calm_expect | intro; apply calm_ret].
    Qed.
    Lemma cfwd_fixed (p : nat -> T -> @pm tst val) ts w1 w2 : (forall t, In t ts -> both O (fun j => p j t) (one_rel cl J t)) -> (forall t, In t ts -> cfwd (fun j => p j t) (fun _ => C t)) ->
      cfwd (fun j => pbind (expect L kop w1) (fun _ => pbind (de_list (map (p j) ts)) (fun vs => pbind (expect L kcl w2) (fun _ => pret vs)))) (c_fixed ts).
    Proof.
      intros Hp Hc. apply (cfwd_weak F _ (c_then (r_tok F Json kop) (fun _ => call ts))); [|intros nx xs k H; apply fixed_crash; exact H].
      apply (cfwd_then F (fun _ => expect L kop w1) (fun j _ => pbind (de_list (map (p j) ts)) (fun vs => pbind (expect L kcl w2) (fun _ => pret vs)))).
      - apply (proj2 (both_expect F Json O kop w1 Sop)).
      - intros _. apply (cfwd_first F (fun j => de_list (map (p j) ts)) (fun j vs => pbind (expect L kcl w2) (fun _ => pret vs))). apply cfwd_all; assumption.
      - intros _ nx. apply call_nobad.
    Qed.
  End Fixed.
End Brackets.
