(** How much the readers read: a tokenizer that counts, and bounds for every reader. *)
From Verif Require Import Base Utf8 Types BinModel Text TextModel TextSim TextToks TextPos TextLex.
Local Open Scope N_scope.

(** The tokenizer, with a counter: each call counts one, and one for every character
    it moves over. *)
Definition counting (F : flt) (fm : fmt) : lexer (dst * nat) :=
  {| l_next := fun u => let (s', r) := lex_next F fm (fst u) in
       ((s', snd u + 1 + (length (s_inp (fst u)) - length (s_inp s')))%nat, r);
     l_tok := fun u => l_tok (text_lexer F fm) (fst u);
     l_str := fun u => l_str (text_lexer F fm) (fst u);
     l_id := fun u => l_id (text_lexer F fm) (fst u);
     l_take := fun u => (l_take (text_lexer F fm) (fst u), snd u);
     l_pos := fun u => l_pos (text_lexer F fm) (fst u) |}.

Lemma same_tok a b : tok_is a b = true -> b = KEof -> a = KEof.
Proof. intros H ->. destruct a; try discriminate. reflexivity. Qed.
Section Work.
  Variables (F : flt) (c : cfg) (G : env) (fm : fmt).
  Notation L := (counting F fm).
  Notation st := (dst * nat)%type.

  Definition Z0 (s : dst) : Prop := s_tok s = KEof -> cur (s_inp s) = 0.
  Definition len (s : dst) : nat := length (s_inp s).
  Definition phi (s : dst) : nat := (2 * len s + (if tok_is (s_tok s) KEof then 0 else 1))%nat.

  (** Reading costs at least [d], and at most what the text gives. *)
  Definition tr {A} (P : dst -> Prop) (d e : nat) (m : @pm st A) (Q : A -> dst -> Prop) : Prop := forall s k, Z0 s -> P s ->
    match m (s, k) with
    | ((s', k'), Ok a) => Z0 s' /\ Q a s' /\ (k + d <= k')%nat /\ (k' + phi s' <= k + phi s)%nat
    | (_, NoFuel) => True
    | ((s', k'), _) => (k' + len s' <= k + 2 * phi s + 1 + e)%nat
    end.
  Definition any {A} : A -> dst -> Prop := fun _ _ => True.
  Definition all : dst -> Prop := fun _ => True.
  Definition wk {A} (m : @pm st A) : Prop := tr all 0 0 m any.

  Lemma tr_weak {A} (P P' : dst -> Prop) d d' e e' (m : @pm st A) (Q Q' : A -> dst -> Prop) : tr P d e m Q -> (forall s, P' s -> P s) -> (d' <= d)%nat -> (e <= e')%nat -> (forall a s, Q a s -> Q' a s) -> tr P' d' e' m Q'.
  Proof.
    intros H HP Hd He HQ s k Hz Hp. specialize (H s k Hz (HP s Hp)). destruct (m (s, k)) as [[s' k'] [a|x|p|]]; try lia; auto.
    destruct H as (H1 & H2 & H3 & H4). split; [exact H1|]. split; [auto|]. lia.
  Qed.
  Lemma tr_bind {A B} (P : dst -> Prop) d1 d2 d e1 e2 e (m : @pm st A) (f : A -> @pm st B) (Q : A -> dst -> Prop) (R : B -> dst -> Prop) : tr P d1 e1 m Q -> (forall a, tr (Q a) d2 e2 (f a) R) ->
    (d <= d1 + d2)%nat -> (e1 <= e)%nat -> (e2 <= e + d1)%nat -> tr P d e (pbind m f) R.
  Proof.
    intros Hm Hf H1 H2 H3 s k Hz Hp. unfold pbind. specialize (Hm s k Hz Hp). destruct (m (s, k)) as [[s' k'] [a|x|p|]]; try lia; auto.
    destruct Hm as (A1 & A2 & A3 & A4). specialize (Hf a s' k' A1 A2). destruct (f a (s', k')) as [[s2 k2] [b|x|p|]]; try lia; auto.
    destruct Hf as (B1 & B2 & B3 & B4). split; [exact B1|]. split; [exact B2|]. lia.
  Qed.
  Lemma wk_bind {A B} (m : @pm st A) (f : A -> @pm st B) : wk m -> (forall a, wk (f a)) -> wk (pbind m f).
  Proof. intros H1 H2. apply (tr_bind all 0 0 0 0 0 0 m f any any); auto. Qed.
  Lemma tr_ret {A} (P : dst -> Prop) (a : A) : tr P 0 0 (pret a) (fun b s => b = a /\ P s).
  Proof. intros s k Hz Hp. cbn. split; [exact Hz|]. split; [auto|]. lia. Qed.
  Lemma wk_ret {A} (a : A) : wk (pret a).
  Proof. eapply tr_weak; [apply (tr_ret all a) | auto | auto | auto | unfold any; auto]. Qed.
  Lemma wk_map {A B} (g : A -> B) (m : @pm st A) : wk m -> wk (pmap g m).
  Proof. intro H. apply wk_bind; [exact H | intro; apply wk_ret]. Qed.
  Lemma tr_err {A} (P : dst -> Prop) e m (Q : A -> dst -> Prop) : tr P e 0 (perr L m) Q.
  Proof. intros s k Hz Hp. cbn [perr]. unfold phi. lia. Qed.
  Lemma tr_token {A} (P : dst -> Prop) e w (Q : A -> dst -> Prop) : tr P e 0 (err_token L w) Q.
  Proof. intros s k Hz Hp. unfold err_token. cbn [perr]. unfold phi. lia. Qed.
  Lemma tr_panic {A} (P : dst -> Prop) e p (Q : A -> dst -> Prop) : tr P e 0 (pfail (Panic p)) Q.
  Proof. intros s k Hz Hp. cbn [pfail]. unfold phi. lia. Qed.
  Lemma tr_fuel {A} (P : dst -> Prop) e (Q : A -> dst -> Prop) : tr P e 0 (pfail NoFuel) Q.
  Proof. intros s k Hz Hp. exact I. Qed.

  (** *** One call *)
  Lemma next_any s k : exists s' k' r, l_next L (s, k) = ((s', k'), r) /\ (k' + len s' = k + 1 + len s)%nat.
  Proof.
    cbn [l_next counting fst snd]. destruct (lex_next F fm s) as [s' r] eqn:E. exists s', (k + 1 + (length (s_inp s) - length (s_inp s')))%nat, r. split; [reflexivity|].
    unfold len. unfold lex_next in E. pose proof (scan_suffix F fm (S (length (s_inp s))) (s_tok s) (s_inp s) ltac:(lia)) as H. apply suffix_len in H.
    destruct (scan F fm (S (length (s_inp s))) (s_tok s) (s_inp s)) as [l' [t|k0 m]]; injection E as <- <-; cbn [s_inp fst] in *; lia.
  Qed.
  Lemma tr_next : tr (fun s => s_tok s <> KEof) 1 0 (l_next L) any.
  Proof.
    intros s k Hz Hp. cbn [l_next counting fst snd]. unfold lex_next. cbn [text_lexer l_next].
    pose proof (scan_suffix F fm (S (length (s_inp s))) (s_tok s) (s_inp s) ltac:(lia)) as H. apply suffix_len in H.
    destruct (scan_spec F fm (length (s_inp s)) (s_inp s) (S (length (s_inp s))) (S (length (s_inp s))) (s_tok s) (s_tok s)) as (_ & _ & _ & _ & Hsp); try lia.
    assert (T : tok_is (s_tok s) KEof = false) by (destruct (tok_is (s_tok s) KEof) eqn:E; [apply same_tok in E; [contradiction | reflexivity] | reflexivity]).
    unfold phi, len. rewrite T.
    destruct (scan F fm (S (length (s_inp s))) (s_tok s) (s_inp s)) as [l' [t|k0 m]]; cbn [fst snd s_inp s_tok] in *; [|lia].
    unfold Z0. cbn [s_tok s_inp]. destruct Hsp as [[-> Hl]|[Hne Hl]].
    - cbn [ltok_kind]. split; [auto|]. split; [exact I|]. cbn [tok_is]. lia.
    - assert (K : ltok_kind t <> KEof).
      { intro K. apply Hne. destruct t; cbn in K; try discriminate. subst. reflexivity. }
      split; [intro; contradiction|]. split; [exact I|]. destruct (tok_is (ltok_kind t) KEof); lia.
  Qed.
  Lemma tr_expect j w : j <> KEof -> tr all 1 0 (expect L j w) any.
  Proof.
    intros Hj s k Hz _. unfold expect. destruct (tok_is (l_tok L (s, k)) j) eqn:E; [|apply (tr_token all); [exact Hz | exact I]].
    apply tr_next; [exact Hz|]. cbn [l_tok counting fst text_lexer] in E. intro K. rewrite K in E. destruct j; try discriminate. congruence.
  Qed.
  Lemma wk_expect j w : j <> KEof -> wk (expect L j w).
  Proof. intro H. eapply tr_weak; [apply (tr_expect j w H) | auto | auto | auto | auto]. Qed.
  Lemma wk_colon : wk (p_colon L). Proof. apply wk_expect. discriminate. Qed.
  Lemma wk_eat j w : wk (eat_comma L j w).
  Proof.
    intros s k Hz _. unfold eat_comma. destruct (tok_is (l_tok L (s, k)) KComma) eqn:E.
    - assert (K : s_tok s <> KEof) by (cbn [l_tok counting fst text_lexer] in E; intro K; rewrite K in E; discriminate).
      pose proof (tr_next s k Hz K) as H. destruct (l_next L (s, k)) as [[s' k'] [a|x|p|]]; try lia; auto. destruct H as (H1 & H2 & H3 & H4). split; [exact H1|]. split; [exact I|]. lia.
    - destruct (tok_is (l_tok L (s, k)) j); [|apply (tr_token all); [exact Hz | exact I]]. split; [exact Hz|]. split; [exact I|]. lia.
  Qed.
  Lemma wk_while {A} n (cond : st -> bool) (body : A -> @pm st A) : (forall a, tr (fun s => exists k, cond (s, k) = true) 0 0 (body a) any) -> (forall s k k', cond (s, k) = cond (s, k')) ->
    forall a, wk (while_ n cond body a).
  Proof.
    intros Hb Hc. induction n as [|n IH]; intro a; [apply tr_fuel|]. intros s k Hz _. cbn [while_]. destruct (cond (s, k)) eqn:E; [|apply (wk_ret a); [exact Hz | exact I]].
    apply (tr_bind (fun s => exists k, cond (s, k) = true) 0 0 0 0 0 0 (body a) (while_ n cond body) any any); auto.
    exists k. exact E.
  Qed.
  Lemma tr_all {A} (P : dst -> Prop) (m : @pm st A) : wk m -> tr P 0 0 m any.
  Proof. intro H. eapply tr_weak; [exact H | intros; exact I | auto | auto | auto]. Qed.

  Lemma tr_P {A} (P : dst -> Prop) d e (m : @pm st A) Q : tr all d e m Q -> tr P d e m Q.
  Proof. intro H. eapply tr_weak; [exact H | intros; exact I | auto | auto | auto]. Qed.

  (** *** Scalars *)
  (** A check of the current token, then one call. *)
  Definition check {A} (m : @pm st A) : Prop := forall s k, match m (s, k) with
    | ((s', k'), Ok a) => s_inp s' = s_inp s /\ s_tok s' = s_tok s /\ k' = k /\ s_tok s <> KEof
    | (_, NoFuel) => True
    | ((s', k'), _) => s_inp s' = s_inp s /\ k' = k
    end.
  Lemma wk_check {A B} (m : @pm st A) (g : A -> B) : check m -> wk (pbind m (fun a => pbind (l_next L) (fun _ => pret (g a)))).
  Proof.
    intro H. apply (tr_bind all 0 0 0 0 0 0 m _ (fun _ s => s_tok s <> KEof) any); auto.
    - intros s k Hz _. specialize (H s k). destruct (m (s, k)) as [[s' k'] [a|e|p|]]; auto; unfold phi, len, Z0 in *.
      + destruct H as (H1 & H2 & -> & H3). rewrite H1, H2. repeat split; auto; lia.
      + destruct H as (H1 & ->). rewrite H1. lia.
      + destruct H as (H1 & ->). rewrite H1. lia.
    - intro a. apply (tr_bind (fun s => s_tok s <> KEof) 1 0 0 0 0 0 (l_next L) (fun _ => pret (g a)) any any tr_next); auto; try lia. intro. apply tr_all, wk_ret.
  Qed.
  Lemma check_u64 m : check (u64_range L m).
  Proof.
    intros s k. unfold u64_range, err_token, perr. cbn [l_tok counting fst text_lexer]. destruct (s_tok s) eqn:E; auto.
    destruct (m <? n); auto. repeat split; auto. try rewrite E; discriminate.
  Qed.
  Lemma check_i64 a b : check (i64_range L a b).
  Proof.
    intros s k. unfold i64_range, err_token, perr. cbn [l_tok counting fst text_lexer]. destruct (s_tok s) eqn:E; auto.
    - destruct (_ <? _)%Z; auto. repeat split; auto. try rewrite E; discriminate.
    - destruct (_ <? _)%Z; auto. repeat split; auto. try rewrite E; discriminate.
  Qed.
  Lemma wk_int q : wk (de_int L c q).
  Proof. unfold de_int. destruct q; cbn [ik_signed]; try apply tr_panic; first [apply (wk_check _ (fun v => VZ (cast c _ (Z.of_N v)))), check_u64 | apply (wk_check _ (fun v => VZ (cast c _ v))), check_i64]. Qed.
  Lemma wk_u64 q : wk (de_u64 L q).
  Proof. apply (wk_check _ (fun v => v)), check_u64. Qed.
  Lemma wk_f64 : wk (de_f64 L F).
  Proof.
    apply (wk_check _ (fun b => b)). intros s k. unfold as_f64, err_token, perr. cbn [l_tok counting fst text_lexer]. destruct (s_tok s) eqn:E; auto; repeat split; auto; try rewrite E; discriminate.
  Qed.
  Lemma wk_bool : wk (de_bool L fm).
  Proof.
    apply (wk_check _ VBool). intros s k. unfold as_bool, err_token, perr. cbn [l_tok counting fst text_lexer]. destruct (s_tok s) eqn:E; auto; try (repeat split; auto; try rewrite E; discriminate).
    destruct fm; auto. repeat split; auto. try rewrite E; discriminate.
  Qed.
  Lemma wk_str : wk (de_str L).
  Proof.
    apply (wk_check _ (fun x => x)). intros s k. unfold as_string, err_token, perr. cbn [l_tok counting fst text_lexer]. destruct (tok_is (s_tok s) KStr) eqn:E; auto.
    cbn [l_take counting fst snd]. cbn. repeat split; auto. intro K. rewrite K in E. discriminate.
  Qed.
  Lemma wk_opt m : wk m -> wk (de_opt L fm m).
  Proof.
    intros H s k Hz _. unfold de_opt. destruct (at_none L fm (s, k)) eqn:E; [|apply (wk_map VSome m H); [exact Hz | exact I]].
    apply (tr_bind (fun s => s_tok s <> KEof) 1 0 0 0 0 0 (l_next L) (fun _ => pret VNone) any any tr_next); auto; try lia; [intro; apply tr_all, wk_ret|].
    intro K. unfold at_none in E. cbn [l_tok counting fst text_lexer] in E. rewrite K in E. destruct fm; discriminate.
  Qed.
  Lemma wk_dur n : wk (de_dur L n).
  Proof.
    apply wk_bind; [apply wk_expect; discriminate|]. intros _. apply wk_bind.
    - apply wk_while; [|reflexivity]. intro a. apply tr_all. unfold dur_body. apply wk_bind; [apply wk_str|]. intro key. apply wk_bind; [|intro; apply wk_bind; [apply wk_eat | intro; apply wk_ret]].
      repeat (match goal with |- wk (if ?b then _ else _) => destruct b | |- wk (match ?o with Some _ => _ | None => _ end) => destruct o end);
        first [apply tr_err | apply wk_bind; [apply wk_colon | intro; apply wk_bind; [apply wk_u64 | intro; apply wk_ret]]].
    - intro a. apply wk_bind; [apply wk_expect; discriminate|]. intros _. destruct (fst a); [|apply tr_err]. cbv zeta.
      destruct (_ <? _); [apply tr_err|]. destruct (_ <? _); [apply wk_ret|]. destruct (_ <? _); [apply wk_ret | apply tr_panic].
  Qed.
  Lemma wk_time n : wk (de_time L c fm n).
  Proof.
    apply wk_bind; [apply wk_opt, wk_dur|]. intros v. destruct v; try apply wk_ret. destruct v; try apply wk_ret. destruct (_ <=? _); [apply wk_ret | apply tr_panic].
  Qed.

  (** *** Skipping the value of an unknown member *)
  (** At the end of the text it never comes back. *)
  Lemma whole_end : forall n d s k, d <> 0 -> s_tok s = KEof -> cur (s_inp s) = 0 -> snd (whole_loop L n d (s, k)) = NoFuel.
  Proof.
    induction n as [|n IH]; intros d s k Hd Ht Hc; [reflexivity|]. cbn [whole_loop]. cbn [l_tok counting fst text_lexer]. rewrite Ht. cbv zeta.
    unfold pbind. cbn [l_next counting fst snd]. unfold lex_next. cbn [scan].
    assert (E : drop_while is_ws (s_inp s) = s_inp s).
    { destruct (s_inp s) as [|x r]; [reflexivity|]. cbn [cur] in Hc. subst x. reflexivity. }
    rewrite E, Hc. change (0 =? 0) with true. cbn iota. cbn [ltok_kind]. apply N.eqb_neq in Hd. rewrite Hd. apply N.eqb_neq in Hd. apply IH; [exact Hd | reflexivity | exact Hc].
  Qed.
  Lemma wk_whole_loop : forall n d, d <> 0 -> wk (whole_loop L n d).
  Proof.
    induction n as [|n IH]; intros d Hd; [apply tr_fuel|]. intros s k Hz _.
    destruct (tok_is (s_tok s) KEof) eqn:T.
    { apply same_tok in T; [|reflexivity]. pose proof (whole_end (S n) d s k Hd T (Hz T)) as H. destruct (whole_loop L (S n) d (s, k)) as [[s' k'] r]. cbn [snd] in H. rewrite H. exact I. }
    assert (K : s_tok s <> KEof) by (intro K; rewrite K in T; discriminate).
    cbn [whole_loop]. cbn [l_tok counting fst text_lexer]. cbv zeta.
    set (d2 := match s_tok s with KBlockClose | KCurlyClose => _ | _ => _ end). clearbody d2.
    apply (tr_bind (fun s => s_tok s <> KEof) 1 0 0 0 0 0 (l_next L) (fun _ => if d2 =? 0 then pret tt else whole_loop L n d2) any any tr_next); auto; try lia.
    intro. destruct (d2 =? 0) eqn:E; [apply tr_all, wk_ret | apply tr_all, IH; apply N.eqb_neq; exact E].
  Qed.
  Lemma wk_whole n : wk (whole_field L n).
  Proof.
    intros s k Hz _. unfold whole_field. cbn [l_tok counting fst text_lexer].
    assert (NX : s_tok s <> KEof -> match l_next L (s, k) with | ((s', k'), Ok a) => Z0 s' /\ any a s' /\ (k + 0 <= k')%nat /\ (k' + phi s' <= k + phi s)%nat | (_, NoFuel) => True | ((s', k'), _) => (k' + len s' <= k + 2 * phi s + 1 + 0)%nat end).
    { intro K. pose proof (tr_next s k Hz K) as H. destruct (l_next L (s, k)) as [[s' k'] [a|x|p|]]; try lia; auto. destruct H as (H1 & H2 & H3 & H4). split; [exact H1|]. split; [exact I|]. lia. }
    assert (LP : s_tok s = KBlockOpen \/ s_tok s = KCurlyOpen -> match whole_loop L n 0 (s, k) with | ((s', k'), Ok a) => Z0 s' /\ any a s' /\ (k + 0 <= k')%nat /\ (k' + phi s' <= k + phi s)%nat | (_, NoFuel) => True | ((s', k'), _) => (k' + len s' <= k + 2 * phi s + 1 + 0)%nat end).
    { intro K. assert (K2 : s_tok s <> KEof) by (destruct K as [K|K]; rewrite K; discriminate). destruct n as [|n0]; [exact I|].
      cbn [whole_loop]. cbn [l_tok counting fst text_lexer]. cbv zeta.
      apply (tr_bind (fun s => s_tok s <> KEof) 1 0 0 0 0 0 (l_next L) (fun _ => if (match s_tok s with KBlockClose | KCurlyClose => (match s_tok s with KBlockOpen | KCurlyOpen => 0 + 1 | _ => 0 end) - 1 | _ => match s_tok s with KBlockOpen | KCurlyOpen => 0 + 1 | _ => 0 end end) =? 0 then pret tt else whole_loop L n0 _) any any tr_next); auto; try lia.
      intro. destruct K as [K|K]; rewrite K; cbn [N.eqb]; apply tr_all, wk_whole_loop; discriminate. }
    destruct (s_tok s) eqn:T; try (apply NX; discriminate); try (apply LP; auto; fail); unfold phi; lia.
  Qed.

  (** *** Composed types *)
  Section Composed.
    Variable de : ty -> @pm st val.
    Hypothesis IH : forall t, wk (de t).
    Variable n : nat.
    Lemma wk_seq q t : wk (de_seq L de n q t).
    Proof.
      apply wk_bind; [apply wk_expect; discriminate|]. intros _. apply wk_bind; [|intro; apply wk_bind; [apply wk_expect; discriminate | intro; apply wk_ret]].
      apply wk_while; [|reflexivity]. intro a. apply tr_all. apply wk_bind; [apply IH|]. intro v. apply wk_bind; [apply wk_eat | intro; apply wk_ret].
    Qed.
    Lemma wk_dmap q tk tv : wk (de_map L de n q tk tv).
    Proof.
      apply wk_bind; [apply wk_expect; discriminate|]. intros _. apply wk_bind; [|intro; apply wk_bind; [apply wk_expect; discriminate | intro; apply wk_ret]].
      apply wk_while; [|reflexivity]. intro a. apply tr_all. apply wk_bind; [apply IH|]. intro v. apply wk_bind; [apply wk_colon|]. intros _.
      apply wk_bind; [apply IH|]. intro y. apply wk_bind; [apply wk_eat | intro; apply wk_ret].
    Qed.
    Lemma wk_item t : wk (de_item L fm de t).
    Proof. apply wk_bind; [apply IH|]. intro v. apply wk_bind; [apply wk_eat | intro; apply wk_ret]. Qed.
    (* The comma is looked for even after an error. *)
    Lemma tr_comma_block t : tr all 0 1 (comma_block L fm de t) any.
    Proof.
      intros s k Hz Hp. unfold comma_block. pose proof (IH t s k Hz I) as H. destruct (de t (s, k)) as [[s1 k1] [v|e|p|]]; try lia; auto.
      - destruct H as (H1 & _ & H3 & H4). pose proof (wk_eat (k_tclose fm) (w_tcomma fm) s1 k1 H1 I) as H. unfold eat_tcomma.
        destruct (eat_comma L (k_tclose fm) (w_tcomma fm) (s1, k1)) as [[s2 k2] [x|e|p|]]; try lia; auto.
        destruct H as (A1 & _ & A3 & A4). split; [exact A1|]. split; [exact I|]. lia.
      - unfold eat_tcomma, eat_comma, err_token, perr. destruct (tok_is (l_tok L (s1, k1)) KComma).
        + destruct (next_any s1 k1) as (s2 & k2 & r & -> & E). destruct r; auto; lia.
        + destruct (tok_is (l_tok L (s1, k1)) (k_tclose fm)); lia.
    Qed.
    Lemma tr_list l : Forall (fun m => tr all 0 1 m any) l -> tr all 0 1 (de_list l) any.
    Proof.
      induction 1 as [|m l Hm Hl IHl]; cbn [de_list]; [eapply tr_weak; [apply wk_ret | auto | auto | lia | auto]|].
      apply (tr_bind all 0 0 0 1 1 1 m _ any any); auto. intro v. apply tr_P. apply (tr_bind all 0 0 0 1 1 1 (de_list l) _ any any IHl); auto.
      intro r. eapply tr_weak; [apply wk_ret | intros; exact I | auto | lia | auto].
    Qed.
    Lemma wk_bracketed l : Forall (fun m => tr all 0 1 m any) l -> wk (de_bracketed L fm l).
    Proof.
      intro H. unfold de_bracketed. apply (tr_bind all 1 0 0 0 1 0 (expect L (k_topen fm) (w_topen fm)) _ any any); auto; try lia; [apply tr_expect; destruct fm; discriminate|].
      intro. apply tr_P. apply (tr_bind all 0 0 0 1 1 1 (de_list l) _ any any); auto; [apply tr_list; exact H|]. intro vs.
      eapply tr_weak; [apply (wk_bind (expect L (k_tclose fm) (w_tclose fm)) (fun _ => pret vs)); [apply wk_expect; destruct fm; discriminate | intro; apply wk_ret] | intros; exact I | auto | lia | auto].
    Qed.
    Lemma slack (m : @pm st val) : wk m -> tr all 0 1 m any.
    Proof. intro H. eapply tr_weak; [exact H | auto | auto | lia | auto]. Qed.
    Lemma wk_field f : wk (de_field de f).
    Proof. unfold de_field. destruct (_ && _); [apply wk_map|]; apply IH. Qed.
    Lemma tr_next_colon : tr (fun s => s_tok s <> KEof) 0 0 (p_next_colon L) any.
    Proof. apply (tr_bind (fun s => s_tok s <> KEof) 1 0 0 0 0 0 (l_next L) (fun _ => p_colon L) any any tr_next); auto; try lia. intro. apply tr_P. exact wk_colon. Qed.
    Lemma tr_then {A B} (P : dst -> Prop) (m : @pm st A) (f : A -> @pm st B) : tr P 0 0 m any -> (forall a, wk (f a)) -> tr P 0 0 (pbind m f) any.
    Proof. intros H1 H2. apply (tr_bind P 0 0 0 0 0 0 m f any any); auto. Qed.
    Lemma tr_named_body fs acc : tr (fun s => s_tok s <> KEof) 0 0 (named_body L fm de n fs acc) any.
    Proof.
      unfold named_body. apply tr_then; [|intro; apply wk_bind; [apply wk_eat | intro; apply wk_ret]].
      intros s k Hz Hp. destruct (find_field _ fs 0) as [[i f]|].
      - apply (tr_then (fun s => s_tok s <> KEof) (p_next_colon L)); [exact tr_next_colon | | exact Hz | exact Hp]. intros _. apply wk_bind; [apply wk_field | intro; apply wk_ret].
      - assert (X1 : tr (fun s => s_tok s <> KEof) 0 0 (pbind (p_next_colon L) (fun _ => pbind (whole_field L n) (fun _ => pret acc))) any).
        { apply tr_then; [exact tr_next_colon|]. intros _. apply wk_bind; [apply wk_whole | intro; apply wk_ret]. }
        assert (X2 : tr (fun s => s_tok s <> KEof) 0 0 (perr (A := list (option val)) L (UnexpectedKey (l_id L (s, k)))) any) by apply tr_err.
        destruct fs as [|f fs]; [apply (wk_ret acc); [exact Hz | exact I]|]. destruct fm; [apply X1 | apply X2]; assumption.
    Qed.
    Lemma wk_unwrap dflt fs l : wk (unwrap_fields L dflt fs l).
    Proof.
      revert l. induction fs as [|f fs IHf]; intros [|o l]; cbn [unwrap_fields]; try apply wk_ret. apply wk_bind.
      - unfold unwrap_field. destruct o; [destruct (f_skip f); apply wk_ret|]. destruct (f_default f); [apply wk_ret|]. destruct (_ || _); [apply wk_ret | apply tr_err].
      - intro v. apply wk_bind; [apply IHf | intro; apply wk_ret].
    Qed.
    Lemma wk_named dflt fs : wk (de_named L fm de n dflt fs).
    Proof.
      apply wk_bind; [apply wk_expect; destruct fm; discriminate|]. intros _. apply wk_bind.
      - apply wk_while; [|reflexivity]. intro a. eapply tr_weak; [apply tr_named_body | | auto | auto | auto].
        intros s [k Hk] K. cbn [l_tok counting fst text_lexer] in Hk. rewrite K in Hk. unfold k_key in Hk. destruct fm; discriminate.
      - intro l. apply wk_bind; [apply wk_expect; destruct fm; discriminate | intros _; apply wk_unwrap].
    Qed.
    Lemma wk_body tag b : wk (de_body L fm de n tag b).
    Proof.
      destruct b as [|ts|fs]; cbn [de_body]; [apply wk_ret | |apply wk_map, wk_named].
      apply wk_map, wk_bracketed. apply Forall_forall. intros m Hm. apply in_map_iff in Hm as (t & <- & _). apply slack, wk_item.
    Qed.
    Lemma wk_enum_json vs : wk (de_enum_json L fm de n vs).
    Proof.
      intros s k Hz Hp. unfold de_enum_json. destruct (_ && _).
      { apply (wk_bind (expect L KCurlyOpen (chars "{"))); [apply wk_expect; discriminate | | exact Hz | exact I]. intros _.
        apply wk_bind; [apply wk_expect; discriminate|]. intros _. apply wk_bind; [apply wk_colon|]. intros _ s1 k1 Hz1 _.
        destruct (find_variant _ vs 0) as [[i v]|]; [|apply (tr_err all); [exact Hz1 | exact I]].
        apply (wk_bind (de_body L fm de n i (v_body v))); [apply wk_body | | exact Hz1 | exact I]. intro r. apply wk_bind; [apply wk_expect; discriminate | intro; apply wk_ret]. }
      destruct (_ && _).
      { apply (wk_bind (expect L KStr (chars "String"))); [apply wk_expect; discriminate | | exact Hz | exact I]. intros _ s1 k1 Hz1 _.
        destruct (find_variant _ vs 0) as [[i v]|]; [|apply (tr_err all); [exact Hz1 | exact I]]. apply (wk_ret (VEnum i [])); [exact Hz1 | exact I]. }
      apply (tr_token all); [exact Hz | exact I].
    Qed.
    Lemma wk_enum_ron vs : wk (de_enum_ron L fm de n vs).
    Proof.
      apply wk_bind; [apply wk_expect; discriminate|]. intros _ s1 k1 Hz1 _.
      destruct (find_variant _ vs 0) as [[i v]|]; [apply wk_body; [exact Hz1 | exact I] | apply (tr_err all); [exact Hz1 | exact I]].
    Qed.
    Lemma wk_unnamed tr0 fs : wk (de_unnamed L fm de tr0 fs).
    Proof.
      assert (ALL : wk (de_bracketed L fm (map (fun f => de_item L fm de (f_ty f)) fs))).
      { apply wk_bracketed. apply Forall_forall. intros m Hm. apply in_map_iff in Hm as (f & <- & _). apply slack, wk_item. }
      assert (ONE : forall f, wk (de_bracketed L fm [de (f_ty f)])) by (intro f; apply wk_bracketed; constructor; [apply slack, IH | constructor]).
      assert (NIL : wk (pbind (expect L KCurlyOpen (chars "{")) (fun _ => pbind (expect L KCurlyClose (chars "}")) (fun _ => pret (@nil val))))).
      { apply wk_bind; [apply wk_expect; discriminate|]. intros _. apply wk_bind; [apply wk_expect; discriminate | intro; apply wk_ret]. }
      unfold de_unnamed. destruct fm; [|exact ALL]. destruct fs as [|f [|g fs]]; [exact NIL | | exact ALL].
      destruct tr0; [apply wk_map, IH | apply ONE].
    Qed.
  End Composed.

  Theorem wk_de_text : forall n t, wk (de_text L F c G fm n t).
  Proof.
    induction n as [|n IH]; intro t; cbn [de_text]; [apply tr_fuel|].
    destruct t as [q| | | | | |u|q u|q a b|m u|ts|u| | |p u|i].
    - apply wk_int.
    - apply wk_map, wk_f64.
    - apply wk_map, wk_f64.
    - apply wk_bool.
    - apply wk_map, wk_str.
    - assert (X1 : wk (pbind (expect L KNull (chars "null")) (fun _ => pret VUnit))) by (apply wk_bind; [apply wk_expect; discriminate | intro; apply wk_ret]).
      assert (X2 : wk (pbind (expect L KParenOpen (chars "(")) (fun _ => pbind (expect L KParenClose (chars ")")) (fun _ => pret VUnit)))).
      { apply wk_bind; [apply wk_expect; discriminate|]. intros _. apply wk_bind; [apply wk_expect; discriminate | intro; apply wk_ret]. }
      destruct fm; assumption.
    - apply wk_opt, IH.
    - apply wk_map, wk_seq, IH.
    - apply wk_map, wk_dmap, IH.
    - apply wk_map, wk_bracketed. apply Forall_forall. intros x Hx. apply repeat_spec in Hx as ->. apply slack, wk_item, IH.
    - destruct (tuple_arity (length ts)); [|apply tr_panic]. apply wk_map, wk_bracketed. apply Forall_forall. intros x Hx. apply in_map_iff in Hx as (w & <- & _). apply tr_comma_block, IH.
    - apply IH.
    - apply wk_dur.
    - apply wk_time.
    - assert (X : wk (pmap (p_from p) (de_text L F c G fm n u))) by apply wk_map, IH. destruct fm; [exact X | apply tr_panic].
    - destruct (nth_error G i) as [[dflt nl fs|tr0 fs|vs|p u]|]; [| | | |apply tr_panic].
      + apply wk_map, wk_named, IH.
      + destruct (existsb f_hasproxy fs); [apply tr_panic|].
        assert (X : wk (pmap VSeq (de_unnamed L fm (de_text L F c G fm n) tr0 fs))) by apply wk_map, wk_unnamed, IH.
        destruct fm; [exact X|]. destruct fs; [apply tr_panic | exact X].
      + assert (X1 : wk (de_enum_json L fm (de_text L F c G fm n) n vs)) by apply wk_enum_json, IH.
        assert (X2 : wk (de_enum_ron L fm (de_text L F c G fm n) n vs)) by apply wk_enum_ron, IH.
        destruct fm; assumption.
      + assert (X : wk (pmap (p_from p) (de_text L F c G fm n u))) by apply wk_map, IH. destruct fm; [exact X | apply tr_panic].
  Qed.
End Work.
