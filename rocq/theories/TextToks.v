(** The token stream of a text, and reading from a list of tokens. *)
From Verif Require Import Base Utf8 Types BinModel Text TextModel TextSim.
Local Open Scope N_scope.

Definition suffix (l' l : str) : Prop := exists p, l = p ++ l'.

Lemma suffix_refl l : suffix l l.
Proof. exists []. reflexivity. Qed.
Lemma suffix_trans a b c : suffix a b -> suffix b c -> suffix a c.
Proof. intros [p ->] [q ->]. exists (q ++ p). rewrite app_assoc. reflexivity. Qed.
Lemma suffix_tl l : suffix (tl l) l.
Proof. destruct l as [|x l]; [apply suffix_refl | exists [x]; reflexivity]. Qed.
Lemma suffix_cons x l : suffix l (x :: l).
Proof. exists [x]. reflexivity. Qed.
Lemma suffix_tl_of a b : suffix a b -> suffix (tl a) b.
Proof. intro H. eapply suffix_trans; [apply suffix_tl | exact H]. Qed.
Lemma suffix_len a b : suffix a b -> (length a <= length b)%nat.
Proof. intros [p ->]. rewrite app_length. lia. Qed.
Lemma suffix_drop p l : suffix (drop_while p l) l.
Proof.
  induction l as [|x l IH]; simpl; [apply suffix_refl|].
  destruct (p x); [eapply suffix_trans; [exact IH | apply suffix_cons] | apply suffix_refl].
Qed.
Lemma suffix_drop_of p a b : suffix a b -> suffix (drop_while p a) b.
Proof. intro H. eapply suffix_trans; [apply suffix_drop | exact H]. Qed.

Lemma take_drop p l : take_while p l ++ drop_while p l = l.
Proof. induction l as [|x l IH]; simpl; [reflexivity|]. destruct (p x); simpl; congruence. Qed.

Lemma suffix_json_comment last l r : json_comment last l = Some r -> suffix r l.
Proof.
  revert last; induction l as [|x l IH]; simpl; intros last H; [discriminate|].
  destruct (x =? 0); [discriminate|]. destruct (_ && _).
  - inversion H; subst. apply suffix_cons.
  - eapply suffix_trans; [eapply IH; eassumption | apply suffix_cons].
Qed.
Lemma suffix_ron_comment st l : suffix (ron_comment st l) l.
Proof.
  revert st; induction l as [|x l IH]; simpl; intros st; [apply suffix_refl|].
  destruct (x =? 0); [apply suffix_refl|]. destruct (_ && _); [apply suffix_cons|].
  eapply suffix_trans; [apply IH | apply suffix_cons].
Qed.

Lemma scan_num_split l : forall b l' f, scan_num l = (b, l', f) -> l = b ++ l'.
Proof.
  intros b l' f. unfold scan_num.
  set (x := if _ || _ then ([cur l], tl l) else ([], l)).
  assert (Hx : l = fst x ++ snd x).
  { subst x. destruct ((cur l =? c_minus) || (cur l =? c_plus)) eqn:E; [|reflexivity].
    destruct l; [discriminate E | reflexivity]. }
  destruct x as [b0 l0]; cbn [fst snd] in Hx.
  set (l1 := drop_while is_digit l0). pose proof (take_drop is_digit l0) as H0. fold l1 in H0.
  set (y := if cur l1 =? c_dot then _ else _).
  assert (Hy : l1 = fst (fst y) ++ snd (fst y)).
  { subst y. destruct (cur l1 =? c_dot) eqn:E; [|reflexivity].
    destruct l1 as [|z l1]; [discriminate E|]. cbn [cur] in E. apply N.eqb_eq in E. subst z. cbn [fst snd tl app].
    rewrite take_drop. reflexivity. }
  destruct y as [[b2 l2] f2]; cbn [fst snd] in Hy.
  set (z := if (cur l2 =? 101) || (cur l2 =? 69) then _ else _).
  assert (Hz : l2 = fst (fst z) ++ snd (fst z)).
  { subst z. destruct ((cur l2 =? 101) || (cur l2 =? 69)) eqn:E; [|reflexivity].
    destruct l2 as [|w l2]; [discriminate E|]. cbn [cur tl].
    destruct (cur l2 =? c_minus) eqn:E2; cbn [fst snd app].
    - destruct l2 as [|v l2]; [discriminate E2|]. cbn [cur] in E2. apply N.eqb_eq in E2. subst v. cbn [tl].
      rewrite take_drop. reflexivity.
    - rewrite take_drop. reflexivity. }
  destruct z as [[b3 l3] f3]; cbn [fst snd] in Hz.
  intro H. inversion H; subst b l' f. transitivity (b0 ++ l0); [exact Hx|]. rewrite <- !app_assoc. f_equal.
  transitivity (take_while is_digit l0 ++ l1); [symmetry; exact H0|]. rewrite Hy, Hz. reflexivity.
Qed.

Lemma suffix_xdigits k acc l : suffix (fst (xdigits k acc l)) l.
Proof.
  revert acc l; induction k as [|k IH]; intros acc l; simpl; [apply suffix_refl|].
  destruct (hexval (cur l)); [|apply suffix_refl]. eapply suffix_trans; [apply IH | apply suffix_tl].
Qed.
Lemma suffix_hex l : suffix (fst (hex_unescape l)) l.
Proof.
  unfold hex_unescape. pose proof (suffix_xdigits 4 0 l) as H.
  destruct (xdigits 4 0 l) as [l1 [a|]]; [|assumption]. cbn [fst] in H.
  destruct (_ || _); [assumption|]. destruct (_ && _); [|assumption].
  destruct (cur (tl l1) =? 117); [|apply suffix_tl_of; assumption].
  pose proof (suffix_xdigits 4 0 (tl (tl l1))) as H2.
  assert (H3 : suffix (tl (tl l1)) l) by (apply suffix_tl_of, suffix_tl_of; assumption).
  destruct (xdigits 4 0 (tl (tl l1))) as [l3 [b|]]; cbn [fst] in H2;
    [destruct (_ && _)|]; (eapply suffix_trans; [exact H2 | exact H3]).
Qed.
Lemma suffix_scan_str n l : suffix (fst (scan_str n l)) l.
Proof.
  revert l; induction n as [|n IH]; intros l; simpl; [apply suffix_refl|].
  destruct l as [|x r]; [apply suffix_refl|].
  destruct (x =? c_quote); [apply suffix_cons|].
  destruct (x =? c_bslash).
  - destruct (cur r =? 0); [apply suffix_cons|].
    destruct (cur r =? 117).
    + pose proof (suffix_hex (tl r)) as H. destruct (hex_unescape (tl r)) as [l2 [ch|]]; cbn [fst] in H.
      * assert (H2 : suffix l2 (x :: r)).
        { eapply suffix_trans; [exact H|]. eapply suffix_trans; [apply suffix_tl | apply suffix_cons]. }
        specialize (IH l2). destruct (scan_str n l2) as [l3 [s|]]; eapply suffix_trans; try exact IH; assumption.
      * eapply suffix_trans; [exact H|]. eapply suffix_trans; [apply suffix_tl | apply suffix_cons].
    + specialize (IH (tl r)).
      assert (H2 : suffix (tl r) (x :: r)) by (eapply suffix_trans; [apply suffix_tl | apply suffix_cons]).
      destruct (scan_str n (tl r)) as [l3 [s|]]; eapply suffix_trans; try exact IH; assumption.
  - destruct (x =? 0); [apply suffix_refl|].
    specialize (IH r). destruct (scan_str n r) as [l3 [s|]]; (eapply suffix_trans; [exact IH | apply suffix_cons]).
Qed.

Section Lex.
  Variable F : flt.
  Variable fm : fmt.

  (** Tokens agree although the token held before differs. *)
  Definition same_out (a b : lexout) : Prop :=
    match a, b with
    | LTok t, LTok u => t = u
    | LErr _ _, LErr _ _ => True
    | _, _ => False
    end.

  Lemma id_tok_same id k k' : same_out (id_tok fm id k) (id_tok fm id k').
  Proof.
    unfold id_tok. destruct (str_eqb _ _); simpl; auto. destruct (str_eqb _ _); simpl; auto.
    destruct fm; simpl; auto. destruct (str_eqb _ _); simpl; auto.
  Qed.
  Lemma id_tok_not_eof id k t : id_tok fm id k = LTok t -> t <> LP KEof.
  Proof.
    unfold id_tok. destruct (str_eqb _ _); [intro H; inversion H; subst; discriminate|].
    destruct (str_eqb _ _); [intro H; inversion H; subst; discriminate|].
    destruct fm; [|intro H; inversion H; subst; discriminate].
    destruct (str_eqb _ _); intro H; inversion H; subst; discriminate.
  Qed.

  Lemma cur_nz_tl l : cur l <> 0 -> l = cur l :: tl l.
  Proof. destruct l; simpl; [congruence | reflexivity]. Qed.

  (** Enough fuel: the result does not depend on it, the rest is a suffix, a
      token other than end of text consumes something, end of text is stable. *)
  Lemma scan_spec : forall N l n m k k', (length l <= N)%nat -> (N < n)%nat -> (N < m)%nat ->
    fst (scan F fm n k l) = fst (scan F fm m k' l) /\
    same_out (snd (scan F fm n k l)) (snd (scan F fm m k' l)) /\
    (k = k' -> scan F fm n k l = scan F fm m k' l) /\
    suffix (fst (scan F fm n k l)) l /\
    match snd (scan F fm n k l) with
    | LTok t => (t = LP KEof /\ cur (fst (scan F fm n k l)) = 0) \/
                (t <> LP KEof /\ (length (fst (scan F fm n k l)) < length l)%nat)
    | LErr _ _ => True
    end.
  Proof.
    induction N as [N IH] using (well_founded_induction lt_wf). intros l n m k k' Hl Hn Hm.
    destruct n as [|n]; [lia|]. destruct m as [|m]; [lia|]. cbn [scan].
    set (l0 := drop_while is_ws l).
    pose proof (suffix_drop is_ws l) as Hs. fold l0 in Hs. pose proof (suffix_len _ _ Hs) as Hlen.
    destruct (cur l0 =? 0) eqn:E0.
    { apply N.eqb_eq in E0. cbn [fst snd same_out]. repeat split; auto. }
    apply N.eqb_neq in E0. pose proof (cur_nz_tl _ E0) as El0.
    assert (Htl : (length (tl l0) < length l0)%nat) by (rewrite El0 at 2; simpl; lia).
    assert (Hst : suffix (tl l0) l) by (apply suffix_tl_of; assumption).
    (* recursive case: scanning goes on from a suffix of [tl l0] *)
    assert (Hrec : forall r k1 k1', suffix r (tl l0) -> (k = k' -> k1 = k1') ->
      fst (scan F fm n k1 r) = fst (scan F fm m k1' r) /\
      same_out (snd (scan F fm n k1 r)) (snd (scan F fm m k1' r)) /\
      (k = k' -> scan F fm n k1 r = scan F fm m k1' r) /\
      suffix (fst (scan F fm n k1 r)) l /\
      match snd (scan F fm n k1 r) with
      | LTok t => (t = LP KEof /\ cur (fst (scan F fm n k1 r)) = 0) \/
                  (t <> LP KEof /\ (length (fst (scan F fm n k1 r)) < length l)%nat)
      | LErr _ _ => True
      end).
    { intros r k1 k1' Hr Hk. pose proof (suffix_len _ _ Hr) as Hlr.
      destruct (IH (length r) ltac:(lia) r n m k1 k1' ltac:(lia) ltac:(lia) ltac:(lia)) as (A & B & C & D & E).
      split; [exact A|]. split; [exact B|]. split; [auto|].
      split; [eapply suffix_trans; [exact D|]; eapply suffix_trans; [exact Hr | exact Hst]|].
      destruct (snd (scan F fm n k1 r)); auto. destruct E as [E|[E E']]; [left; exact E | right; split; [exact E|lia]]. }
    destruct (cur l0 =? c_slash) eqn:Esl.
    { destruct (cur (tl l0) =? c_slash) eqn:E1.
      { apply Hrec; [|auto]. apply suffix_drop. }
      destruct (cur (tl l0) =? c_star) eqn:E2.
      { destruct fm eqn:Ef.
        - destruct (json_comment c_star (tl (tl l0))) as [r'|] eqn:Ej.
          + apply Hrec; [|auto]. apply suffix_json_comment in Ej.
            eapply suffix_trans; [exact Ej | apply suffix_tl].
          + cbn [fst snd same_out]. repeat split; auto; try congruence.
            eapply suffix_trans; [apply suffix_drop | exact Hst].
        - apply Hrec; [|auto]. apply suffix_ron_comment. }
      destruct fm eqn:Ef; cbn [fst snd same_out]; repeat split; auto; congruence. }
    destruct (punct fm (cur l0)) as [t|] eqn:Ep.
    { cbn [fst snd same_out]. repeat split; auto. right. split; [|lia].
      unfold punct in Ep. intro Heq. inversion Heq; subst t. clear -Ep.
      repeat match type of Ep with (if ?b then _ else _) = _ => destruct b; [discriminate|] end.
      destruct fm; [discriminate|].
      repeat match type of Ep with (if ?b then _ else _) = _ => destruct b; [discriminate|] end. discriminate. }
    destruct (num_start fm (cur l0)) eqn:En.
    { destruct (scan_num l0) as [[buf l'] fl] eqn:Es. pose proof (scan_num_split _ _ _ _ Es) as Hsp.
      assert (Hsuf : suffix l' l) by (eapply suffix_trans; [exists buf; exact Hsp | exact Hs]).
      destruct (num_tok F buf fl) as [t|] eqn:Et; cbn [fst snd same_out]; repeat split; auto; try congruence.
      right. split.
      - unfold num_tok in Et. destruct fl; [|destruct (cur buf =? c_minus)].
        + destruct (f64_parse F buf); inversion Et; discriminate.
        + destruct (parse_i64 buf); inversion Et; discriminate.
        + destruct (parse_u64 buf); inversion Et; discriminate.
      - assert (buf <> []).
        { intro; subst buf. unfold scan_num in Es. clear -Es En El0.
          destruct ((cur l0 =? c_minus) || (cur l0 =? c_plus)) eqn:Epm.
          - destruct (if cur (drop_while is_digit (tl l0)) =? c_dot then _ else _) as [[b2 l2] f2].
            destruct (if (cur l2 =? 101) || (cur l2 =? 69) then _ else _) as [[b3 l3] f3]. inversion Es.
          - rewrite El0 in Es. cbn [take_while drop_while] in Es.
            destruct (is_digit (cur l0)) eqn:Ed.
            + destruct (if cur (drop_while is_digit (tl l0)) =? c_dot then _ else _) as [[b2 l2] f2].
              destruct (if (cur l2 =? 101) || (cur l2 =? 69) then _ else _) as [[b3 l3] f3]. inversion Es.
            + unfold num_start in En. rewrite Epm, Ed in En. cbn [orb] in En.
              destruct fm; [discriminate|]. cbn [cur tl] in Es. rewrite En in Es. cbn beta iota zeta in Es.
              match type of Es with context [if ?b then _ else _] => destruct (if b then _ else _) as [[b3 l3] f3] end.
              inversion Es. }
        rewrite Hsp in Hlen. rewrite app_length in Hlen. destruct buf; [congruence|]. simpl in Hlen. lia. }
    destruct (is_alpha (cur l0)) eqn:Ea.
    { cbn [fst snd]. split; [reflexivity|]. split; [apply id_tok_same|]. split; [intros ->; reflexivity|].
      split; [apply suffix_drop_of; assumption|].
      destruct (id_tok fm _ k) as [t|] eqn:Ei; [|exact I]. right. split; [eapply id_tok_not_eof; exact Ei|].
      rewrite El0. simpl. assert (id_char fm (cur l0) = true) by (destruct fm; simpl; rewrite Ea; reflexivity).
      rewrite H. pose proof (suffix_len _ _ (suffix_drop (id_char fm) (tl l0))). lia. }
    destruct (cur l0 =? c_quote) eqn:Eq.
    { pose proof (suffix_scan_str (length (tl l0)) (tl l0)) as Hss.
      destruct (scan_str (length (tl l0)) (tl l0)) as [l' [s|]]; cbn [fst] in Hss; cbn [fst snd same_out];
        (repeat split; auto; try congruence; try (eapply suffix_trans; [exact Hss | exact Hst])).
      right. split; [discriminate|]. pose proof (suffix_len _ _ Hss). lia. }
    destruct fm eqn:Ef.
    { cbn [fst snd same_out]. repeat split; auto; congruence. }
    destruct (cur l0 =? c_apos) eqn:Eap.
    2:{ cbn [fst snd same_out]. repeat split; auto; congruence. }
    set (l1 := if cur (tl l0) =? c_bslash then _ else _).
    assert (H1 : suffix l1 (tl l0)) by (subst l1; destruct (_ =? c_bslash); [apply suffix_tl | apply suffix_refl]).
    destruct (cur (tl l1) =? c_apos).
    - apply Hrec; [|auto]. apply suffix_tl_of, suffix_tl_of. assumption.
    - cbn [fst snd same_out]. repeat split; auto; try congruence.
      eapply suffix_trans; [apply suffix_tl_of; exact H1 | exact Hst].
  Qed.

  (** One step of tokenization: the token (if any) and the rest. *)
  Definition lex1 (l : str) : str * option ltok :=
    match scan F fm (S (length l)) KBof l with
    | (l', LTok t) => (l', Some t)
    | (l', LErr _ _) => (l', None)
    end.

  (** The tokens of a text up to its end ([false]) or up to a lexical error ([true]). *)
  Fixpoint lexs_f (n : nat) (l : str) : list ltok * bool :=
    match n with
    | O => ([], true)
    | S n' =>
      match lex1 l with
      | (_, Some (LP KEof)) => ([], false)
      | (l', Some t) => (t :: fst (lexs_f n' l'), snd (lexs_f n' l'))
      | (_, None) => ([], true)
      end
    end.
  Definition lexs (l : str) : list ltok * bool := lexs_f (S (length l)) l.
  Arguments lexs : simpl never.

  Lemma lex1_spec l :
    suffix (fst (lex1 l)) l /\
    match snd (lex1 l) with
    | Some t => (t = LP KEof /\ cur (fst (lex1 l)) = 0) \/
                (t <> LP KEof /\ (length (fst (lex1 l)) < length l)%nat)
    | None => True
    end.
  Proof.
    unfold lex1.
    destruct (scan_spec (length l) l (S (length l)) (S (length l)) KBof KBof) as (_ & _ & _ & D & E); try lia.
    destruct (scan F fm (S (length l)) KBof l) as [l' [t|k m]]; cbn [fst snd] in *; auto.
  Qed.

  Lemma lexs_fuel : forall N l n, (length l <= N)%nat -> (N < n)%nat -> lexs_f n l = lexs l.
  Proof.
    unfold lexs.
    assert (H : forall N l n m, (length l <= N)%nat -> (N < n)%nat -> (N < m)%nat -> lexs_f n l = lexs_f m l).
    { induction N as [N IH] using (well_founded_induction lt_wf). intros l n m Hl Hn Hm.
      destruct n as [|n]; [lia|]. destruct m as [|m]; [lia|]. cbn [lexs_f].
      pose proof (lex1_spec l) as [_ H]. destruct (lex1 l) as [l' [t|]]; [|reflexivity]. cbn [fst snd] in H.
      destruct H as [[-> _]|[Ht Hlt]]; [reflexivity|].
      destruct (IH (length l') ltac:(lia) l' n m ltac:(lia) ltac:(lia) ltac:(lia)). reflexivity. }
    intros N l n H1 H2. apply (H (length l)); lia.
  Qed.

  Lemma lexs_unfold l :
    lexs l = match lex1 l with
             | (_, Some (LP KEof)) => ([], false)
             | (l', Some t) => (t :: fst (lexs l'), snd (lexs l'))
             | (_, None) => ([], true)
             end.
  Proof.
    unfold lexs at 1. cbn [lexs_f]. pose proof (lex1_spec l) as [_ H].
    destruct (lex1 l) as [l' [t|]]; [|reflexivity]. cbn [fst snd] in H.
    destruct H as [[-> _]|[Ht Hlt]]; [reflexivity|].
    rewrite (lexs_fuel (length l') l' (length l)) by lia. reflexivity.
  Qed.
  Lemma lexs_tok l l' t : lex1 l = (l', Some t) -> t <> LP KEof ->
    lexs l = (t :: fst (lexs l'), snd (lexs l')).
  Proof.
    intros H Ht. rewrite lexs_unfold, H. destruct t as [x|x|k]; try reflexivity.
    destruct k; try reflexivity. congruence.
  Qed.
  Lemma lexs_eof l l' : lex1 l = (l', Some (LP KEof)) -> lexs l = ([], false).
  Proof. intro H. rewrite lexs_unfold, H. reflexivity. Qed.
  Lemma lexs_err l l' : lex1 l = (l', None) -> lexs l = ([], true).
  Proof. intro H. rewrite lexs_unfold, H. reflexivity. Qed.
  Lemma cur0_eof l : cur l = 0 -> lex1 l = (l, Some (LP KEof)).
  Proof.
    intro H. unfold lex1. cbn [scan].
    assert (E : drop_while is_ws l = l) by (destruct l as [|x l]; [reflexivity|]; simpl in *; subst x; reflexivity).
    rewrite E, H. reflexivity.
  Qed.

  (** ** Reading from a list of tokens *)
  Record tst := { t_toks : list ltok; t_bad : bool; t_sb : str; t_ib : str }.

  (** The current token is the head; no token left means end of text; after the
      last token comes the end of the text or a lexical error, after which the
      state is such that advancing fails again. *)
  Definition lexbad : tmsg := CannotParse [].
  Definition stuck (s : tst) : Prop := t_toks s = [LP KComma] /\ t_bad s = true.
  Definition tok_next (s : tst) : tst * res terr unit :=
    match t_toks s with
    | [] => (s, Ok tt)
    | _ :: [] =>
      if t_bad s then ({| t_toks := [LP KComma]; t_bad := true; t_sb := t_sb s; t_ib := t_ib s |}, Err (mk_err (0, 0) lexbad))
      else ({| t_toks := []; t_bad := t_bad s; t_sb := t_sb s; t_ib := t_ib s |}, Ok tt)
    | _ :: (u :: r) =>
      ({| t_toks := u :: r; t_bad := t_bad s; t_sb := ltok_str u (t_sb s); t_ib := ltok_id u (t_ib s) |}, Ok tt)
    end.
  Definition tok_kind (l : list ltok) : tok :=
    match l with [] => KEof | t :: _ => ltok_kind t end.
  Definition tok_lexer : lexer tst := {|
    l_tok := fun s => tok_kind (t_toks s);
    l_str := t_sb; l_id := t_ib;
    l_pos := fun _ => (0, 0);
    l_take := fun s => {| t_toks := t_toks s; t_bad := t_bad s; t_sb := []; t_ib := t_ib s |};
    l_next := tok_next
  |}.

  (** A state of the real reader and the tokens it has ahead of it. *)
  Definition ahead (s : dst) (u : tst) : Prop :=
    s_tok s = tok_kind (t_toks u) /\ s_str s = t_sb u /\ s_id s = t_ib u /\
    match t_toks u with
    | [] => lexs (s_inp s) = ([], false)
    | _ :: r => lexs (s_inp s) = (r, t_bad u)
    end.

  Lemma lex_next_scan s : forall l' o, lex1 (s_inp s) = (l', o) ->
    match o with
    | Some t =>
      exists p, lex_next F fm s =
        ({| s_inp := l'; s_tok := ltok_kind t; s_str := ltok_str t (s_str s); s_id := ltok_id t (s_id s);
            s_line := fst p; s_col := snd p |}, Ok tt)
    | None => exists s' e, lex_next F fm s = (s', Err e)
    end.
  Proof.
    intros l' o H. unfold lex1 in H. unfold lex_next.
    destruct (scan_spec (length (s_inp s)) (s_inp s) (S (length (s_inp s))) (S (length (s_inp s))) KBof (s_tok s))
      as (A & B & _ & _ & _); try lia.
    destruct (scan F fm (S (length (s_inp s))) KBof (s_inp s)) as [a [t|k m]];
    destruct (scan F fm (S (length (s_inp s))) (s_tok s) (s_inp s)) as [a' [t'|k' m']];
      cbn [fst snd same_out] in A, B; subst; try contradiction; inversion H; subst.
    - eexists. reflexivity.
    - eexists _, _. reflexivity.
  Qed.

  Notation arel := (rel ahead lexbad stuck (fun _ => False) (fun _ e1 e2 => e_reason e1 = e_reason e2)).
  Lemma ahead_next s u : ahead s u -> arel (l_next (text_lexer F fm) s) (l_next tok_lexer u).
  Proof.
    intros (H1 & H2 & H3 & H4). right. cbn [text_lexer tok_lexer l_next].
    pose proof (lex1_spec (s_inp s)) as [_ Hspec].
    destruct (lex1 (s_inp s)) as [l' o] eqn:El. pose proof (lex_next_scan s l' o El) as Hn.
    cbn [fst snd] in Hspec. unfold tok_next.
    destruct o as [t|].
    - destruct Hn as [p Hn]. rewrite Hn. destruct Hspec as [[-> Hc]|[Ht Hlt]].
      + (* end of text *)
        assert (Hl : lexs (s_inp s) = ([], false)) by (eapply lexs_eof; exact El).
        assert (Hl' : lexs l' = ([], false)) by (eapply lexs_eof, cur0_eof; exact Hc).
        destruct (t_toks u) as [|a [|b r]] eqn:Eu.
        * split; [reflexivity|]. repeat split; cbn; try assumption.
          -- rewrite Eu. reflexivity.
          -- rewrite Eu. exact Hl'.
        * rewrite Hl in H4. inversion H4 as [Hb]. split; [reflexivity|].
          repeat split; cbn; try assumption.
        * rewrite Hl in H4. discriminate.
      + assert (Hl : lexs (s_inp s) = (t :: fst (lexs l'), snd (lexs l'))) by (apply lexs_tok; assumption).
        destruct (t_toks u) as [|a [|b r]] eqn:Eu; try (rewrite Hl in H4; discriminate).
        rewrite Hl in H4. inversion H4; subst b r. split; [reflexivity|].
        repeat split; cbn; try congruence.
        destruct (lexs l'); reflexivity.
    - destruct Hn as (s' & e & Hn). rewrite Hn.
      assert (Hl : lexs (s_inp s) = ([], true)) by (eapply lexs_err; exact El).
      destruct (t_toks u) as [|a [|b r]] eqn:Eu; try (rewrite Hl in H4; discriminate).
      rewrite Hl in H4. inversion H4 as [Hb]. right. repeat split.
  Qed.

  Lemma tok_next_ok : next_ok tok_lexer.
  Proof.
    intro s. cbn. unfold tok_next. destruct (t_toks s) as [|a [|b r]]; cbn; auto.
    destruct (t_bad s); cbn; auto.
  Qed.
  Lemma text_next_ok : next_ok (text_lexer F fm).
  Proof.
    intro s. cbn. unfold lex_next. destruct (scan _ _ _ _ _) as [l' [t|k m]]; cbn; auto.
  Qed.

  Lemma stuck_eat k w s : stuck s ->
    match eat_comma tok_lexer k w s with (s', Err e) => e_reason e = lexbad /\ stuck s' | _ => False end.
  Proof.
    intros [H1 H2]. unfold eat_comma. cbn [l_tok l_next tok_lexer]. rewrite H1. cbn. unfold tok_next. rewrite H1, H2.
    repeat split.
  Qed.

  (** Outcomes compared: same value, errors with the same reason or, on the right, a
      lexical error, same panic, both out of fuel. *)
  Definition agree {A} (r1 r2 : res terr A) : Prop :=
    match r1, r2 with
    | Ok a, Ok b => a = b
    | Err e1, Err e2 => e_reason e1 = e_reason e2 \/ e_reason e2 = lexbad
    | Panic p, Panic q => p = q
    | NoFuel, NoFuel => True
    | _, _ => False
    end.
  Lemma agree_refl {A} (r : res terr A) : agree r r.
  Proof. destruct r; simpl; auto. Qed.
  Lemma agree_trans {A} (r1 r2 r3 : res terr A) : agree r1 r2 -> agree r2 r3 -> agree r1 r3.
  Proof. destruct r1, r2, r3; simpl; try tauto; try congruence. intuition congruence. Qed.
  Lemma agree_ok {A} (r : res terr A) a : agree r (Ok a) -> r = Ok a.
  Proof. destruct r; simpl; try contradiction. congruence. Qed.

  Variable c : cfg.
  Variable G : env.

  Theorem de_tokens n t s u : ahead s u ->
    arel (de_text (text_lexer F fm) F c G fm n t s) (de_text tok_lexer F c G fm n t u).
  Proof.
    intro H. apply (prel_at ahead lexbad stuck (fun _ => False) (fun _ e1 e2 => e_reason e1 = e_reason e2)); [|exact H].
    apply (prel_de (text_lexer F fm) tok_lexer ahead F c G fm lexbad stuck (fun _ => False) (fun _ e1 e2 => e_reason e1 = e_reason e2) (fun _ => True));
      auto using ahead_next, tok_next_ok, text_next_ok.
    - intros s1 s2 A. apply A.
    - intros s1 s2 A. apply A.
    - intros s1 s2 A. apply A.
    - intros s1 s2 (A1 & A2 & A3 & A4). repeat split; assumption.
    - intros s1 [].
    - intros k w s0 Hs. apply (stuck_eat k w s0 Hs).
    - intros x _. destruct x; cbn; auto. apply Forall_forall. auto.
    - intros i d _. destruct d; cbn; auto; apply Forall_forall; auto. intros v _. destruct (v_body v); cbn; auto; apply Forall_forall; auto.
  Qed.

  (** What [deserialize_*] computes, from the token list of the text: the first
      token is current; an error at once if there is none to be had. *)
  Definition de_toks (n : nat) (t : ty) (tb : list ltok * bool) : res terr val :=
    match tb with
    | ([], true) => Err (mk_err (0, 0) lexbad)
    | (l, b) =>
      snd (de_text tok_lexer F c G fm n t
             {| t_toks := l; t_bad := b;
                t_sb := match l with a :: _ => ltok_str a [] | [] => [] end;
                t_ib := match l with a :: _ => ltok_id a [] | [] => [] end |})
    end.

  Theorem deserialize_tokens n t text :
    agree (deserialize_text F c G fm n t text) (de_toks n t (lexs text)).
  Proof.
    unfold deserialize_text, de_first, pbind. cbn [l_next text_lexer].
    pose proof (lex1_spec text) as [_ Hspec].
    destruct (lex1 text) as [l' o] eqn:El.
    pose proof (lex_next_scan (start fm text) l' o El) as Hn. cbn [fst snd] in Hspec.
    destruct o as [t0|].
    - destruct Hn as [p Hn]. rewrite Hn. cbn [start s_str s_id].
      set (s := {| s_inp := l'; s_tok := _; s_str := _; s_id := _; s_line := _; s_col := _ |}).
      destruct Hspec as [[-> Hc]|[Ht Hlt]].
      + rewrite (lexs_eof _ _ El). cbn [de_toks].
        set (u := {| t_toks := []; t_bad := false; t_sb := _; t_ib := _ |}).
        assert (Ha : ahead s u).
        { repeat split; cbn. eapply lexs_eof, cur0_eof; exact Hc. }
        pose proof (de_tokens n t s u Ha) as Hr. unfold rel in Hr. destruct Hr as [[]|Hr].
        destruct (de_text (text_lexer F fm) F c G fm n t s) as [? [?|?|?|]],
                 (de_text tok_lexer F c G fm n t u) as [? [?|?|?|]]; cbn; tauto.
      + rewrite (lexs_tok _ _ _ El Ht). cbn [de_toks].
        set (u := {| t_toks := t0 :: _; t_bad := _; t_sb := _; t_ib := _ |}).
        assert (Ha : ahead s u).
        { repeat split; cbn. destruct (lexs l'); reflexivity. }
        pose proof (de_tokens n t s u Ha) as Hr. unfold rel in Hr. destruct Hr as [[]|Hr].
        destruct (de_text (text_lexer F fm) F c G fm n t s) as [? [?|?|?|]],
                 (de_text tok_lexer F c G fm n t u) as [? [?|?|?|]]; cbn; tauto.
    - destruct Hn as (s' & e & Hn). rewrite Hn. rewrite (lexs_err _ _ El). cbn. right. reflexivity.
  Qed.
End Lex.
