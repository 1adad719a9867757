(** Values read from text satisfy the invariants of their types. *)
From Verif Require Import Base Utf8 Types TyAll BinModel BinRead Text TextModel TextSim TextToks SpecText SpecValid TextObj.
Local Open Scope N_scope.

(** ** Strings hold scalar values *)
Lemma scalar_suffix a b : suffix a b -> Forall scalar b -> Forall scalar a.
Proof. intros [p ->] H. apply Forall_app in H. apply H. Qed.
Lemma scalar_cur l : Forall scalar l -> scalar (cur l).
Proof. destruct l as [|a l]; intro H; [reflexivity | inversion H; assumption]. Qed.
Lemma unescape_scalar x : scalar x -> scalar (unescape x).
Proof. intro H. unfold unescape. repeat match goal with |- context [if ?b then _ else _] => destruct b end; try reflexivity. exact H. Qed.
Lemma hexval_lt x d : hexval x = Some d -> d < 16.
Proof.
  unfold hexval, is_digit. destruct ((48 <=? x) && (x <=? 57)) eqn:E1; [intro H; injection H as <-; lia|].
  destruct ((97 <=? x) && (x <=? 102)) eqn:E2; [intro H; injection H as <-; lia|].
  destruct ((65 <=? x) && (x <=? 70)) eqn:E3; [intro H; injection H as <-; lia | discriminate].
Qed.
Lemma xdigits_lt k : forall acc l l' a, xdigits k acc l = (l', Some a) -> a < (acc + 1) * 16 ^ N.of_nat k.
Proof.
  induction k as [|k IH]; intros acc l l' a H; cbn [xdigits] in H; [injection H as <- <-; change (16 ^ N.of_nat 0) with 1; lia|].
  destruct (hexval (cur l)) as [d|] eqn:E; [|discriminate]. apply hexval_lt in E. apply IH in H.
  eapply N.lt_le_trans; [exact H|]. rewrite Nat2N.inj_succ, N.pow_succ_r', N.mul_assoc. apply N.mul_le_mono_r. lia.
Qed.
Lemma hex_scalar l l' a : hex_unescape l = (l', Some a) -> scalar a.
Proof.
  unfold hex_unescape. destruct (xdigits 4 0 l) as [l1 [x|]] eqn:E1; [|discriminate]. apply xdigits_lt in E1. change ((0 + 1) * 16 ^ N.of_nat 4) with 65536 in E1.
  destruct ((x <? 0xd800) || (0xdfff <? x)) eqn:E2.
  { intro H. injection H as _ <-. unfold scalar, scalarb. lia. }
  destruct ((x <? 0xdc00) && (cur l1 =? c_bslash)) eqn:E3; [|discriminate].
  destruct (cur (tl l1) =? 117); [|discriminate].
  destruct (xdigits 4 0 (tl (tl l1))) as [l3 [y|]] eqn:E4; [|discriminate]. apply xdigits_lt in E4. change ((0 + 1) * 16 ^ N.of_nat 4) with 65536 in E4.
  destruct ((0xdc00 <=? y) && (y <? 0xe000)) eqn:E5; [|discriminate]. intro H. injection H as _ <-.
  unfold scalar, scalarb. lia.
Qed.
Lemma scan_str_scalar n : forall l l' s, Forall scalar l -> scan_str n l = (l', Some s) -> Forall scalar s.
Proof.
  induction n as [|n IH]; intros l l' s Hl H; cbn [scan_str] in H; [discriminate|].
  destruct l as [|x r]; [discriminate|]. inversion Hl as [|? ? Hx Hr]; subst.
  destruct (x =? c_quote); [injection H as _ <-; constructor|].
  destruct (x =? c_bslash).
  - destruct (cur r =? 0); [discriminate|]. destruct (cur r =? 117).
    + pose proof (suffix_hex (tl r)) as Sx. destruct (hex_unescape (tl r)) as [l2 [ch|]] eqn:E; [|discriminate]. apply hex_scalar in E. cbn [fst] in Sx.
      destruct (scan_str n l2) as [l3 [s3|]] eqn:E3; [|discriminate]. injection H as _ <-. constructor; [exact E|].
      apply (IH _ _ _) in E3; [exact E3|]. apply (scalar_suffix _ _ Sx). apply (scalar_suffix _ _ (suffix_tl r)). exact Hr.
    + destruct (scan_str n (tl r)) as [l3 [s3|]] eqn:E3; [|discriminate]. injection H as _ <-. constructor; [apply unescape_scalar, scalar_cur; exact Hr|].
      apply (IH _ _ _) in E3; [exact E3|]. apply (scalar_suffix _ _ (suffix_tl r)). exact Hr.
  - destruct (x =? 0); [discriminate|]. destruct (scan_str n r) as [l3 [s3|]] eqn:E3; [|discriminate]. injection H as _ <-. constructor; [exact Hx|]. eapply IH; eassumption.
Qed.

(** A part of a text. *)
Lemma infix_suffix a b : suffix a b -> infix a b.
Proof. intros [p ->]. exists p, []. rewrite app_nil_r. reflexivity. Qed.
Lemma infix_prefix x y b : suffix (x ++ y) b -> infix x b.
Proof. intros [p ->]. exists p, y. reflexivity. Qed.

(** ** Numbers come from literals of the text *)
Section Scan.
  Variable F : flt.
  Variable text : str.
  Hypothesis Htext : Forall scalar text.
  Definition tok_src (t : tok) : Prop :=
    match t with
    | KF64 b => exists s, infix s text /\ f64_parse F s = Some b
    | KI64 z => (- 2 ^ 63 <= z < 2 ^ 64)%Z
    | KU64 n => n < 2 ^ 64
    | _ => True
    end.
  Definition ltok_ok (t : ltok) : Prop := match t with LStr s => Forall scalar s | LId _ => True | LP t => tok_src t end.
  Lemma num_tok_src b fl t : infix b text -> num_tok F b fl = Some t -> tok_src t.
  Proof.
    intro Hb. unfold num_tok. destruct fl.
    - destruct (f64_parse F b) as [x|] eqn:E; [|discriminate]. intro H. injection H as <-. exists b. auto.
    - destruct (cur b =? c_minus).
      + destruct (parse_i64 b) as [z|] eqn:E; [|discriminate]. intro H. injection H as <-. cbn [tok_src]. unfold parse_i64 in E.
        destruct b as [|x [|y b]]; try discriminate. destruct ((x =? c_minus) && forallb is_digit (y :: b) && (digits_val (y :: b) <=? 2 ^ 63)) eqn:E1; [|discriminate].
        apply andb_prop in E1 as [_ E1]. apply N.leb_le in E1. injection E as <-. lia.
      + destruct (parse_u64 b) as [z|] eqn:E; [|discriminate]. intro H. injection H as <-. cbn [tok_src]. unfold parse_u64 in E.
        destruct (match b with c :: r => if c =? c_plus then r else b | [] => [] end) as [|y d]; [discriminate|].
        destruct (forallb is_digit (y :: d) && (digits_val (y :: d) <? 2 ^ 64)) eqn:E1; [|discriminate].
        apply andb_prop in E1 as [_ E1]. apply N.ltb_lt in E1. injection E as <-. exact E1.
  Qed.
  Lemma punct_src fm x t : punct fm x = Some t -> tok_src t.
  Proof. unfold punct. repeat match goal with |- context [if ?b then _ else _] => destruct b end; try (destruct fm); repeat match goal with |- context [if ?b then _ else _] => destruct b end; intro H; try discriminate; injection H as <-; exact I. Qed.
  Lemma id_tok_ok fm id k t : id_tok fm id k = LTok t -> ltok_ok t.
  Proof.
    unfold id_tok. destruct (str_eqb _ _); [intro H; injection H as <-; exact I|]. destruct (str_eqb _ _); [intro H; injection H as <-; exact I|].
    destruct fm; [|intro H; injection H as <-; exact I]. destruct (str_eqb _ _); [intro H; injection H as <-; exact I | discriminate].
  Qed.
  Lemma scan_ok fm n : forall k l l' t, suffix l text -> scan F fm n k l = (l', LTok t) -> ltok_ok t.
  Proof.
    induction n as [|n IH]; intros k l l' t Hl H; cbn [scan] in H; [discriminate|].
    set (l0 := drop_while is_ws l) in *. assert (H0 : suffix l0 text) by (eapply suffix_trans; [apply suffix_drop | exact Hl]).
    assert (H1 : suffix (tl l0) text) by (eapply suffix_trans; [apply suffix_tl | exact H0]).
    destruct (cur l0 =? 0); [injection H as _ <-; exact I|].
    destruct (cur l0 =? c_slash).
    - destruct (cur (tl l0) =? c_slash); [eapply IH; [|exact H]; eapply suffix_trans; [apply suffix_drop | exact H1]|].
      destruct (cur (tl l0) =? c_star).
      + destruct fm.
        * destruct (json_comment c_star (tl (tl l0))) as [r'|] eqn:E; [|discriminate]. eapply IH; [|exact H]. apply suffix_json_comment in E.
          eapply suffix_trans; [exact E|]. eapply suffix_trans; [apply suffix_tl | exact H1].
        * eapply IH; [|exact H]. eapply suffix_trans; [apply suffix_ron_comment | exact H1].
      + destruct fm; discriminate.
    - destruct (punct fm (cur l0)) as [p|] eqn:Ep; [injection H as _ <-; apply (punct_src _ _ _ Ep)|].
      destruct (num_start fm (cur l0)).
      { destruct (scan_num l0) as [[buf ln] fl] eqn:En. apply scan_num_split in En. destruct (num_tok F buf fl) as [u|] eqn:E; [|discriminate]. injection H as _ <-.
        apply (num_tok_src _ _ _ (infix_prefix buf ln text ltac:(rewrite <- En; exact H0)) E). }
      destruct (is_alpha (cur l0)); [injection H as _ H; apply (id_tok_ok _ _ _ _ H)|].
      destruct (cur l0 =? c_quote).
      { destruct (scan_str (length (tl l0)) (tl l0)) as [ls [s|]] eqn:E; [|discriminate]. injection H as _ <-. apply (scan_str_scalar _ _ _ _ (scalar_suffix _ _ H1 Htext) E). }
      destruct fm; [discriminate|].
      destruct (cur l0 =? c_apos); [|discriminate].
      set (l1 := if cur (tl l0) =? c_bslash then tl (tl l0) else tl l0) in *.
      destruct (cur (tl l1) =? c_apos); [|discriminate]. eapply IH; [|exact H].
      assert (suffix l1 text) by (subst l1; destruct (_ =? c_bslash); [eapply suffix_trans; [apply suffix_tl | exact H1] | exact H1]).
      eapply suffix_trans; [apply suffix_tl|]. eapply suffix_trans; [apply suffix_tl|]. assumption.
  Qed.
End Scan.

Lemma cast_ok c k z : k <> U128 -> k <> I128 -> int_ok c k (cast c k z).
Proof.
  intros K1 K2. assert (Hu : (0 < Z.of_N (usize_mod c))%Z) by (unfold usize_mod; pose proof (N.pow_nonzero 2 (usize_bits c)); lia).
  assert (Hb : forall w, to_bits w z < 256 ^ N.of_nat w).
  { intro w. unfold to_bits. pose proof (Z.mod_pos_bound z (2 ^ (8 * Z.of_nat w)) ltac:(lia)) as B.
    replace (256 ^ N.of_nat w) with (Z.to_N (2 ^ (8 * Z.of_nat w))); [lia|].
    apply N2Z.inj. rewrite Z2N.id by lia. rewrite N2Z.inj_pow, nat_N_Z, Z.pow_mul_r by lia. reflexivity. }
  destruct k; try congruence; unfold cast; try (apply to_bits_of_bits; [discriminate | apply Hb]).
  unfold int_ok, ik_min, ik_sup. cbn [ik_signed]. apply Z.mod_pos_bound. exact Hu.
Qed.

(** ** Hoare logic for successful runs *)
Section Gives.
  Variable F : flt.
  Variable text : str.
  Hypothesis Htext : Forall scalar text.
  Variable c : cfg.
  Variable G : env.
  Variable fm : fmt.
  Local Notation L := (text_lexer F fm).

  Definition Inv (s : dst) : Prop := suffix (s_inp s) text /\ Forall scalar (s_str s) /\ tok_src F text (s_tok s).
  Definition Gives {A} (m : @pm dst A) (P : A -> Prop) : Prop :=
    forall s s' a, Inv s -> m s = (s', Ok a) -> Inv s' /\ P a.

  Lemma Gives_ret {A} (a : A) (P : A -> Prop) : P a -> Gives (pret a) P.
  Proof. intros H s s' b Hs E. injection E as <- <-. auto. Qed.
  Lemma Gives_fail {A} (r : res terr A) P : (forall a, r <> Ok a) -> Gives (pfail r) P.
  Proof. intros Hr s s' a _ E. injection E as _ E. destruct (Hr _ E). Qed.
  Lemma Gives_perr {A} m (P : A -> Prop) : Gives (perr L m) P.
  Proof. intros s s' a _ E. discriminate. Qed.
  Lemma Gives_bind {A B} (m : @pm dst A) (f : A -> @pm dst B) (P : A -> Prop) (Q : B -> Prop) :
    Gives m P -> (forall a, P a -> Gives (f a) Q) -> Gives (pbind m f) Q.
  Proof.
    intros H1 H2 s s' b Hs E. unfold pbind in E. destruct (m s) as [s1 [a|e|p|]] eqn:E1; try discriminate.
    destruct (H1 _ _ _ Hs E1) as [I1 Pa]. exact (H2 a Pa _ _ _ I1 E).
  Qed.
  Lemma Gives_map {A B} (g : A -> B) (m : @pm dst A) (P : A -> Prop) (Q : B -> Prop) :
    Gives m P -> (forall a, P a -> Q (g a)) -> Gives (pmap g m) Q.
  Proof. intros H1 H2. unfold pmap. apply (Gives_bind m _ P Q H1). intros a Ha. apply Gives_ret. auto. Qed.
  Lemma Gives_weaken {A} (m : @pm dst A) (P Q : A -> Prop) : (forall a, P a -> Q a) -> Gives m P -> Gives m Q.
  Proof. intros H1 H2 s s' a Hs E. destruct (H2 _ _ _ Hs E). auto. Qed.

  Definition Tr {A} (_ : A) : Prop := True.
  Lemma Gives_next : Gives (l_next L) Tr.
  Proof.
    intros s s' a (I1 & I2 & I3) E. split; [|exact I]. cbn [l_next text_lexer] in E. unfold lex_next in E.
    pose proof (proj1 (proj2 (proj2 (proj2 (scan_spec F fm (length (s_inp s)) (s_inp s) (S (length (s_inp s))) (S (length (s_inp s))) (s_tok s) (s_tok s) ltac:(lia) ltac:(lia) ltac:(lia)))))) as Sx.
    destruct (scan F fm (S (length (s_inp s))) (s_tok s) (s_inp s)) as [l' o] eqn:Es. cbn [fst] in Sx. destruct o as [t|k m]; [|discriminate].
    injection E as <- _. apply (scan_ok F text Htext) in Es; [|exact I1]. split; [eapply suffix_trans; [exact Sx | exact I1]|].
    cbn [s_str s_tok]. destruct t; cbn [ltok_str ltok_kind ltok_ok tok_src] in *; auto.
  Qed.
  Lemma Gives_expect k w : Gives (expect L k w) Tr.
  Proof. intros s s' a Hs E. unfold expect in E. destruct (tok_is _ _); [apply (Gives_next s s' a Hs E) | discriminate]. Qed.
  Lemma Gives_eat k w : Gives (eat_comma L k w) Tr.
  Proof.
    intros s s' a Hs E. unfold eat_comma in E. destruct (tok_is _ _); [apply (Gives_next s s' a Hs E)|].
    destruct (tok_is _ _); [injection E as <- _; split; [exact Hs | exact I] | discriminate].
  Qed.
  Lemma Gives_then {A B} (m : @pm dst A) (f : A -> @pm dst B) (Q : B -> Prop) :
    Gives m Tr -> (forall a, Gives (f a) Q) -> Gives (pbind m f) Q.
  Proof. intros H1 H2. apply (Gives_bind m f Tr Q H1). auto. Qed.
  Lemma Gives_while {A} cond (body : A -> @pm dst A) (J : A -> Prop) : (forall a, J a -> Gives (body a) J) ->
    forall n a, J a -> Gives (while_ n cond body a) J.
  Proof.
    intros Hb. induction n as [|n IH]; intros a Ha; cbn [while_]; [apply Gives_fail; discriminate|].
    intros s s' b Hs E. destruct (cond s); [|injection E as <- <-; auto].
    exact (Gives_bind (body a) (while_ n cond body) J J (Hb a Ha) IH s s' b Hs E).
  Qed.

  Lemma Gives_u64 m : Gives (u64_range L m) (fun v => v <= m).
  Proof.
    intros s s' a Hs E. unfold u64_range in E. destruct (l_tok L s); try discriminate.
    destruct (N.ltb_spec m n); [discriminate|]. injection E as <- <-. auto.
  Qed.
  Lemma Gives_i64 a b : Gives (i64_range L a b) Tr.
  Proof.
    intros s s' x Hs E. unfold i64_range in E. split; [|exact I]. destruct (l_tok L s); try discriminate.
    - destruct (_ <? _)%Z; [discriminate|]. injection E as <- _. exact Hs.
    - destruct (_ <? _)%Z; [discriminate|]. injection E as <- _. exact Hs.
  Qed.
  Lemma Gives_int k : Gives (de_int L c k) (fun v => exists z, v = VZ z /\ int_ok c k z).
  Proof.
    unfold de_int. destruct k; try (apply Gives_fail; discriminate); cbn [ik_signed];
      (apply Gives_then; [eapply Gives_weaken; [|first [apply Gives_u64 | apply Gives_i64]]; intros; exact I|]; intro v;
       apply Gives_then; [apply Gives_next|]; intros _; apply Gives_ret; eexists; split; [reflexivity|]; apply cast_ok; discriminate).
  Qed.
  (** Where a float comes from. *)
  Definition float_src (b : N) : Prop :=
    (exists s, infix s text /\ f64_parse F s = Some b) \/ (exists z, (- 2 ^ 63 <= z < 2 ^ 64)%Z /\ b = f64_of_z F z).
  Lemma Gives_f64 : Gives (de_f64 L F) float_src.
  Proof.
    unfold de_f64. apply (Gives_bind _ _ float_src).
    - intros s s' a (I1 & I2 & I3) E. unfold as_f64 in E. cbn [l_tok text_lexer] in E. destruct (s_tok s) eqn:Et; try discriminate; injection E as <- <-; (split; [split; [exact I1 | split; [exact I2 | rewrite Et; exact I3]]|]); cbn [tok_src] in I3.
      + right. eexists. split; [|reflexivity]. lia.
      + right. eexists. split; [|reflexivity]. lia.
      + left. exact I3.
    - intros b Hb. apply Gives_then; [apply Gives_next|]. intros _. apply Gives_ret. exact Hb.
  Qed.
  Lemma Gives_bool : Gives (de_bool L fm) (fun v => exists b, v = VBool b).
  Proof.
    unfold de_bool. apply Gives_then.
    - intros s s' a Hs E. split; [|exact I]. unfold as_bool in E. destruct (l_tok L s), fm; try discriminate; injection E as <- _; exact Hs.
    - intro b. apply Gives_then; [apply Gives_next|]. intros _. apply Gives_ret. eauto.
  Qed.
  Lemma Gives_str : Gives (de_str L) (Forall scalar).
  Proof.
    unfold de_str. apply (Gives_bind _ _ (Forall scalar)).
    - intros s s' a (I1 & I2 & I3) E. unfold as_string in E. destruct (tok_is _ _); [|discriminate]. injection E as <- <-.
      split; [|exact I2]. split; [exact I1|]. split; [constructor | exact I3].
    - intros x Hx. apply Gives_then; [apply Gives_next|]. intros _. apply Gives_ret. exact Hx.
  Qed.
  Definition opt_of (P : val -> Prop) (v : val) : Prop := v = VNone \/ exists w, v = VSome w /\ P w.
  Lemma Gives_opt de P : Gives de P -> Gives (de_opt L fm de) (opt_of P).
  Proof.
    intro H. intros s s' a Hs E. unfold de_opt in E. destruct (at_none L fm s).
    - refine (Gives_then (l_next L) (fun _ => pret VNone) (opt_of P) Gives_next _ s s' a Hs E). intros _. apply Gives_ret. left. reflexivity.
    - refine (Gives_map VSome de P (opt_of P) H _ s s' a Hs E). intros w Hw. right. eauto.
  Qed.
  Definition dur_of (v : val) : Prop := exists s ns, v = VDur s ns /\ s < 2 ^ 64 /\ ns < 1000000000.
  Lemma Gives_dur n : Gives (de_dur L n) dur_of.
  Proof.
    unfold de_dur. apply Gives_then; [apply Gives_expect|]. intros _.
    apply (Gives_bind _ _ (fun a : option N * option N => match fst a with Some x => x < 2 ^ 64 | None => True end)).
    - apply Gives_while; [|exact I]. intros [a1 a2] Ha. cbn [fst snd] in *. unfold dur_body. cbn [fst snd].
      apply Gives_then; [eapply Gives_weaken; [|apply Gives_str]; intros; exact I|]. intro key.
      apply (Gives_bind _ _ (fun a : option N * option N => match fst a with Some x => x < 2 ^ 64 | None => True end)).
      + destruct (str_eqb key _).
        * destruct a1; [apply Gives_perr|]. apply Gives_then; [apply Gives_expect|]. intros _.
          apply (Gives_bind _ _ (fun v => v < 2 ^ 64)).
          -- unfold de_u64. apply (Gives_bind _ _ (fun v => v <= u_max U64)); [apply Gives_u64|]. intros v Hv. apply Gives_then; [apply Gives_next|]. intros _. apply Gives_ret. cbn in Hv. lia.
          -- intros v Hv. apply Gives_ret. exact Hv.
        * destruct (str_eqb key _); [|apply Gives_perr]. destruct a2; [apply Gives_perr|]. apply Gives_then; [apply Gives_expect|]. intros _.
          apply Gives_then.
          -- unfold de_u64. apply (Gives_bind _ _ (fun v => v <= u_max U32)); [apply Gives_u64|]. intros v Hv. apply Gives_then; [apply Gives_next|]. intros _. apply Gives_ret. exact I.
          -- intros v. apply Gives_ret. exact Ha.
      + intros a' Ha'. apply Gives_then; [apply Gives_eat|]. intros _. apply Gives_ret. exact Ha'.
    - intros [a1 a2] Ha. cbn [fst snd] in *. apply Gives_then; [apply Gives_expect|]. intros _. destruct a1 as [secs|]; [|apply Gives_perr].
      set (ns := match a2 with Some x => x | None => 0 end). cbv zeta.
      destruct (1000000000 <? ns); [apply Gives_perr|]. destruct (N.ltb_spec ns 1000000000); [apply Gives_ret; do 2 eexists; split; [reflexivity | split; assumption]|].
      destruct (N.ltb_spec (secs + 1) (2 ^ 64)); [|apply Gives_fail; discriminate]. apply Gives_ret. do 2 eexists. split; [reflexivity|]. split; [assumption | lia].
  Qed.
  Lemma Gives_time n : Gives (de_time L c fm n) (fun v => exists s ns, v = VTime s ns /\ (0 <= s < 2 ^ 64)%Z /\ (s <= Z.of_N (time_max c))%Z /\ ns < 1000000000).
  Proof.
    unfold de_time. apply (Gives_bind _ _ (opt_of dur_of)); [apply Gives_opt, Gives_dur|].
    intros v [-> | (w & -> & s & ns & -> & Hs & Hn)].
    - apply Gives_ret. do 2 eexists. split; [reflexivity|]. lia.
    - destruct (N.leb_spec s (time_max c)); [|apply Gives_fail; discriminate]. apply Gives_ret. do 2 eexists. split; [reflexivity|].
      split; [|split; [lia | exact Hn]]. change (2 ^ 64)%Z with (Z.of_N (2 ^ 64)). lia.
  Qed.

  Section Helpers.
    Variable de : ty -> @pm dst val.
    Variable n : nat.
    Variable fit : ty -> val -> Prop.
    Hypothesis Hde : forall t, Gives (de t) (fit t).

    Lemma Gives_seq k t : Gives (de_seq L de n k t) (fun l => Forall (fit t) l /\ seq_inv k l).
    Proof.
      unfold de_seq. apply Gives_then; [apply Gives_expect|]. intros _.
      apply (Gives_bind _ _ (fun l => Forall (fit t) l /\ seq_inv k l)).
      - apply Gives_while; [|split; [constructor | apply seq_inv_nil]]. intros acc [H1 H2].
        apply (Gives_bind _ _ (fit t)); [apply Hde|]. intros v Hv. apply Gives_then; [apply Gives_eat|]. intros _. apply Gives_ret. split.
        + rewrite Forall_forall in *. intros y Hy. apply seq_add_In in Hy as [->|Hy]; auto.
        + apply seq_add_keeps. exact H2.
      - intros l Hl. apply Gives_then; [apply Gives_expect|]. intros _. apply Gives_ret. exact Hl.
    Qed.
    Lemma Gives_maps k tk tv : Gives (de_map L de n k tk tv) (fun l => Forall (fun e => fit tk (fst e) /\ fit tv (snd e)) l /\ map_inv k l).
    Proof.
      unfold de_map. apply Gives_then; [apply Gives_expect|]. intros _.
      apply (Gives_bind _ _ (fun l => Forall (fun e => fit tk (fst e) /\ fit tv (snd e)) l /\ map_inv k l)).
      - apply Gives_while; [|split; [constructor | apply map_inv_nil]]. intros acc [H1 H2].
        apply (Gives_bind _ _ (fit tk)); [apply Hde|]. intros x Hx. apply Gives_then; [apply Gives_expect|]. intros _.
        apply (Gives_bind _ _ (fit tv)); [apply Hde|]. intros y Hy.
        apply Gives_then; [apply Gives_eat|]. intros _. apply Gives_ret. split.
        + rewrite Forall_forall in *. intros e He. apply map_add_In in He as [->|He]; auto.
        + apply map_add_keeps. exact H2.
      - intros l Hl. apply Gives_then; [apply Gives_expect|]. intros _. apply Gives_ret. exact Hl.
    Qed.
    Lemma Gives_item t : Gives (de_item L fm de t) (fit t).
    Proof. unfold de_item. apply (Gives_bind _ _ (fit t)); [apply Hde|]. intros v Hv. apply Gives_then; [apply Gives_eat|]. intros _. apply Gives_ret. exact Hv. Qed.
    Lemma Gives_comma t : Gives (comma_block L fm de t) (fit t).
    Proof.
      intros s s' a Hs E. unfold comma_block in E. destruct (de t s) as [s1 r] eqn:E1. destruct r as [v|e|p|]; try discriminate.
      - destruct (Hde t _ _ _ Hs E1) as [I1 Hv]. destruct (eat_tcomma L fm s1) as [s2 [u|e|p|]] eqn:E2; try discriminate. injection E as <- <-.
        split; [|exact Hv]. exact (proj1 (Gives_eat _ _ _ _ _ I1 E2)).
      - destruct (eat_tcomma L fm s1) as [s2 [u|e2|p|]] eqn:E2; discriminate.
    Qed.
    Lemma Gives_list {B} (R : B -> val -> Prop) (xs : list B) (g : B -> @pm dst val) : (forall x, Gives (g x) (R x)) -> Gives (de_list (map g xs)) (Forall2 R xs).
    Proof.
      intro Hg. induction xs as [|x xs IH]; cbn [map de_list]; [apply Gives_ret; constructor|].
      apply (Gives_bind _ _ (R x)); [apply Hg|]. intros v Hv. apply (Gives_bind _ _ (Forall2 R xs)); [exact IH|]. intros l Hl. apply Gives_ret. constructor; assumption.
    Qed.
    Lemma Gives_bracketed {B} (R : B -> val -> Prop) (xs : list B) (g : B -> @pm dst val) : (forall x, Gives (g x) (R x)) -> Gives (de_bracketed L fm (map g xs)) (Forall2 R xs).
    Proof.
      intro Hg. unfold de_bracketed. apply Gives_then; [apply Gives_expect|]. intros _. apply (Gives_bind _ _ (Forall2 R xs)); [apply Gives_list, Hg|].
      intros l Hl. apply Gives_then; [apply Gives_expect|]. intros _. apply Gives_ret. exact Hl.
    Qed.
    Definition got (f : field) (v : val) : Prop := if f_isopt f && f_hasproxy f then exists w, v = VSome w /\ fit (f_ty f) w else fit (f_ty f) v.
    Lemma Gives_field f : Gives (de_field de f) (got f).
    Proof. unfold de_field, got. destruct (_ && _); [|apply Hde]. apply (Gives_map VSome _ (fit (f_ty f))); [apply Hde|]. eauto. Qed.
    Definition slot (f : field) (o : option val) : Prop := match o with Some v => f_skip f = false -> got f v | None => True end.
    Lemma slot_set fs : forall acc i f v, Forall2 slot fs acc -> nth_error fs i = Some f -> got f v -> Forall2 slot fs (set_nth i (Some v) acc).
    Proof.
      intros acc i f v H. revert i. induction H as [|g o fs acc Hg Ha IH]; intros i Hi Hv; [destruct i; discriminate|].
      destruct i as [|i]; cbn [nth_error set_nth] in *; [injection Hi as ->; constructor; [intros _; exact Hv | exact Ha]|]. constructor; [exact Hg | apply IH; assumption].
    Qed.
    Lemma Gives_whole : Gives (whole_field L n) Tr.
    Proof.
      assert (Hl : forall m d, Gives (whole_loop L m d) Tr).
      { induction m as [|m IH]; intro d; cbn [whole_loop]; [apply Gives_fail; discriminate|].
        intros s s' a Hs E. match type of E with pbind _ ?k s = _ => refine (Gives_then _ k Tr Gives_next _ s s' a Hs E) end. intros _.
        destruct (_ =? 0); [apply Gives_ret; exact I | apply IH]. }
      intros s s' a Hs E. unfold whole_field in E. destruct (l_tok L s); try discriminate; try (exact (Gives_next s s' a Hs E)); exact (Hl n 0 s s' a Hs E).
    Qed.
    Lemma Gives_named_body fs acc : Forall2 slot fs acc -> Gives (named_body L fm de n fs acc) (Forall2 slot fs).
    Proof.
      intro Ha. unfold named_body. apply (Gives_bind _ _ (Forall2 slot fs)).
      - intros s s' a Hs E. destruct (find_field (key_of L fm s) fs 0) as [[i f]|] eqn:Ef.
        + apply find_field_spec in Ef as (p & -> & Hp & Hsk & _). cbn [Nat.add] in E.
          refine (Gives_then (p_next_colon L) _ (Forall2 slot fs) _ _ s s' a Hs E).
          * unfold p_next_colon. apply Gives_then; [apply Gives_next|]. intros _. apply Gives_expect.
          * intros _. apply (Gives_bind _ _ (got f)); [apply Gives_field|]. intros v Hv. apply Gives_ret. eapply slot_set; eassumption.
        + assert (H : Gives (pbind (p_next_colon L) (fun _ => pbind (whole_field L n) (fun _ => pret acc))) (Forall2 slot fs)).
          { apply Gives_then.
            - unfold p_next_colon. apply Gives_then; [apply Gives_next|]. intros _. apply Gives_expect.
            - intros _. apply Gives_then; [apply Gives_whole|]. intros _. apply Gives_ret. exact Ha. }
          destruct fs as [|f0 fs0]; [injection E as <- <-; auto|]. destruct fm; [exact (H s s' a Hs E) | discriminate].
      - intros acc' Ha'. apply Gives_then; [apply Gives_eat|]. intros _. apply Gives_ret. exact Ha'.
    Qed.
    Lemma Gives_unwrap dflt f o : slot f o -> Gives (unwrap_field L dflt f o) (field_valid fit dflt f).
    Proof.
      intro Hs. unfold unwrap_field, field_valid, omitted_value. destruct o as [v|].
      - destruct (f_skip f) eqn:Esk; apply Gives_ret; [reflexivity|]. right. apply Hs. exact Esk.
      - destruct (f_default f) as [d|] eqn:Ed; [apply Gives_ret; destruct (f_skip f); [reflexivity|]; left; split; [reflexivity|]; left; discriminate|].
        destruct (f_skip f) eqn:Esk; cbn [orb]; [apply Gives_ret; reflexivity|]. destruct (f_isopt f || dflt) eqn:Eo; [|apply Gives_perr].
        apply Gives_ret. left. split; [reflexivity|]. right. apply orb_prop in Eo. exact Eo.
    Qed.
    Lemma Gives_unwraps dflt fs l : Forall2 slot fs l -> Gives (unwrap_fields L dflt fs l) (Forall2 (field_valid fit dflt) fs).
    Proof.
      induction 1 as [|f o fs l Hs H IH]; cbn [unwrap_fields]; [apply Gives_ret; constructor|].
      apply (Gives_bind _ _ (field_valid fit dflt f)); [apply Gives_unwrap; exact Hs|]. intros v Hv.
      apply (Gives_bind _ _ (Forall2 (field_valid fit dflt) fs)); [exact IH|]. intros r Hr. apply Gives_ret. constructor; assumption.
    Qed.
    Lemma Gives_named dflt fs : Gives (de_named L fm de n dflt fs) (Forall2 (field_valid fit dflt) fs).
    Proof.
      unfold de_named. apply Gives_then; [apply Gives_expect|]. intros _. apply (Gives_bind _ _ (Forall2 slot fs)).
      - apply Gives_while; [intros; apply Gives_named_body; assumption|]. induction fs; constructor; [exact I | assumption].
      - intros l Hl. apply Gives_then; [apply Gives_expect|]. intros _. apply Gives_unwraps. exact Hl.
    Qed.
    Definition enum_of (vs : list variant) (v : val) : Prop :=
      match v with
      | VEnum tag l =>
        match nth_error vs (N.to_nat tag) with
        | None => False
        | Some vr => match v_body vr with BUnit => l = [] | BTuple ts => Forall2 fit ts l | BStruct fs => Forall2 (field_valid fit false) fs l end
        end
      | _ => False
      end.
    Lemma find_variant_nth p vs : forall i j v, find_variant p vs i = Some (j, v) -> p v = true /\ exists q, j = i + N.of_nat q /\ nth_error vs q = Some v.
    Proof.
      induction vs as [|x vs IH]; intros i j v H; cbn [find_variant] in H; [discriminate|]. destruct (p x) eqn:E.
      - injection H as <- <-. split; [exact E|]. exists O. split; [lia | reflexivity].
      - destruct (IH _ _ _ H) as (H1 & q & -> & H2). split; [exact H1|]. exists (S q). split; [lia | exact H2].
    Qed.
    Lemma Gives_body vs q v : nth_error vs q = Some v -> Gives (de_body L fm de n (N.of_nat q) (v_body v)) (enum_of vs).
    Proof.
      intro Hq. unfold de_body.
      assert (He : forall l, match v_body v with BUnit => l = [] | BTuple ts => Forall2 fit ts l | BStruct fs => Forall2 (field_valid fit false) fs l end -> enum_of vs (VEnum (N.of_nat q) l)).
      { intros l H. unfold enum_of. rewrite Nat2N.id, Hq. exact H. }
      destruct (v_body v) as [|ts|fs].
      - apply Gives_ret. apply He. reflexivity.
      - apply (Gives_map _ _ (Forall2 fit ts)); [|exact He]. apply Gives_bracketed. apply Gives_item.
      - apply (Gives_map _ _ (Forall2 (field_valid fit false) fs)); [|exact He]. apply Gives_named.
    Qed.
    Lemma Gives_enum_json vs : Gives (de_enum_json L fm de n vs) (enum_of vs).
    Proof.
      intros s s' a Hs E. unfold de_enum_json in E. destruct (_ && _).
      - revert s s' a Hs E. match goal with |- forall s s' a, Inv s -> ?m s = _ -> _ => change (Gives m (enum_of vs)) end.
        apply Gives_then; [apply Gives_expect|]. intros _. apply Gives_then; [apply Gives_expect|]. intros _. apply Gives_then; [apply Gives_expect|]. intros _.
        intros s s' a Hs E. destruct (find_variant _ vs 0) as [[i v]|] eqn:Ef; [|discriminate].
        apply find_variant_nth in Ef as (_ & q & -> & Hq). cbn [N.add] in E.
        refine (Gives_bind _ _ (enum_of vs) _ (Gives_body _ _ _ Hq) _ s s' a Hs E). intros r Hr. apply Gives_then; [apply Gives_expect|]. intros _. apply Gives_ret. exact Hr.
      - destruct (_ && _); [|discriminate].
        revert s s' a Hs E. match goal with |- forall s s' a, Inv s -> ?m s = _ -> _ => change (Gives m (enum_of vs)) end.
        apply Gives_then; [apply Gives_expect|]. intros _.
        intros s s' a Hs E. destruct (find_variant _ vs 0) as [[i v]|] eqn:Ef; [|discriminate].
        apply find_variant_nth in Ef as (Hu & q & -> & Hq). injection E as <- <-. split; [exact Hs|]. unfold enum_of. change (0 + N.of_nat q) with (N.of_nat q). rewrite Nat2N.id, Hq.
        unfold is_unit in Hu. destruct (v_body v); try discriminate. reflexivity.
    Qed.
    Lemma Gives_enum_ron vs : Gives (de_enum_ron L fm de n vs) (enum_of vs).
    Proof.
      unfold de_enum_ron. apply Gives_then; [apply Gives_expect|]. intros _.
      intros s s' a Hs E. destruct (find_variant _ vs 0) as [[i v]|] eqn:Ef; [|discriminate].
      apply find_variant_nth in Ef as (_ & q & -> & Hq). exact (Gives_body _ _ _ Hq s s' a Hs E).
    Qed.
    Lemma Gives_unnamed tr fs : Gives (de_unnamed L fm de tr fs) (Forall2 (fun f => fit (f_ty f)) fs).
    Proof.
      assert (Hm : Gives (de_bracketed L fm (map (fun f => de_item L fm de (f_ty f)) fs)) (Forall2 (fun f => fit (f_ty f)) fs)).
      { apply (Gives_bracketed (fun f => fit (f_ty f))). intro f. apply Gives_item. }
      assert (H0 : Gives (pbind (expect L KCurlyOpen (chars "{")) (fun _ => pbind (expect L KCurlyClose (chars "}")) (fun _ => pret []))) (Forall2 (fun f => fit (f_ty f)) [])).
      { apply Gives_then; [apply Gives_expect|]. intros _. apply Gives_then; [apply Gives_expect|]. intros _. apply Gives_ret. constructor. }
      assert (H1 : forall f, Gives (de_bracketed L fm [de (f_ty f)]) (Forall2 (fun f => fit (f_ty f)) [f])).
      { intro f. apply (Gives_bracketed (fun f => fit (f_ty f)) [f] (fun f => de (f_ty f))). intro g. apply Hde. }
      unfold de_unnamed. destruct fm; [|exact Hm]. destruct fs as [|f [|f2 fs]]; [exact H0| |exact Hm].
      destruct tr; [|apply H1]. apply (Gives_map _ _ (fit (f_ty f))); [apply Hde|]. intros v Hv. constructor; [exact Hv | constructor].
    Qed.
  End Helpers.

  Hypothesis HF : flt_bits F.
  Lemma float_src_bits b : float_src b -> b < 2 ^ 64.
  Proof. intros [(s & _ & H)|(z & _ & ->)]; [apply (parse64_bits _ HF _ _ H) | apply (of_z_bits _ HF)]. Qed.
  Theorem Gives_text n : forall t, Gives (de_text L F c G fm n t) (text_valid c G n t).
  Proof.
    induction n as [|n IH]; intro t; cbn [de_text]; [apply Gives_fail; discriminate|].
    destruct t as [k| | | | | |t|k t|k tk tv|m t|ts|t| | |p t|i]; cbn [text_valid].
    - eapply Gives_weaken; [|apply Gives_int]. intros a (z & -> & H). exact H.
    - apply (Gives_map _ _ float_src); [apply Gives_f64|]. intros. apply (of_f64_bits _ HF).
    - apply (Gives_map _ _ float_src); [apply Gives_f64|]. apply float_src_bits.
    - eapply Gives_weaken; [|apply Gives_bool]. intros a (b & ->). exact I.
    - apply (Gives_map _ _ (Forall scalar)); [apply Gives_str|]. auto.
    - assert (HJ : forall k w, Gives (pbind (expect L k w) (fun _ => pret VUnit)) (fun v => match v with VUnit => True | _ => False end)).
      { intros k w. apply Gives_then; [apply Gives_expect|]. intros _. apply Gives_ret. exact I. }
      assert (HR : Gives (pbind (expect L KParenOpen (chars "(")) (fun _ => pbind (expect L KParenClose (chars ")")) (fun _ => pret VUnit))) (fun v => match v with VUnit => True | _ => False end)).
      { apply Gives_then; [apply Gives_expect|]. intros _. apply HJ. }
      destruct fm; [apply HJ | exact HR].
    - eapply Gives_weaken; [|apply (Gives_opt _ (text_valid c G n t)); apply IH]. intros a [-> | (w & -> & H)]; [exact I | exact H].
    - apply (Gives_map _ _ (fun l => Forall (text_valid c G n t) l /\ seq_inv k l)); [apply Gives_seq; exact IH | auto].
    - apply (Gives_map _ _ (fun l => Forall (fun e => text_valid c G n tk (fst e) /\ text_valid c G n tv (snd e)) l /\ map_inv k l)); [apply Gives_maps; exact IH | auto].
    - replace (repeat (de_item L fm (de_text L F c G fm n) t) m) with (map (fun t => de_item L fm (de_text L F c G fm n) t) (repeat t m)) by (clear; induction m; cbn; congruence).
      apply (Gives_map _ _ (Forall2 (text_valid c G n) (repeat t m))); [apply Gives_bracketed; intro; apply Gives_item; exact IH|].
      intros l Hl. clear -Hl. revert l Hl. induction m as [|m IHm]; intros l Hl; cbn [repeat] in Hl; inversion Hl as [|? ? ? ? H1 H2]; subst; [split; [reflexivity | constructor]|].
      destruct (IHm _ H2) as [<- H3]. split; [reflexivity | constructor; assumption].
    - destruct (tuple_arity (length ts)); [|apply Gives_fail; discriminate].
      apply (Gives_map _ _ (Forall2 (text_valid c G n) ts)); [|auto]. apply Gives_bracketed. intro. apply Gives_comma. exact IH.
    - apply IH.
    - eapply Gives_weaken; [|apply Gives_dur]. intros a (s & ns & -> & H). exact H.
    - eapply Gives_weaken; [|apply Gives_time]. intros a (s & ns & -> & H). exact H.
    - destruct fm; [|apply Gives_fail; discriminate]. apply (Gives_map _ _ (text_valid c G n t)); [apply IH|]. eauto.
    - destruct (nth_error G i) as [[dflt cnull fs|tr fs|vs|p t]|]; [| | | |apply Gives_fail; discriminate].
      + apply (Gives_map _ _ (Forall2 (field_valid (text_valid c G n) dflt) fs)); [apply Gives_named; exact IH | auto].
      + destruct (existsb f_hasproxy fs); [apply Gives_fail; discriminate|].
        assert (H : Gives (pmap VSeq (de_unnamed L fm (de_text L F c G fm n) tr fs)) (fun v => match v with VSeq l => Forall2 (fun f => text_valid c G n (f_ty f)) fs l | _ => False end)).
        { apply (Gives_map _ _ (Forall2 (fun f => text_valid c G n (f_ty f)) fs)); [apply Gives_unnamed; exact IH | auto]. }
        destruct fm; [exact H|]. destruct fs; [apply Gives_fail; discriminate | exact H].
      + eapply Gives_weaken with (P := enum_of (text_valid c G n) vs); [intros a Ha; destruct a; exact Ha|].
        pose proof (Gives_enum_json (de_text L F c G fm n) n (text_valid c G n) IH vs) as HJ. pose proof (Gives_enum_ron (de_text L F c G fm n) n (text_valid c G n) IH vs) as HR.
        destruct fm; [exact HJ | exact HR].
      + destruct fm; [|apply Gives_fail; discriminate]. apply (Gives_map _ _ (text_valid c G n t)); [apply IH|]. intros a Ha. eauto.
  Qed.
End Gives.
