(** Round trip through the text formats: what a writer produces is read back. *)
From Verif Require Import Base Utf8 Types BinModel BinRead Text TextModel TextSim TextToks TextLex TextRead SpecText.
Local Open Scope N_scope.

(** Lists of existentials, common bounds. *)
Lemma Forall_exists2 {A B} (P : A -> B -> Prop) l :
  Forall (fun x => exists y, P x y) l -> exists ys, Forall2 P l ys.
Proof.
  induction 1 as [|x l [y Hy] H [ys IH]]; [exists []; constructor|]. exists (y :: ys). constructor; assumption.
Qed.
Lemma Forall2_exists3 {A B C} (P : A -> B -> C -> Prop) l m :
  Forall2 (fun x y => exists z, P x y z) l m ->
  exists zs, Forall2 (fun xy z => P (fst xy) (snd xy) z) (combine l m) zs.
Proof.
  induction 1 as [|x y l m [z Hz] H [zs IH]]; [exists []; constructor|]. exists (z :: zs). constructor; assumption.
Qed.
Lemma common_fuel {A} (Q : nat -> A -> Prop) l :
  Forall (fun x => exists N, forall n, (N <= n)%nat -> Q n x) l ->
  exists N, forall n, (N <= n)%nat -> Forall (Q n) l.
Proof.
  induction 1 as [|x l [N1 H1] H [N2 IH]]; [exists O; constructor|].
  exists (N1 + N2)%nat. intros n Hn. constructor; [apply H1; lia | apply IH; lia].
Qed.
Lemma common_fuel2 {A B} (Q : nat -> A -> B -> Prop) l m :
  Forall2 (fun x y => exists N, forall n, (N <= n)%nat -> Q n x y) l m ->
  exists N, forall n, (N <= n)%nat -> Forall2 (Q n) l m.
Proof.
  induction 1 as [|x y l m [N1 H1] H [N2 IH]]; [exists O; constructor|].
  exists (N1 + N2)%nat. intros n Hn. constructor; [apply H1; lia | apply IH; lia].
Qed.
Lemma Forall2_map_r {A B C} (R : A -> C -> Prop) (f : B -> C) l m :
  Forall2 (fun x y => R x (f y)) l m -> Forall2 R l (map f m).
Proof. induction 1; simpl; constructor; auto. Qed.
Lemma Forall2_map_l {A B C} (R : C -> B -> Prop) (f : A -> C) l m :
  Forall2 (fun x y => R (f x) y) l m -> Forall2 R (map f l) m.
Proof. induction 1; simpl; constructor; auto. Qed.
Lemma Forall2_imp {A B} (R S : A -> B -> Prop) l m : (forall x y, R x y -> S x y) -> Forall2 R l m -> Forall2 S l m.
Proof. intros H. induction 1; constructor; auto. Qed.
Lemma Forall2_right {A B} (R : A -> B -> Prop) (P : B -> Prop) l m :
  (forall x y, R x y -> P y) -> Forall2 R l m -> Forall P m.
Proof. intros H. induction 1; constructor; eauto. Qed.
Lemma Forall2_length2 {A B} (R : A -> B -> Prop) l m : Forall2 R l m -> length l = length m.
Proof. induction 1; simpl; congruence. Qed.

Section Round.
  Variable F : flt.
  Variable c : cfg.
  Variable G : env.
  Variable fm : fmt.
  Hypothesis HF : flt_ok F.
  Hypothesis Hc : cfg_ok c.

  Notation ser := (ser_text F c G fm).
  Notation de := (de_text tok_lexer F c G fm).
  Notation lexes := (lexes F fm).
  Notation lexes_any := (lexes_any F fm).

  (** Does the token list start with the absent option? *)
  Definition none_toks (l : list ltok) : bool :=
    match fm, l with
    | Json, LP KNull :: _ => true
    | Ron, LId s :: _ => str_eqb s (chars "None")
    | _, _ => false
    end.

  Definition readable (t : ty) (l : list ltok) (v : val) : Prop :=
    exists N, forall n, (N <= n)%nat -> reads (de n t) l v.
  Record wrote (out : str) (l : list ltok) (t : ty) (v : val) : Prop := {
    w_lex : lexes out l;
    w_vt : vtoks fm l;
    w_read : readable t l v
  }.
  Definition written (n : nat) (t : ty) (v : val) (w : str * list ltok) : Prop :=
    (forall m, (n <= m)%nat -> ser m t v = Ok (fst w)) /\ wrote (fst w) (snd w) t v /\
    none_toks (snd w) = looks_none G fm n t v.

  Lemma none_at u l tail b : vtoks fm l -> at_ u (l ++ tail) b -> at_none tok_lexer fm u = none_toks l.
  Proof.
    intros Hv Ha. destruct (vtoks_head _ _ Hv) as (x & r & -> & Hx). cbn [app] in Ha.
    unfold at_none, none_toks. rewrite (tok_at _ _ _ _ Ha). destruct Ha as (Ht & _ & Hl). unfold loaded in Hl. rewrite Ht in Hl.
    destruct fm; destruct x as [| |[]]; try reflexivity; try contradiction. cbn. rewrite Hl. reflexivity.
  Qed.

  (** ** Scalars *)
  Lemma cast_int k z : int_ok c k z -> cast c k z = z.
  Proof.
    intro H. unfold cast. destruct k; try (apply (of_bits_to_bits c); [try discriminate|assumption]).
    unfold int_ok, ik_min, ik_sup in H. cbn in H. apply Z.mod_small. lia.
  Qed.

  Lemma sup_le k : (ik_sup c k <= 2 ^ 128)%Z.
  Proof.
    destruct k; cbn; try lia. unfold usize_mod. destruct Hc as [-> | ->]; cbn; lia.
  Qed.
  Lemma int_read k z : k <> U128 -> k <> I128 -> int_ok c k z ->
    exists l, lexes (dec_z z) [l] /\ scalar_tok fm l = true /\ none_toks [l] = false /\
              reads (de_int tok_lexer c k) [l] (VZ z).
  Proof.
    intros K1 K2 Hz.
    assert (Hpos : (0 <= z < 2 ^ 64)%Z -> lexes (dec_z z) [LP (KU64 (Z.to_N z))]).
    { intro H. unfold dec_z. replace (z <? 0)%Z with false by lia. apply lexes_dec. lia. }
    destruct (ik_signed k) eqn:Es.
    - assert (Hr : (- i_bound k <= z < i_bound k)%Z /\ (i_bound k <= 2 ^ 63)%Z).
      { unfold int_ok, ik_min, ik_sup in Hz. destruct k; try discriminate Es; cbn in *; try lia; congruence. }
      destruct Hr as [Hr Hb].
      assert (Ed : forall u, de_int tok_lexer c k u =
        pbind (i64_range tok_lexer (- i_bound k) (i_bound k - 1)) (fun v =>
           pbind (l_next tok_lexer) (fun _ => pret (VZ (cast c k v)))) u).
      { intro u. unfold de_int. rewrite Es. destruct k; try discriminate Es; try reflexivity. congruence. }
      destruct (Z.ltb_spec z 0).
      + exists (LP (KI64 z)). split.
        { unfold dec_z. replace (z <? 0)%Z with true by lia.
          replace z with (- Z.of_N (Z.to_N (- z)))%Z at 2 by lia. apply lexes_neg. lia. }
        split; [reflexivity|]. split; [unfold none_toks; destruct fm; reflexivity|].
        intros tail b u Hd Ha. rewrite Ed. revert tail b u Hd Ha.
        apply (reads_one _ (fun v => pret (VZ (cast c k v))) (LP (KI64 z)) z).
        * intros u tail b Ha. exists u. split; [|exact Ha]. unfold i64_range. rewrite (tok_at _ _ _ _ Ha). cbn [ltok_kind].
          replace (z <? - i_bound k)%Z with false by lia. reflexivity.
        * intro u. rewrite cast_int by assumption. reflexivity.
      + exists (LP (KU64 (Z.to_N z))). split; [apply Hpos; lia|].
        split; [reflexivity|]. split; [unfold none_toks; destruct fm; reflexivity|].
        intros tail b u Hd Ha. rewrite Ed. revert tail b u Hd Ha.
        apply (reads_one _ (fun v => pret (VZ (cast c k v))) (LP (KU64 (Z.to_N z))) z).
        * intros u tail b Ha. exists u. split; [|exact Ha]. unfold i64_range. rewrite (tok_at _ _ _ _ Ha). cbn [ltok_kind].
          unfold u64_as_i64. replace (Z.to_N z <? 2 ^ 63) with true by lia.
          rewrite Z2N.id by lia. replace (i_bound k - 1 <? z)%Z with false by lia. reflexivity.
        * intro u. rewrite cast_int by assumption. reflexivity.
    - assert (Hr : (0 <= z <= Z.of_N (u_max k))%Z /\ u_max k < 2 ^ 64).
      { unfold int_ok, ik_min, ik_sup in Hz. destruct k; try discriminate Es; cbn in *; try lia; try congruence.
        unfold usize_mod in Hz. destruct Hc as [E|E]; rewrite E in Hz; cbn in Hz; lia. }
      destruct Hr as [Hr Hm].
      exists (LP (KU64 (Z.to_N z))). split; [apply Hpos; lia|].
      split; [reflexivity|]. split; [unfold none_toks; destruct fm; reflexivity|].
      assert (Ed : forall u, de_int tok_lexer c k u =
        pbind (u64_range tok_lexer (u_max k)) (fun v =>
           pbind (l_next tok_lexer) (fun _ => pret (VZ (cast c k (Z.of_N v))))) u).
      { intro u. unfold de_int. rewrite Es. destruct k; try discriminate Es; try reflexivity. congruence. }
      intros tail b u Hd Ha. rewrite Ed. revert tail b u Hd Ha.
      apply (reads_one _ (fun v => pret (VZ (cast c k (Z.of_N v)))) (LP (KU64 (Z.to_N z))) (Z.to_N z)).
      + intros u tail b Ha. exists u. split; [|exact Ha]. unfold u64_range. rewrite (tok_at _ _ _ _ Ha). cbn [ltok_kind].
        replace (u_max k <? Z.to_N z) with false by lia. reflexivity.
      + intro u. rewrite Z2N.id by lia. rewrite cast_int by assumption. reflexivity.
  Qed.

  Lemma all_digits_b d : all_digits d -> d <> [] /\ forallb is_digit d = true.
  Proof.
    intros [H1 H2]. split; [assumption|]. apply forallb_forall. intros x Hx. rewrite Forall_forall in H2.
    apply digit_range. auto.
  Qed.
  Lemma float_lex s b : float_text s -> f64_parse F s = Some b -> lexes s [LP (KF64 b)].
  Proof.
    intros (sg & ip & fr & ex & -> & Hsg & Hip & _ & Hfr & Hex & Hne) Hp.
    apply all_digits_b in Hip as [Hi1 Hi2].
    assert (Hfr' : fr = [] \/ exists d, fr = c_dot :: d /\ forallb is_digit d = true).
    { destruct Hfr as [->|(d & -> & Hd)]; [left; reflexivity|]. right. exists d. split; [reflexivity|]. apply all_digits_b; assumption. }
    assert (Hex' : ex = [] \/ exists e s d, ex = e :: s ++ d /\ (e = 101 \/ e = 69) /\ (s = [] \/ s = [c_minus]) /\ d <> [] /\ forallb is_digit d = true).
    { destruct Hex as [->|(es & d & -> & Hs & Hd)]; [left; reflexivity|]. right. exists 101, es, d. apply all_digits_b in Hd as [D1 D2]. auto 6. }
    apply lexes_num.
    - destruct sg, ip; try discriminate; congruence.
    - destruct Hsg as [-> | ->]; [|reflexivity]. cbn [app]. destruct ip as [|x ip]; [congruence|]. cbn [app cur].
      cbn [forallb] in Hi2. apply andb_prop in Hi2 as [Hx _]. unfold num_start. rewrite Hx. rewrite !orb_true_r. reflexivity.
    - intros rest Hr. exists true. split; [|unfold num_tok; rewrite Hp; reflexivity].
      rewrite <- !app_assoc. rewrite (scan_num_parts sg ip fr ex rest Hsg Hi1 Hi2 Hfr' Hex' Hr).
      f_equal. destruct fr, ex; try reflexivity. exfalso. destruct Hne; congruence.
  Qed.
  Lemma f64_read b : reads (de_f64 tok_lexer F) [LP (KF64 b)] b.
  Proof.
    apply (reads_one _ (fun b => pret b) (LP (KF64 b)) b).
    - intros u tail bb Ha. exists u. split; [|exact Ha]. unfold as_f64. rewrite (tok_at _ _ _ _ Ha). reflexivity.
    - reflexivity.
  Qed.
  Lemma bool_read b : reads (de_bool tok_lexer fm) [LP (KBool b)] (VBool b).
  Proof.
    apply (reads_one _ (fun b => pret (VBool b)) (LP (KBool b)) b).
    - intros u tail bb Ha. exists u. split; [|exact Ha]. unfold as_bool. rewrite (tok_at _ _ _ _ Ha). destruct fm; reflexivity.
    - reflexivity.
  Qed.
  Lemma str_at u s tail b : at_ u (LStr s :: tail) b -> go_on tail b ->
    exists u', de_str tok_lexer u = (u', Ok s) /\ at_ u' tail b.
  Proof.
    intros Ha Hg. unfold de_str, as_string.
    assert (E : (if tok_is (l_tok tok_lexer u) KStr then (l_take tok_lexer u, Ok (l_str tok_lexer u))
                 else err_token tok_lexer (chars "string") u) = (l_take tok_lexer u, Ok (E:=terr) s)).
    { rewrite (tok_at _ _ _ _ Ha). cbn. destruct Ha as (H1 & _ & H3). unfold loaded in H3. rewrite H1 in H3. rewrite H3. reflexivity. }
    destruct Ha as (H1 & H2 & H3).
    destruct (next_raw (l_take tok_lexer u) (LStr s) tail b) as (u' & E2 & Ha2 & _); [exact H1 | exact H2 | exact Hg |].
    exists u'. split; [|exact Ha2].
    rewrite (pbind_ok _ _ _ _ _ E). unfold pbind. cbn [l_next tok_lexer] in *. rewrite E2. reflexivity.
  Qed.
  Lemma str_read s : reads (de_str tok_lexer) [LStr s] s.
  Proof. intros tail b u Hd Ha. apply str_at; [exact Ha | apply delim_go; exact Hd]. Qed.

  Lemma expect_reads k w x : tok_is (ltok_kind x) k = true -> reads (expect tok_lexer k w) [x] tt.
  Proof.
    intros Hk tail b u Hd Ha. destruct (expect_at k w u x tail b Ha Hk (delim_go _ _ Hd)) as (u' & E & Ha' & _).
    eauto.
  Qed.

  (** ** Duration *)
  Definition dur_toks (s ns : N) : list ltok :=
    LP KCurlyOpen ::
    jt ([LStr (chars "secs"); LP KColon; LP (KU64 s)] ::
        (if ns =? 0 then [] else [[LStr (chars "nanos"); LP KColon; LP (KU64 ns)]])) false ++ [LP KCurlyClose].
  Lemma esc_plain s : forallb (fun x => negb ((x <? 32) || (x =? 127) || (x =? 34) || (x =? 92))) s = true ->
    esc_str Json s = c_quote :: s ++ [c_quote].
  Proof.
    intro H. unfold esc_str. f_equal. f_equal. induction s as [|x s IH]; [reflexivity|].
    cbn [forallb] in H. apply andb_prop in H as [Hx H]. cbn [flat_map]. rewrite IH by assumption.
    rewrite negb_true_iff, !orb_false_iff, N.ltb_ge in Hx. destruct Hx as [[[X1 X2] X3] X4].
    unfold esc_char, c_bslash, c_quote. rewrite X2, X3, X4.
    repeat match goal with |- context [x =? ?k] => replace (x =? k) with false by (symmetry; apply N.eqb_neq; lia) end.
    replace (x <? 32) with false by lia. reflexivity.
  Qed.
  Lemma dur_lex s ns : s < 2 ^ 64 -> ns < 1000000000 -> lexes_any (ser_dur s ns) (dur_toks s ns).
  Proof.
    intros Hs Hn. unfold ser_dur, dur_toks. apply lexes_wrap_c.
    rewrite !esc_plain by reflexivity.
    assert (Hf : forall k n, forallb plain k = true -> n < 2 ^ 64 ->
      lexes ((c_quote :: k ++ [c_quote]) ++ c_colon :: dec n) [LStr k; LP KColon; LP (KU64 n)]).
    { intros k n Hk Hn'. change (c_colon :: dec n) with ([c_colon] ++ dec n).
      apply (lexes_app_r F fm (c_quote :: k ++ [c_quote]) ([c_colon] ++ dec n) [LStr k] [LP KColon; LP (KU64 n)]).
      - apply lexes_plain; assumption.
      - apply (lexes_app_r F fm [c_colon] (dec n) [LP KColon] [LP (KU64 n)]); [apply lexes_colon | apply lexes_dec; assumption]. }
    destruct (ns =? 0) eqn:E.
    - rewrite app_nil_r. cbn [jt]. rewrite app_nil_r. apply Hf; [reflexivity | assumption].
    - pose proof (lexes_join F fm [c_comma]
        [(c_quote :: chars "secs" ++ [c_quote]) ++ c_colon :: dec s; (c_quote :: chars "nanos" ++ [c_quote]) ++ c_colon :: dec ns]
        [[LStr (chars "secs"); LP KColon; LP (KU64 s)]; [LStr (chars "nanos"); LP KColon; LP (KU64 ns)]]) as HJ.
      cbn [join] in HJ. rewrite <- !app_assoc in HJ. apply HJ.
      + apply lexes_comma.
      + discriminate.
      + right; reflexivity.
      + repeat constructor; apply Hf; try reflexivity; lia.
  Qed.

  Definition dur_item (a : option N * option N) : @pm tst (option N * option N) :=
    pbind (de_str tok_lexer) (fun key =>
      if str_eqb key (chars "secs") then
             match fst a with
             | Some _ => perr tok_lexer (CannotParse (chars "Duration can only have one secs field"))
             | None => pbind (p_colon tok_lexer) (fun _ => pbind (de_u64 tok_lexer U64) (fun v => pret (Some v, snd a)))
             end
           else if str_eqb key (chars "nanos") then
             match snd a with
             | Some _ => perr tok_lexer (CannotParse (chars "Duration can only have one nanos field"))
             | None => pbind (p_colon tok_lexer) (fun _ => pbind (de_u64 tok_lexer U32) (fun v => pret (fst a, Some v)))
             end
           else perr tok_lexer (CannotParse (chars "Duration can only have secs or nanos fields, got " ++ key))).
  Lemma pbind_assoc {A B C} (m : @pm tst A) (f : A -> @pm tst B) (g : B -> @pm tst C) u :
    pbind (pbind m f) g u = pbind m (fun a => pbind (f a) g) u.
  Proof. unfold pbind. destruct (m u) as [u1 [a|e|p|]]; reflexivity. Qed.
  Lemma u64_read k n : n <= u_max k -> reads (de_u64 tok_lexer k) [LP (KU64 n)] n.
  Proof.
    intro H. apply (reads_one _ (fun v => pret v) (LP (KU64 n)) n); [|reflexivity].
    intros u tail b Ha. exists u. split; [|exact Ha]. unfold u64_range. rewrite (tok_at _ _ _ _ Ha). cbn [ltok_kind].
    replace (u_max k <? n) with false by lia. reflexivity.
  Qed.
  Lemma not_close_cond cl u x r b : at_ u (x :: r) b -> tok_is (ltok_kind x) cl = false ->
    negb (tok_is (l_tok tok_lexer u) cl) = true.
  Proof. intros Ha H. rewrite (tok_at _ _ _ _ Ha), H. reflexivity. Qed.

  Lemma dur_read s ns : s < 2 ^ 64 -> ns < 1000000000 -> forall n, (2 < n)%nat ->
    reads (de_dur tok_lexer n) (dur_toks s ns) (VDur s ns).
  Proof.
    intros Hs Hns n Hn. unfold de_dur, dur_toks.
    set (ls := _ :: (if ns =? 0 then [] else _)).
    set (a := (Some s, if ns =? 0 then None else Some ns)).
    assert (Hss : steps (fun u => negb (tok_is (l_tok tok_lexer u) KCurlyClose)) dur_item (None, None) ls a).
    { apply (steps_cons _ _ _ _ (Some s, None)).
      - split; [intros tail b u Ha; eapply not_close_cond; [exact Ha | reflexivity]|].
        intros tail b u Hd Ha. unfold dur_item.
        destruct (str_at u _ _ _ Ha ltac:(left; discriminate)) as (u1 & E1 & Ha1).
        rewrite (pbind_ok _ _ _ _ _ E1). change (str_eqb (chars "secs") (chars "secs")) with true. cbn iota. cbn [fst snd].
        destruct (expect_at KColon (chars ":") u1 _ _ _ Ha1 eq_refl ltac:(left; discriminate)) as (u2 & E2 & Ha2 & _).
        unfold p_colon. rewrite (pbind_ok _ _ _ _ _ E2).
        destruct (u64_read U64 s ltac:(cbn; lia) tail b u2 Hd Ha2) as (u3 & E3 & Ha3).
        rewrite (pbind_ok _ _ _ _ _ E3). exists u3. split; [reflexivity | exact Ha3].
      - subst a. destruct (ns =? 0) eqn:E; [constructor|].
        apply (steps_cons _ _ _ _ (Some s, Some ns)); [|constructor].
        split; [intros tail b u Ha; eapply not_close_cond; [exact Ha | reflexivity]|].
        intros tail b u Hd Ha. unfold dur_item.
        destruct (str_at u _ _ _ Ha ltac:(left; discriminate)) as (u1 & E1 & Ha1).
        rewrite (pbind_ok _ _ _ _ _ E1).
        change (str_eqb (chars "nanos") (chars "secs")) with false.
        change (str_eqb (chars "nanos") (chars "nanos")) with true. cbn iota. cbn [fst snd].
        destruct (expect_at KColon (chars ":") u1 _ _ _ Ha1 eq_refl ltac:(left; discriminate)) as (u2 & E2 & Ha2 & _).
        unfold p_colon. rewrite (pbind_ok _ _ _ _ _ E2).
        destruct (u64_read U32 ns ltac:(cbn; lia) tail b u2 Hd Ha2) as (u3 & E3 & Ha3).
        rewrite (pbind_ok _ _ _ _ _ E3). exists u3. split; [reflexivity | exact Ha3]. }
    assert (Hcl : closing KCurlyClose) by (right; left; reflexivity).
    refine (reads_bracket KCurlyOpen KCurlyClose _ _ _ _ _ a (VDur s ns)
              (loop_at _ dur_item (dur_body tok_lexer) KCurlyClose (chars ", or }") _ Hcl _ ls _ a Hss n false _) Hcl eq_refl _).
    - intros a0 u. unfold dur_body, dur_item. rewrite pbind_assoc. reflexivity.
    - intros u tail b Ha. rewrite (tok_at _ _ _ _ Ha). reflexivity.
    - subst ls. destruct (ns =? 0); simpl; lia.
    - intro u. subst a. cbn [fst snd]. destruct (ns =? 0) eqn:E.
      + apply N.eqb_eq in E. subst ns. reflexivity.
      + replace (1000000000 <? ns) with false by lia. replace (ns <? 1000000000) with true by lia. reflexivity.
  Qed.
  Lemma dur_vtoks s ns : vtoks fm (dur_toks s ns).
  Proof.
    unfold dur_toks. apply vt_group; [right; left; auto|]. apply jt_bal.
    assert (Hb : forall k n, bal [LStr k; LP KColon; LP (KU64 n)]).
    { intros. do 3 (apply bal_cons; [reflexivity|]). constructor. }
    constructor; [apply Hb|]. destruct (ns =? 0); [constructor | constructor; [apply Hb | constructor]].
  Qed.

  (** ** Options *)
  Lemma none_text_lex : lexes (none_text fm) [match fm with Json => LP KNull | Ron => LId (chars "None") end].
  Proof.
    apply lexes_word; unfold none_text; destruct fm; try discriminate; reflexivity.
  Qed.
  Definition none_tok : ltok := match fm with Json => LP KNull | Ron => LId (chars "None") end.
  Lemma none_tok_scalar : scalar_tok fm none_tok = true.
  Proof. unfold none_tok. destruct fm; reflexivity. Qed.
  Lemma opt_none_read (d : @pm tst val) : reads (de_opt tok_lexer fm d) [none_tok] VNone.
  Proof.
    intros tail b u Hd Ha. unfold de_opt.
    rewrite (none_at u [none_tok] tail b (vt_scalar _ _ none_tok_scalar) Ha).
    replace (none_toks [none_tok]) with true by (unfold none_toks, none_tok; destruct fm; reflexivity).
    destruct (next_at _ _ _ _ Ha (delim_go _ _ Hd)) as (u' & E & Ha' & _).
    unfold pbind. cbn [l_next tok_lexer]. rewrite E. exists u'. split; [reflexivity | exact Ha'].
  Qed.
  Lemma opt_some_read (d : @pm tst val) l v : vtoks fm l -> none_toks l = false -> reads d l v ->
    reads (de_opt tok_lexer fm d) l (VSome v).
  Proof.
    intros Hv Hn Hr tail b u Hd Ha. unfold de_opt. rewrite (none_at u l tail b Hv Ha), Hn.
    apply (reads_map VSome d l v Hr tail b u Hd Ha).
  Qed.

  (** ** Sequences and maps: any list of elements, in any order, with duplicates *)
  Lemma seq_reads (d : ty -> @pm tst val) n k t ls vs tr :
    Forall2 (fun l v => vtoks fm l /\ reads (d t) l v) ls vs -> (length ls < n)%nat ->
    reads (de_seq tok_lexer d n k t) (LP KBlockOpen :: jt ls tr ++ [LP KBlockClose]) (seq_of k vs []).
  Proof.
    intros H Hn. unfold de_seq.
    set (item := fun acc => pbind (d t) (fun v => @pret tst _ (seq_add k v acc))).
    assert (Hss : forall acc, steps (fun u => negb (tok_is (l_tok tok_lexer u) KBlockClose)) item acc ls (seq_of k vs acc)).
    { clear Hn. induction H as [|l v ls vs [Hv Hr] H IH]; intros acc; [constructor|].
      apply (steps_cons _ _ _ _ (seq_add k v acc)); [|apply IH]. split.
      - intros tail b u Ha. destruct (vtoks_head _ _ Hv) as (x & r & -> & Hx). eapply not_close_cond; [exact Ha|].
        destruct x as [| |[]]; try reflexivity; contradiction.
      - apply (reads_ret_bind _ _ l v); [exact Hr | reflexivity]. }
    assert (Hcl : closing KBlockClose) by (left; reflexivity).
    refine (reads_bracket KBlockOpen KBlockClose _ _ _ _ _ _ _
              (loop_at _ item _ KBlockClose (chars ", or ]") _ Hcl _ ls _ _ (Hss []) n tr Hn) Hcl eq_refl (fun u => eq_refl)).
    - intros a0 u. unfold item. rewrite pbind_assoc. reflexivity.
    - intros u tail b Ha. rewrite (tok_at _ _ _ _ Ha). reflexivity.
  Qed.

  Lemma map_reads (d : ty -> @pm tst val) n k tk tv es kvs tr :
    Forall2 (fun e kv => (vtoks fm (fst e) /\ reads (d tk) (fst e) (fst kv)) /\
                         (vtoks fm (snd e) /\ reads (d tv) (snd e) (snd kv))) es kvs -> (length es < n)%nat ->
    reads (de_map tok_lexer d n k tk tv)
      (LP KCurlyOpen :: jt (map (fun e => fst e ++ LP KColon :: snd e) es) tr ++ [LP KCurlyClose]) (map_of k kvs []).
  Proof.
    intros H Hn. unfold de_map.
    set (item := fun acc => pbind (d tk) (fun x => pbind (p_colon tok_lexer) (fun _ => pbind (d tv) (fun y =>
                              @pret tst _ (map_add k x y acc))))).
    assert (Hss : forall acc, steps (fun u => negb (tok_is (l_tok tok_lexer u) KCurlyClose)) item acc
                    (map (fun e => fst e ++ LP KColon :: snd e) es) (map_of k kvs acc)).
    { clear Hn. induction H as [|e kv es kvs [[Hv1 Hr1] [Hv2 Hr2]] H IH]; intros acc; [constructor|].
      destruct e as [e1 e2]. cbn [map fst snd] in *.
      apply (steps_cons _ _ _ _ (map_add k (fst kv) (snd kv) acc)); [|apply IH]. split.
      - intros tail b u Ha. destruct (vtoks_head _ _ Hv1) as (x & r & -> & Hx). eapply not_close_cond; [exact Ha|].
        destruct x as [| |[]]; try reflexivity; contradiction.
      - intros tail b u Hd Ha. rewrite <- app_assoc in Ha. cbn [app] in Ha.
        destruct (Hr1 (LP KColon :: e2 ++ tail) b u eq_refl Ha) as (u1 & E1 & Ha1). unfold item. rewrite (pbind_ok _ _ _ _ _ E1).
        destruct (expect_at KColon (chars ":") u1 _ _ _ Ha1 eq_refl) as (u2 & E2 & Ha2 & _).
        { left. destruct (vtoks_head _ _ Hv2) as (x & r & -> & Hx). discriminate. }
        unfold p_colon. rewrite (pbind_ok _ _ _ _ _ E2).
        destruct (Hr2 _ b u2 Hd Ha2) as (u3 & E3 & Ha3). rewrite (pbind_ok _ _ _ _ _ E3).
        exists u3. split; [reflexivity | exact Ha3]. }
    assert (Hcl : closing KCurlyClose) by (right; left; reflexivity).
    refine (reads_bracket KCurlyOpen KCurlyClose _ _ _ _ _ _ _
              (loop_at _ item _ KCurlyClose (chars ", or }") _ Hcl _ _ _ _ (Hss []) n tr _) Hcl eq_refl (fun u => eq_refl)).
    - intros a0 u. unfold item. rewrite pbind_assoc. unfold pbind.
      destruct (d tk u) as [u1 [x|e|p|]]; try reflexivity.
      destruct (p_colon tok_lexer u1) as [u2 [x2|e|p|]]; try reflexivity.
      destruct (d tv u2) as [u3 [x3|e|p|]]; reflexivity.
    - intros u tail b Ha. rewrite (tok_at _ _ _ _ Ha). reflexivity.
    - rewrite map_length. exact Hn.
  Qed.

  (** ** Named fields *)
  Definition key_tok (s : str) : ltok := match fm with Json => LStr s | Ron => LId s end.

  Lemma good_key_lex s : good_name fm s -> lexes (label fm s) [key_tok s].
  Proof.
    unfold good_name, label, key_tok. destruct fm eqn:Ef.
    - intro H. apply lexes_weak. rewrite <- Ef. apply lexes_plain. apply forallb_forall. intros x Hx. unfold json_name in H.
      rewrite Forall_forall in H. destruct (H x Hx) as (X1 & X2 & X3).
      apply N.eqb_neq in X1, X2, X3. unfold plain. rewrite X1, X2, X3. reflexivity.
    - intros (H1 & H2 & H3 & H4 & H5). rewrite <- Ef. apply lexes_word; auto.
      + rewrite Ef. exact H3.
      + unfold id_tok. rewrite Ef. apply str_eqb_neq in H4, H5. rewrite H4, H5. reflexivity.
  Qed.
  Lemma field_hdr_lex s : good_name fm s -> lexes_any (field_hdr fm s) [key_tok s; LP KColon].
  Proof.
    intro H. replace (field_hdr fm s) with (label fm s ++ [c_colon]).
    - apply (lexes_app_l F fm (label fm s) [c_colon] [key_tok s] [LP KColon]);
        [apply good_key_lex; exact H | apply lexes_colon | discriminate | right; reflexivity].
    - unfold field_hdr, label. destruct fm; [|reflexivity]. simpl. rewrite <- app_assoc. reflexivity.
  Qed.

  Record trip := { r_f : field; r_v : val; r_o : option (list ltok) }.
  (** A field on the reader's side: written with these tokens, or left out. *)
  Definition trip_ok (d : ty -> @pm tst val) (dflt : bool) (r : trip) : Prop :=
    match r_o r with
    | Some l => f_skip (r_f r) = false /\ vtoks fm l /\ reads (de_field d (r_f r)) l (r_v r)
    | None => r_v r = omitted_value (r_f r) /\
              (f_skip (r_f r) = true \/ f_isopt (r_f r) = true \/ f_default (r_f r) <> None \/ dflt = true)
    end.
  Definition trip_acc (r : trip) : option val := match r_o r with Some _ => Some (r_v r) | None => None end.
  Definition field_toks (r : trip) : list (list ltok) :=
    match r_o r with Some l => [key_tok (field_key (r_f r)) :: LP KColon :: l] | None => [] end.

  Lemma set_nth_app {A} (a : list A) x y r : set_nth (length a) x (a ++ y :: r) = a ++ x :: r.
  Proof. induction a as [|z a IH]; simpl; [reflexivity|]. rewrite IH. reflexivity. Qed.

  Definition live (f : field) : bool := negb (f_skip f).
  Lemma find_field_nodup fs1 f fs2 i : f_skip f = false ->
    NoDup (map field_key (filter live (fs1 ++ f :: fs2))) ->
    find_field (field_key f) (fs1 ++ f :: fs2) i = Some ((i + length fs1)%nat, f).
  Proof.
    intros Hs. revert i; induction fs1 as [|g fs1 IH]; intros i Hn; cbn [app find_field].
    - rewrite Hs, str_eqb_refl. cbn [negb andb length]. f_equal. f_equal. lia.
    - destruct (f_skip g) eqn:Eg.
      + cbn [negb andb]. rewrite IH; [f_equal; f_equal; simpl; lia|].
        cbn [app filter] in Hn. unfold live at 1 in Hn. rewrite Eg in Hn. exact Hn.
      + cbn [negb andb]. cbn [app filter] in Hn. unfold live at 1 in Hn. rewrite Eg in Hn. cbn [negb map] in Hn.
        inversion Hn as [|? ? Hni Hn2]; subst.
        replace (str_eqb (field_key g) (field_key f)) with false.
        * rewrite IH by exact Hn2. f_equal. f_equal. simpl. lia.
        * symmetry. apply str_eqb_neq. intro E. apply Hni. rewrite E. apply in_map. apply filter_In.
          split; [apply in_or_app; right; left; reflexivity | unfold live; rewrite Hs; reflexivity].
  Qed.

  Lemma named_reads (d : ty -> @pm tst val) n dflt rs tr :
    Forall (trip_ok d dflt) rs -> NoDup (map field_key (filter live (map r_f rs))) -> (length rs < n)%nat ->
    reads (de_named tok_lexer fm d n dflt (map r_f rs))
      (LP (k_sopen fm) :: jt (flat_map field_toks rs) tr ++ [LP (k_sclose fm)]) (map r_v rs).
  Proof.
    intros H Hnd Hn. unfold de_named. set (fs := map r_f rs).
    set (cond := fun s => tok_is (l_tok tok_lexer s) (k_key fm)).
    set (item := fun acc (s : tst) =>
        match find_field (key_of tok_lexer fm s) fs 0 with
        | Some (i, f) =>
          pbind (p_next_colon tok_lexer) (fun _ => pbind (de_field d f) (fun v => pret (set_nth i (Some v) acc))) s
        | None =>
          match fs, fm with
          | [], _ => (s, Ok acc)
          | _, Json => pbind (p_next_colon tok_lexer) (fun _ => pbind (whole_field tok_lexer n) (fun _ => pret acc)) s
          | _, Ron => perr tok_lexer (UnexpectedKey (l_id tok_lexer s)) s
          end
        end).
    assert (Hss : forall pre suf, rs = pre ++ suf ->
      steps cond item (map trip_acc pre ++ map (fun _ => None) (map r_f suf)) (flat_map field_toks suf)
            (map trip_acc rs)).
    { intros pre suf. revert pre. induction suf as [|r suf IH]; intros pre E.
      - cbn [map flat_map]. rewrite app_nil_r in *. subst pre. constructor.
      - cbn [map flat_map].
        assert (E' : rs = (pre ++ [r]) ++ suf) by (rewrite <- app_assoc; exact E).
        specialize (IH (pre ++ [r]) E'). rewrite map_app, <- app_assoc in IH. cbn [map app] in IH.
        assert (Hr : trip_ok d dflt r).
        { rewrite Forall_forall in H. apply H. rewrite E. apply in_or_app. right; left; reflexivity. }
        unfold field_toks at 1. unfold trip_acc at 2 in IH. unfold trip_ok in Hr.
        destruct (r_o r) as [l|]; [|exact IH].
        destruct Hr as (Hsk & Hv & Hrd). cbn [app].
        eapply steps_cons; [|exact IH]. split.
        + intros tail b u Ha. unfold cond. rewrite (tok_at _ _ _ _ Ha). unfold key_tok, k_key. destruct fm; reflexivity.
        + intros tail b u Hd Ha. cbn [app] in Ha. unfold item.
          assert (Ek : key_of tok_lexer fm u = field_key (r_f r)).
          { destruct Ha as (H1 & _ & H3). unfold loaded in H3. rewrite H1 in H3. unfold key_of, key_tok in *. destruct fm; exact H3. }
          rewrite Ek.
          assert (Efs : fs = map r_f pre ++ r_f r :: map r_f suf) by (unfold fs; rewrite E, map_app; reflexivity).
          rewrite Efs, find_field_nodup; [|exact Hsk | rewrite <- Efs; exact Hnd].
          cbn [Nat.add]. unfold p_next_colon. rewrite pbind_assoc.
          destruct (next_at _ _ _ _ Ha ltac:(left; discriminate)) as (u1 & E1 & Ha1 & _).
          unfold pbind at 1. cbn [l_next tok_lexer]. rewrite E1.
          destruct (expect_at KColon (chars ":") u1 _ _ _ Ha1 eq_refl) as (u2 & E2 & Ha2 & _).
          { left. destruct (vtoks_head _ _ Hv) as (x & r' & -> & _). discriminate. }
          unfold p_colon. rewrite (pbind_ok _ _ _ _ _ E2).
          destruct (Hrd tail b u2 Hd Ha2) as (u3 & E3 & Ha3). rewrite (pbind_ok _ _ _ _ _ E3).
          exists u3. split; [|exact Ha3]. unfold pret. f_equal. f_equal.
          rewrite map_length. rewrite <- (map_length trip_acc pre). apply set_nth_app. }
    specialize (Hss [] rs eq_refl). cbn [map app] in Hss.
    refine (reads_bracket (k_sopen fm) (k_sclose fm) _ _ _ _ _ (map trip_acc rs) _
              (loop_at cond item _ (k_sclose fm) (w_scomma fm) _ (sclose_closing fm) _ _ _ _ Hss n tr _)
              (sclose_closing fm) _ _).
    - intros a0 u. reflexivity.
    - intros u tail b Ha. unfold cond. rewrite (tok_at _ _ _ _ Ha). unfold k_sclose, k_key. destruct fm; reflexivity.
    - eapply Nat.le_lt_trans; [|exact Hn]. clear. induction rs as [|r rs IH]; [simpl; lia|].
      cbn [flat_map]. rewrite app_length. unfold field_toks at 1. destruct (r_o r); simpl; lia.
    - unfold k_sopen; destruct fm; reflexivity.
    - unfold fs. clear - H. induction H as [|r rs Hr H IH]; intro u; [reflexivity|].
      cbn [map unwrap_fields].
      assert (E : unwrap_field tok_lexer dflt (r_f r) (trip_acc r) u = (u, Ok (r_v r))).
      { unfold unwrap_field, trip_acc. unfold trip_ok in Hr. destruct (r_o r) as [l|].
        - destruct Hr as (Hsk & _). rewrite Hsk. reflexivity.
        - destruct Hr as [Hv Hs]. rewrite Hv. unfold omitted_value. destruct (f_default (r_f r)) as [d0|]; [reflexivity|].
          replace (f_skip (r_f r) || f_isopt (r_f r) || dflt) with true; [reflexivity|].
          symmetry. destruct Hs as [-> | [-> | [Hs | ->]]]; rewrite ?orb_true_r; auto; congruence. }
      rewrite (pbind_ok _ _ _ _ _ E), (pbind_ok _ _ _ _ _ (IH u)). reflexivity.
  Qed.

  Lemma jt_fields_bal rs d dflt tr : Forall (trip_ok d dflt) rs -> bal (jt (flat_map field_toks rs) tr).
  Proof.
    intro H. apply jt_bal. induction H as [|r rs Hr H IH]; [constructor|]. cbn [flat_map].
    apply Forall_app. split; [|exact IH]. unfold field_toks, trip_ok in *. destruct (r_o r) as [l|]; [|constructor].
    constructor; [|constructor]. apply bal_cons; [unfold key_tok; destruct fm; reflexivity|].
    apply bal_cons; [reflexivity|]. destruct Hr as (_ & Hv & _). eapply vtoks_bal; exact Hv.
  Qed.
End Round.
