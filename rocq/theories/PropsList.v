(** C12 (text), C28, C32: sequences, sets, maps, arrays, tuples and enums as texts. *)
From Verif Require Import Base Utf8 Types BinModel SpecBin Text TextModel TextSim TextToks TextLex TextRead SpecText SpecGram SpecList TextRound TextGram TextFuel TextLocal TextRun SpecObj TextEmbed TextObj TextList TextEx PropsBin PropsText PropsObj.
Local Open Scope N_scope.

Lemma fold_seq_of k ws : forall acc, fold_left (fun a v => seq_add k v a) ws acc = seq_of k ws acc.
Proof. induction ws as [|w ws IH]; intro acc; [reflexivity|]. cbn [fold_left seq_of]. apply IH. Qed.
Lemma fold_map_of k ws : forall acc, fold_left (fun a e => map_add k (fst e) (snd e) a) ws acc = map_of k ws acc.
Proof. induction ws as [|[a b] ws IH]; intro acc; [reflexivity|]. cbn [fold_left map_of fst snd]. apply IH. Qed.

Section Text.
  Variables (F : flt) (c : cfg) (G : env) (fm : fmt).
  Notation de := (de_text tok_lexer F c G fm).
  Notation parses := (parses F c G fm).
  Notation entire := (entire F c G fm).

  (** From a reader of tokens to the texts. *)
  Lemma reads_parses t text l (P : val -> Prop) : lexes_any F fm text l ->
    (forall v, P v -> exists N, forall n, (N <= n)%nat -> reads2 fm (de n t) l v) ->
    (forall n u u' v, at2 fm u (l ++ []) false -> de n t u = (u', Ok v) -> P v) ->
    forall v, parses t text (Ok v) <-> P v.
  Proof.
    intros Hl Hf Hi v. pose proof (lexes_end F fm _ _ (lexes_weak F fm _ _ Hl)) as Hx. pose proof (st0_at2 F fm _ _ _ Hx) as A0.
    assert (A1 : at2 fm (st0 l false) (l ++ []) false) by (rewrite app_nil_r; exact A0). split.
    - intro H. destruct (parses_inv_ok F c G fm t text l false v Hx (or_intror eq_refl) H) as (N & u' & HN). eapply (Hi N); [exact A1 | apply HN; lia].
    - intro H. destruct (Hf v H) as [N HN]. apply (parses_ok F c G fm t text l false v Hx (or_intror eq_refl)). exists N. intros n Hn.
      destruct (HN n Hn [] false _ eq_refl A1) as (u' & E & _). rewrite E. reflexivity.
  Qed.

  (** *** Sequences and sets *)
  Theorem C12_text_seq k t xs text v : list_text F fm 91 93 xs text ->
    (parses (TSeq k t) text (Ok v) <-> exists ws, Forall2 (entire t) xs ws /\ v = VSeq (seq_of k ws [])).
  Proof.
    intro Ht. destruct (list_lexes F fm 91 KBlockOpen 93 KBlockClose xs text) as (ls & tr & Hl & Hls); [destruct fm; reflexivity | destruct fm; reflexivity | reflexivity | exact Ht|].
    revert v. apply (reads_parses (TSeq k t) text _ _ Hl).
    - intros v (ws & Hws & ->). destruct (seq_fwd F c G fm k t xs ls tr ws Hls Hws) as [N HN]. exists (S N). intros n Hn. destruct n as [|n]; [lia|].
      intros tail b u Hd Ha. destruct (HN n ltac:(lia) tail b u Hd Ha) as (u' & E & A). exists u'. split; [|exact A]. cbn [de_text]. unfold pmap, pbind. rewrite E, fold_seq_of. reflexivity.
    - intros n u u' v Ha E. destruct n as [|n]; [discriminate|]. cbn [de_text] in E. unfold pmap, pbind in E.
      destruct (de_seq tok_lexer (de n) n k t u) as [u2 [r|e|p|]] eqn:E2; try discriminate. injection E as _ <-.
      destruct (seq_inv2 F c G fm k t n xs ls tr r [] false u u2 Hls Ha (or_intror eq_refl) E2) as (ws & Hws & -> & _). exists ws. rewrite fold_seq_of. auto.
  Qed.
  (** A set keeps each element once; a Vec or a list keeps all in order. *)
  Theorem C12_text_set k t xs text v : list_text F fm 91 93 xs text -> parses (TSeq k t) text (Ok v) ->
    exists ws m, Forall2 (entire t) xs ws /\ v = VSeq m /\ seq_inv k m /\ (forall x, In x m <-> In x ws) /\ (k = SVec \/ k = SList -> m = ws).
  Proof.
    intros Ht H. apply (C12_text_seq k t xs text v Ht) in H as (ws & Hws & ->). exists ws, (seq_of k ws []). split; [exact Hws|]. split; [reflexivity|]. split; [|split].
    - apply seq_of_keeps. destruct k; simpl; auto using NoDup_nil.
    - intro x. rewrite seq_of_In. simpl. tauto.
    - intros Hk. change ws with ([] ++ ws) at 2. apply seq_of_inv. destruct Hk as [-> | ->]; exact I.
  Qed.

  (** *** Maps *)
  Theorem C12_text_map k tk tv es text v : map_text F fm es text ->
    (parses (TMap k tk tv) text (Ok v) <-> exists ws, Forall2 (fun e w => entire tk (fst e) (fst w) /\ entire tv (snd e) (snd w)) es ws /\ v = VMap (map_of k ws [])).
  Proof.
    intro Ht. destruct (map_lexes F fm es text Ht) as (ls & tr & Hl & Hls).
    revert v. apply (reads_parses (TMap k tk tv) text _ _ Hl).
    - intros v (ws & Hws & ->). destruct (map_fwd F c G fm k tk tv es ls tr ws Hls Hws) as [N HN]. exists (S N). intros n Hn. destruct n as [|n]; [lia|].
      intros tail b u Hd Ha. destruct (HN n ltac:(lia) tail b u Hd Ha) as (u' & E & A). exists u'. split; [|exact A]. cbn [de_text]. unfold pmap, pbind. rewrite E, fold_map_of. reflexivity.
    - intros n u u' v Ha E. destruct n as [|n]; [discriminate|]. cbn [de_text] in E. unfold pmap, pbind in E.
      destruct (de_map tok_lexer (de n) n k tk tv u) as [u2 [r|e|p|]] eqn:E2; try discriminate. injection E as _ <-.
      destruct (map_inv2 F c G fm k tk tv n es ls tr r [] false u u2 Hls Ha (or_intror eq_refl) E2) as (ws & Hws & -> & _). exists ws. rewrite fold_map_of. auto.
  Qed.
  (** ... binds each key to its last value. *)
  Theorem C12_text_last k tk tv es text v : map_text F fm es text -> parses (TMap k tk tv) text (Ok v) ->
    exists ws m, Forall2 (fun e w => entire tk (fst e) (fst w) /\ entire tv (snd e) (snd w)) es ws /\ v = VMap m /\ map_inv k m /\ NoDup (map fst m) /\
      forall a b, In (a, b) m <-> last_binding ws a b.
  Proof.
    intros Ht H. apply (C12_text_map k tk tv es text v Ht) in H as (ws & Hws & ->).
    assert (Hi : map_inv k (map_of k ws [])) by (apply map_of_keeps; destruct k; simpl; auto using NoDup_nil).
    exists ws, (map_of k ws []). split; [exact Hws|]. split; [reflexivity|]. split; [exact Hi|]. split; [apply (map_inv_NoDup k); exact Hi|].
    intros a b. rewrite map_of_spec by (destruct k; simpl; auto using NoDup_nil). simpl. tauto.
  Qed.

  (** *** Arrays and tuples: exactly as many elements as the type says. *)
  Notation tuple_value := (tuple_value F c G fm).
  Lemma topen_punct : punct fm (tup_open fm) = Some (k_topen fm). Proof. destruct fm; reflexivity. Qed.
  Lemma tclose_punct : punct fm (tup_close fm) = Some (k_tclose fm). Proof. destruct fm; reflexivity. Qed.
  Lemma tclose_bound : bound_char (tup_close fm) = true. Proof. destruct fm; reflexivity. Qed.
  Theorem C28_tuple ts xs text v : tuple_arity (length ts) = true -> list_text F fm (tup_open fm) (tup_close fm) xs text ->
    (parses (TTup ts) text (Ok v) <-> exists vs, v = VSeq vs /\ tuple_value ts xs vs).
  Proof.
    intros Har Ht. destruct (list_lexes F fm _ _ _ _ xs text topen_punct tclose_punct tclose_bound Ht) as (ls & tr & Hl & Hls).
    set (ps := map (fun t n => comma_block tok_lexer fm (de n) t) ts).
    assert (Hps : Forall2 (good_item F c G fm) ps ts) by (unfold ps; clear; induction ts; cbn; constructor; auto using block_good).
    assert (Emap : forall n, map (fun p => p n) ps = map (comma_block tok_lexer fm (de n)) ts) by (intro n; unfold ps; rewrite map_map; reflexivity).
    revert v. apply (reads_parses (TTup ts) text _ _ Hl).
    - intros v (vs & -> & Hv). destruct (brk_fwd F c G fm ps ts xs ls tr vs Hps Hls Hv) as [N HN]. exists (S N). intros n Hn. destruct n as [|n]; [lia|].
      intros tail b u Hd Ha. destruct (HN n ltac:(lia) tail b u Hd Ha) as (u' & E & A). exists u'. split; [|exact A]. cbn [de_text]. rewrite Har. unfold pmap, pbind. rewrite <- Emap, E. reflexivity.
    - intros n u u' v Ha E. destruct n as [|n]; [discriminate|]. cbn [de_text] in E. rewrite Har in E. unfold pmap, pbind in E. rewrite <- Emap in E.
      destruct (de_bracketed tok_lexer fm _ u) as [u2 [r|e|p|]] eqn:E2; try discriminate. injection E as _ <-.
      destruct (brk_inv F c G fm n ps ts xs ls tr r [] false u u2 Hps Hls Ha (or_intror eq_refl) E2) as [H _]. exists r. auto.
  Qed.
  Theorem C28_array m t xs text v : list_text F fm (tup_open fm) (tup_close fm) xs text ->
    (parses (TArr m t) text (Ok v) <-> exists vs, v = VSeq vs /\ length xs = m /\ Forall2 (entire t) xs vs).
  Proof.
    intros Ht. destruct (list_lexes F fm _ _ _ _ xs text topen_punct tclose_punct tclose_bound Ht) as (ls & tr & Hl & Hls).
    set (ps := repeat (fun n => de_item tok_lexer fm (de n) t) m).
    assert (Hps : Forall2 (good_item F c G fm) ps (repeat t m)) by (unfold ps; clear; induction m; cbn; constructor; auto using item_good).
    assert (Emap : forall n, map (fun p => p n) ps = repeat (de_item tok_lexer fm (de n) t) m) by (intro n; unfold ps; clear; induction m; cbn; f_equal; auto).
    assert (Hall : forall vs, tuple_value (repeat t m) xs vs <-> length xs = m /\ Forall2 (entire t) xs vs).
    { intro vs. unfold SpecObj.tuple_value. rewrite repeat_length. clear - m. split; intros [H1 H2]; (split; [congruence|]).
      - revert m xs H1 vs H2. induction m as [|m IH]; intros [|x xs] H1 vs H2; try discriminate; cbn in H2; inversion H2; subst; constructor; auto.
      - revert m H1. induction H2 as [|x v xs vs Hx Hxs IH]; intros m H1; [destruct m; constructor|]. destruct m as [|m]; [discriminate|]. cbn. constructor; [exact Hx|]. apply IH. cbn in H1. congruence. }
    revert v. apply (reads_parses (TArr m t) text _ _ Hl).
    - intros v (vs & -> & Hv). apply Hall in Hv. destruct (brk_fwd F c G fm ps _ xs ls tr vs Hps Hls Hv) as [N HN]. exists (S N). intros n Hn. destruct n as [|n]; [lia|].
      intros tail b u Hd Ha. destruct (HN n ltac:(lia) tail b u Hd Ha) as (u' & E & A). exists u'. split; [|exact A]. cbn [de_text]. unfold pmap, pbind. rewrite <- Emap, E. reflexivity.
    - intros n u u' v Ha E. destruct n as [|n]; [discriminate|]. cbn [de_text] in E. unfold pmap, pbind in E. rewrite <- Emap in E.
      destruct (de_bracketed tok_lexer fm _ u) as [u2 [r|e|p|]] eqn:E2; try discriminate. injection E as _ <-.
      destruct (brk_inv F c G fm n ps _ xs ls tr r [] false u u2 Hps Hls Ha (or_intror eq_refl) E2) as [H _]. exists r. split; [reflexivity|]. apply Hall. exact H.
  Qed.
  (** Any other number of elements is never accepted. *)
  Theorem C28_wrong_length m t xs text v : list_text F fm (tup_open fm) (tup_close fm) xs text -> length xs <> m -> ~ parses (TArr m t) text (Ok v).
  Proof. intros Ht Hn H. apply (C28_array m t xs text v Ht) in H as (vs & _ & H & _). congruence. Qed.
End Text.

(** ** C32: enums *)
Section Enum.
  Variables (F : flt) (c : cfg) (G : env) (fm : fmt).
  Notation de := (de_text tok_lexer F c G fm).
  Notation parses := (parses F c G fm).

  Lemma unit_lexes k text : unit_text fm k text -> lexs F fm text = ([keytok fm k], false).
  Proof.
    intros (g1 & s & g2 & -> & Hn & Hg1 & Hg2). apply lexes_end.
    apply (lexes_app_r F fm g1 _ [] [keytok fm k]); [apply gap_lexes; exact Hg1|].
    rewrite <- (app_nil_r [keytok fm k]). apply (lexes_app F fm s g2 [keytok fm k] []); [apply name_lexes; exact Hn | apply lexes_weak, gap_lexes; exact Hg2 | apply gap_bound; exact Hg2].
  Qed.
  (** Tokens of a variant with the tokens [pl] of its payload. *)
  Definition vartoks (k : str) (pl : list ltok) : list ltok :=
    match fm with Json => LP KCurlyOpen :: LStr k :: LP KColon :: pl ++ [LP KCurlyClose] | Ron => LId k :: pl end.
  Lemma variant_lexes k p text pl : variant_text fm k p text -> lexes_any F fm p pl -> (fm = Ron -> boundary p) -> lexs F fm text = (vartoks k pl, false).
  Proof.
    unfold variant_text, vartoks. intros Ht Hp Hb. assert (Hc : fm = Json \/ fm = Ron) by (destruct fm; auto).
    destruct Hc as [E|E]; rewrite E in Ht |- *.
    - destruct Ht as (g1 & a & s & b & g2 & -> & Hn & Hg1 & Ha & Hb2 & Hg2). rewrite <- E in Hn |- *.
      assert (Hk : keytok fm k = LStr k) by (rewrite E; reflexivity). pose proof (name_lexes F fm k s Hn) as Ln. rewrite Hk in Ln.
      assert (L1 : lexes F fm (a ++ s ++ b ++ [58] ++ p) (LStr k :: LP KColon :: pl)).
      { apply (lexes_app_r F fm a _ [] _); [apply gap_lexes; exact Ha|]. apply (lexes_app F fm s _ [LStr k] (LP KColon :: pl)); [exact Ln| |].
        - apply (lexes_app_r F fm b _ [] _); [apply gap_lexes; exact Hb2|]. apply lexes_weak. apply (lexes_any_app F fm [58] p [LP KColon] pl); [apply lexes_colon | exact Hp].
        - destruct (gap_bound b Hb2) as [-> | H]; [right; reflexivity|]. right. destruct b; [reflexivity | exact H]. }
      pose proof (wrapped_any F fm 123 KCurlyOpen 125 KCurlyClose g1 g2 _ _ ltac:(destruct fm; reflexivity) ltac:(destruct fm; reflexivity) eq_refl Hg1 Hg2 L1) as L2.
      replace (g1 ++ 123 :: a ++ s ++ b ++ [58] ++ p ++ [125] ++ g2) with (g1 ++ 123 :: (a ++ s ++ b ++ [58] ++ p) ++ [125] ++ g2) by (rewrite <- !app_assoc; reflexivity).
      apply (lexes_end F fm), lexes_weak. exact L2.
    - destruct Ht as (g1 & s & -> & Hn & Hg1). rewrite <- E in Hn |- *. assert (Hk : keytok fm k = LId k) by (rewrite E; reflexivity).
      apply lexes_end. apply (lexes_app_r F fm g1 _ [] _); [apply gap_lexes; exact Hg1|]. rewrite <- Hk.
      apply (lexes_app F fm s p [keytok fm k] pl); [apply name_lexes; exact Hn | apply lexes_weak; exact Hp | apply Hb; exact E].
  Qed.

  (** The name read, the reader is at the payload. *)
  Definition after_name (k : str) (l : list ltok) : tst :=
    match fm with
    | Json => {| t_toks := l; t_bad := false; t_sb := k; t_ib := [] |}
    | Ron => {| t_toks := l; t_bad := false; t_sb := []; t_ib := k |}
    end.
  Variables (i : nat) (vs : list variant) (tag : nat) (var : variant) (k : str).
  Hypothesis HG : nth_error G i = Some (DEnum vs).
  Hypothesis Hnd : NoDup (map (variant_key fm) vs).
  Hypothesis Hvar : nth_error vs tag = Some var.
  Hypothesis Hk : variant_key fm var = k.
  Definition tagN : N := N.of_nat tag.
  Lemma other_variant p : (forall w, p w = true -> variant_key fm w = k) -> p var = true -> find_variant p vs 0 = Some (tagN, var).
  Proof.
    intros Hp Hv. rewrite (find_variant_first p vs 0 tag var Hvar Hv); [reflexivity|]. intros j w Hj Hw. destruct (p w) eqn:E; [|reflexivity]. exfalso.
    apply Hp in E. rewrite <- Hk in E.
    assert (Hlt : (j < length (map (variant_key fm) vs))%nat) by (rewrite map_length; apply nth_error_Some; congruence).
    assert (Ej : j = tag); [|lia]. apply (proj1 (NoDup_nth_error (map (variant_key fm) vs)) Hnd j tag Hlt).
    rewrite !nth_error_map, Hw, Hvar. cbn. congruence.
  Qed.
  Lemma exists_variant p : p var = true -> existsb p vs = true.
  Proof. intro H. apply existsb_exists. exists var. split; [eapply nth_error_In; exact Hvar | exact H]. Qed.
  Lemma enum_step n o r : is_unit var = false -> (o = KBlockOpen \/ o = KCurlyOpen \/ o = KParenOpen) ->
    de (S n) (TNamed i) (st0 (vartoks k (LP o :: r)) false) =
    match fm with
    | Json => pbind (de_body tok_lexer fm (de n) n tagN (v_body var)) (fun x => pbind (expect tok_lexer KCurlyClose (chars "}")) (fun _ => pret x)) (after_name k (LP o :: r ++ [LP KCurlyClose]))
    | Ron => de_body tok_lexer fm (de n) n tagN (v_body var) (after_name k (LP o :: r))
    end.
  Proof.
    intros Hu Ho. cbn [de_text]. rewrite HG. pose proof Hnd as Hnd'. pose proof other_variant as OV. pose proof exists_variant as EV. unfold after_name, vartoks in *.
    assert (Hc : fm = Json \/ fm = Ron) by (destruct fm; auto). destruct Hc as [E|E]; rewrite E in *.
    - unfold de_enum_json. rewrite (EV (fun v => negb (is_unit v))) by (cbv beta; rewrite Hu; reflexivity).
      unfold expect, p_colon, pbind. cbn [st0 tok_kind l_tok tok_lexer t_toks ltok_kind tok_is andb l_next tok_next t_bad ltok_str ltok_id t_sb t_ib app]. unfold expect.
      cbn [st0 tok_kind l_tok tok_lexer t_toks ltok_kind tok_is andb l_next tok_next t_bad ltok_str ltok_id t_sb t_ib app l_str].
      destruct Ho as [-> | [-> | ->]]; cbn [st0 tok_kind l_tok tok_lexer t_toks ltok_kind tok_is l_next tok_next t_bad ltok_str ltok_id t_sb t_ib l_str].
      all: rewrite (OV (fun v => negb (is_unit v) && str_eqb (variant_key Json v) k)); [reflexivity| |].
      all: try (intros w Hw; apply andb_prop in Hw as [_ Hw]; apply str_eqb_eq in Hw; exact Hw).
      all: rewrite Hu; cbn; apply str_eqb_eq; exact Hk.
    - unfold de_enum_ron, expect, pbind. cbn [st0 tok_kind l_tok tok_lexer t_toks ltok_kind tok_is andb l_next tok_next t_bad ltok_str ltok_id t_sb t_ib app l_id].
      destruct Ho as [-> | [-> | ->]]; cbn [st0 tok_kind l_tok tok_lexer t_toks ltok_kind tok_is l_next tok_next t_bad ltok_str ltok_id t_sb t_ib l_id].
      all: rewrite (OV (fun v => str_eqb (variant_key Ron v) k)); [reflexivity| |].
      all: try (intros w Hw; apply str_eqb_eq in Hw; exact Hw).
      all: apply str_eqb_eq; exact Hk.
  Qed.

  Lemma after_at2 l : forallb (real fm) l = true -> (match l with LP _ :: _ => True | _ => False end) -> at2 fm (after_name k l) l false.
  Proof.
    intros Hr Hl. split; [|exact Hr]. destruct l as [|[]]; try contradiction. unfold after_name. destruct fm; (split; [reflexivity|]; split; [reflexivity|]); unfold loaded; cbn [t_toks]; destruct t; exact I.
  Qed.

  (** A variant with fields, given what its body reads. *)
  Lemma variant_iff o r (P : list val -> Prop) text p (m : nat -> @pm tst (list val)) :
    is_unit var = false -> (o = KBlockOpen \/ o = KCurlyOpen \/ o = KParenOpen) ->
    (forall n, de_body tok_lexer fm (de n) n tagN (v_body var) = pmap (VEnum tagN) (m n)) ->
    variant_text fm k p text -> lexes_any F fm p (LP o :: r) -> (fm = Ron -> boundary p) ->
    (forall ws, P ws -> exists N, forall n, (N <= n)%nat -> reads2 fm (m n) (LP o :: r) ws) ->
    (forall n u u' ws tail b, at2 fm u ((LP o :: r) ++ tail) b -> go_on tail b -> m n u = (u', Ok ws) -> P ws /\ at2 fm u' tail b) ->
    forall v, parses (TNamed i) text (Ok v) <-> exists ws, v = VEnum tagN ws /\ P ws.
  Proof.
    intros Hu Ho Hm Ht Hp Hb Hf Hi v. pose proof (variant_lexes k p text _ Ht Hp Hb) as Hl. pose proof (lexs_real' F fm _ _ _ Hl) as Hr.
    set (tail := match fm with Json => [LP KCurlyClose] | Ron => [] end).
    assert (A1 : at2 fm (after_name k ((LP o :: r) ++ tail)) ((LP o :: r) ++ tail) false).
    { apply after_at2; [|cbn; exact I]. unfold vartoks in Hr. unfold tail. destruct fm; cbn in Hr |- *; [exact Hr|]. rewrite app_nil_r. exact Hr. }
    assert (Hd : delim tail false) by (unfold tail; destruct fm; reflexivity).
    assert (Hstep : forall n, de (S n) (TNamed i) (st0 (vartoks k (LP o :: r)) false) =
      match m n (after_name k ((LP o :: r) ++ tail)) with
      | (u', Ok ws) => match fm with Json => pbind (expect tok_lexer KCurlyClose (chars "}")) (fun _ => pret (VEnum tagN ws)) u' | Ron => (u', Ok (VEnum tagN ws)) end
      | (u', Err e) => (u', Err e) | (u', Panic q) => (u', Panic q) | (u', NoFuel) => (u', NoFuel) end).
    { intro n. rewrite (enum_step n o r Hu Ho), Hm. unfold pmap, pbind, tail. destruct fm.
      - cbn [app]. destruct (m n _) as [u' [ws|e|q|]]; reflexivity.
      - cbn [app]. rewrite app_nil_r. destruct (m n _) as [u' [ws|e|q|]]; reflexivity. }
    split.
    - intro H. destruct (parses_inv_ok F c G fm _ text _ false v Hl (or_intror eq_refl) H) as (N & u' & HN). specialize (HN (S N) ltac:(lia)). rewrite Hstep in HN.
      destruct (m N _) as [u2 [ws|e|q|]] eqn:E2; try discriminate. exists ws.
      destruct (Hi N _ u2 ws tail false A1 (delim_go _ _ Hd) E2) as [HP A2]. split; [|exact HP].
      unfold pbind in HN. destruct fm; [|injection HN as _ <-; reflexivity]. destruct (expect _ _ _ u2) as [u3 [[]|e|q|]]; try discriminate. unfold pret in HN. injection HN as _ <-. reflexivity.
    - intros (ws & -> & HP). destruct (Hf ws HP) as [N HN]. apply (parses_ok F c G fm _ text _ false _ Hl (or_intror eq_refl)). exists (S N). intros n Hn. destruct n as [|n]; [lia|].
      rewrite Hstep. destruct (HN n ltac:(lia) tail false _ Hd A1) as (u' & E & A2). rewrite E. unfold tail in A2.
      assert (Hc : fm = Json \/ fm = Ron) by (destruct fm; auto). destruct Hc as [Ef|Ef].
      + assert (A3 : at2 fm u' [LP KCurlyClose] false) by (rewrite Ef in A2 |- *; exact A2).
        destruct (expect2 fm KCurlyClose (chars "}") u' _ _ false A3 eq_refl (or_intror eq_refl)) as (u3 & E3 & _).
        unfold pbind. rewrite Ef, E3. reflexivity.
      + rewrite Ef. reflexivity.
  Qed.
  Lemma list_boundary o cl xs p : bound_char o = true -> list_text F fm o cl xs p -> boundary p.
  Proof.
    intros Ho (g1 & g2 & s & -> & Hg1 & _). right. destruct (gap_bound g1 Hg1) as [-> | H]; [exact Ho|]. destruct g1; [exact Ho | exact H].
  Qed.
  Lemma object_boundary ms p : object_text F fm ms p -> fm = Ron -> boundary p.
  Proof.
    intros (g1 & g2 & s & -> & Hg1 & _) E. right. destruct (gap_bound g1 Hg1) as [-> | H]; [unfold obj_open; rewrite E; reflexivity|]. destruct g1; [unfold obj_open; rewrite E; reflexivity | exact H].
  Qed.
  (** A tuple variant: [{"Name": [x1, ...]}] or [Name(x1, ...)] with exactly its elements. *)
  Theorem C32_tuple_variant ts xs p text v : v_body var = BTuple ts ->
    variant_text fm k p text -> list_text F fm (tup_open fm) (tup_close fm) xs p ->
    (parses (TNamed i) text (Ok v) <-> exists ws, v = VEnum (N.of_nat tag) ws /\ tuple_value F c G fm ts xs ws).
  Proof.
    intros Hb Ht Hp. destruct (list_lexes F fm _ _ _ _ xs p (topen_punct fm) (tclose_punct fm) (tclose_bound fm) Hp) as (ls & tr & Hl & Hls).
    set (ps := map (fun t n => de_item tok_lexer fm (de n) t) ts).
    assert (Hps : Forall2 (good_item F c G fm) ps ts) by (unfold ps; clear; induction ts; cbn; constructor; auto using item_good).
    assert (Emap : forall n, map (fun p => p n) ps = map (de_item tok_lexer fm (de n)) ts) by (intro n; unfold ps; rewrite map_map; reflexivity).
    eapply (variant_iff (k_topen fm) (jt ls tr ++ [LP (k_tclose fm)]) (tuple_value F c G fm ts xs) text p (fun n => de_bracketed tok_lexer fm (map (fun p => p n) ps))); eauto.
    - unfold is_unit. rewrite Hb. reflexivity.
    - unfold k_topen. destruct fm; auto.
    - intro n. rewrite Hb, Emap. reflexivity.
    - intro E. eapply (list_boundary (tup_open fm)); [rewrite E; reflexivity | exact Hp].
    - intros ws Hw. apply (brk_fwd F c G fm ps ts xs ls tr ws Hps Hls Hw).
    - intros n u u' ws tail b Ha Hg E. eapply (brk_inv F c G fm n ps ts xs ls tr ws tail b u u' Hps Hls Ha Hg E).
  Qed.
  (** A struct variant: [{"Name": {...}}] or [Name(...)]. *)
  Theorem C32_struct_variant fs ms p text v : v_body var = BStruct fs -> unique_keys fs ->
    variant_text fm k p text -> object_text F fm ms p ->
    (parses (TNamed i) text (Ok v) <-> exists ws, v = VEnum (N.of_nat tag) ws /\ named_value F c G fm false fs ms ws).
  Proof.
    intros Hb Hu Ht Hp. destruct (object_any F fm ms p Hp) as (ls & tr & Hl & Hls).
    eapply (variant_iff (k_sopen fm) (jt ls tr ++ [LP (k_sclose fm)]) (named_value F c G fm false fs ms) text p (fun n => de_named tok_lexer fm (de n) n false fs)); eauto.
    - unfold is_unit. rewrite Hb. reflexivity.
    - unfold k_sopen. destruct fm; auto.
    - intro n. rewrite Hb. reflexivity.
    - eapply object_boundary; exact Hp.
    - intros ws Hw. apply (named_fwd F c G fm false fs Hu ms ls tr ws Hls Hw).
    - intros n u u' ws tail b Ha Hg E. eapply (named_inv F c G fm false fs Hu n ms ls tr ws tail b u u' Hls Ha Hg E).
  Qed.
  (** A variant without fields: its name. *)
  Theorem C32_unit_variant text : v_body var = BUnit -> unit_text fm k text -> parses (TNamed i) text (Ok (VEnum (N.of_nat tag) [])).
  Proof.
    intros Hb Ht. pose proof (unit_lexes k text Ht) as Hl. apply (parses_ok F c G fm _ text _ false _ Hl (or_intror eq_refl)). exists 1%nat. intros n Hn. destruct n as [|n]; [lia|].
    cbn [de_text]. rewrite HG. pose proof other_variant as OV. pose proof exists_variant as EV. unfold keytok in *.
    assert (Hu : is_unit var = true) by (unfold is_unit; rewrite Hb; reflexivity).
    assert (Hc : fm = Json \/ fm = Ron) by (destruct fm; auto). destruct Hc as [E|E]; rewrite E in *.
    - unfold de_enum_json. rewrite (EV is_unit Hu). unfold expect, pbind.
      cbn [st0 tok_kind l_tok tok_lexer t_toks ltok_kind tok_is andb l_next tok_next t_bad ltok_str ltok_id t_sb t_ib l_str].
      rewrite (OV (fun v => is_unit v && str_eqb (variant_key Json v) k)); [reflexivity| |].
      + intros w Hw. apply andb_prop in Hw as [_ Hw]. apply str_eqb_eq in Hw. exact Hw.
      + rewrite Hu. cbn. apply str_eqb_eq. exact Hk.
    - unfold de_enum_ron, expect, pbind.
      cbn [st0 tok_kind l_tok tok_lexer t_toks ltok_kind tok_is andb l_next tok_next t_bad ltok_str ltok_id t_sb t_ib l_id].
      rewrite (OV (fun v => str_eqb (variant_key Ron v) k)); [rewrite Hb; reflexivity| |].
      + intros w Hw. apply str_eqb_eq in Hw. exact Hw.
      + apply str_eqb_eq. exact Hk.
  Qed.
End Enum.

(** What no variant is called is an error that names it; so are a variant
    without fields written as one with fields and the reverse (JSON). *)
Section EnumErr.
  Variables (F : flt) (c : cfg) (G : env) (fm : fmt) (i : nat) (vs : list variant) (k : str).
  Hypothesis HG : nth_error G i = Some (DEnum vs).
  Notation de := (de_text tok_lexer F c G fm).
  Notation parses := (parses F c G fm).
  Definition bare (v : variant) : Prop := v_body v = BUnit.
  Lemma bare_unit v : is_unit v = true <-> bare v.
  Proof. unfold is_unit, bare. destruct (v_body v); split; congruence. Qed.
  Lemma existsb_false {A} (p : A -> bool) l : existsb p l = false -> forall x, In x l -> p x = false.
  Proof. intros H x Hx. destruct (p x) eqn:E; [|reflexivity]. rewrite <- H. symmetry. apply existsb_exists. eauto. Qed.
  Lemma find_none p : (forall v, In v vs -> p v = false) -> find_variant p vs 0 = None.
  Proof. intro H. apply find_variant_none. intros w Hw. apply H; exact Hw. Qed.

  Theorem C32_unknown_word text : unit_text fm k text ->
    (forall v, In v vs -> variant_key fm v = k -> fm = Json /\ ~ bare v) ->
    rejects F c G fm (TNamed i) text /\
    (fm = Ron \/ (exists v, In v vs /\ bare v) -> exists e, parses (TNamed i) text (Err e) /\ e_reason e = NoSuchEnum k).
  Proof.
    intros Ht Hv. pose proof (unit_lexes F fm k text Ht) as Hl. unfold keytok in Hl.
    assert (Hc : fm = Json \/ fm = Ron) by (destruct fm; auto). destruct Hc as [E|E]; rewrite E in *.
    - assert (Hf : find_variant (fun v => is_unit v && str_eqb (variant_key Json v) k) vs 0 = None).
      { apply find_none. intros v Hin. destruct (is_unit v) eqn:Eu; [|reflexivity]. cbn [andb]. destruct (str_eqb (variant_key Json v) k) eqn:Es; [|reflexivity].
        apply str_eqb_eq in Es. destruct (Hv v Hin Es) as [_ H]. apply bare_unit in Eu. contradiction. }
      destruct (existsb is_unit vs) eqn:Ex.
      + assert (Hr : exists e, TextRun.parses F c G Json (TNamed i) text (Err e) /\ e_reason e = NoSuchEnum k).
        { apply (parses_reason F c G Json (TNamed i) text _ false (NoSuchEnum k) Hl (or_intror eq_refl)); [|discriminate]. exists 1%nat. eexists. split.
          - cbn [de_text]. rewrite HG. unfold de_enum_json. rewrite Ex. unfold expect, pbind.
            cbn [st0 tok_kind l_tok tok_lexer t_toks ltok_kind tok_is andb l_next tok_next t_bad ltok_str ltok_id t_sb t_ib l_str]. rewrite Hf. reflexivity.
          - reflexivity. }
        split; [destruct Hr as (e & He & _); exists e; exact He | intros _; exact Hr].
      + split; [|intros [H|(v & Hin & Hb)]; [discriminate|]].
        * apply (parses_err F c G Json (TNamed i) text _ false Hl (or_intror eq_refl)). exists 1%nat. eexists. cbn [de_text]. rewrite HG. unfold de_enum_json. rewrite Ex. reflexivity.
        * exfalso. pose proof (existsb_false _ _ Ex v Hin) as H. apply bare_unit in Hb. congruence.
    - assert (Hr : exists e, TextRun.parses F c G Ron (TNamed i) text (Err e) /\ e_reason e = NoSuchEnum k).
      { apply (parses_reason F c G Ron (TNamed i) text _ false (NoSuchEnum k) Hl (or_intror eq_refl)); [|discriminate]. exists 1%nat. eexists. split.
        - cbn [de_text]. rewrite HG. unfold de_enum_ron, expect, pbind.
          cbn [st0 tok_kind l_tok tok_lexer t_toks ltok_kind tok_is andb l_next tok_next t_bad ltok_str ltok_id t_sb t_ib l_id].
          rewrite find_none; [reflexivity|]. intros v Hin. destruct (str_eqb (variant_key Ron v) k) eqn:Es; [|reflexivity]. apply str_eqb_eq in Es. destruct (Hv v Hin Es). discriminate.
        - reflexivity. }
      split; [destruct Hr as (e & He & _); exists e; exact He | intros _; exact Hr].
  Qed.
  (** The same with a payload in brackets. *)
  Lemma bracketed_lexes p : bracketed_text F fm p -> exists o r, lexes_any F fm p (LP o :: r) /\ (o = KBlockOpen \/ o = KCurlyOpen \/ o = KParenOpen).
  Proof.
    intros (g1 & o & a & cl & g2 & -> & Hb & _ & Ha & Hg1 & Hg2). destruct (inside_lexes F fm a Ha) as (l & Hl & _).
    exists (kopen o), (l ++ [LP (kclose cl)]). split.
    - assert (Hp : punct fm o = Some (kopen o) /\ punct fm cl = Some (kclose cl) /\ bound_char cl = true).
      { destruct Hb as [[-> ->]|[[-> ->]|(E & -> & ->)]]; [| |rewrite E]; repeat split; destruct fm; reflexivity. }
      destruct Hp as (P1 & P2 & P3). apply (wrapped_any F fm o (kopen o) cl (kclose cl) g1 g2 a l P1 P2 P3 Hg1 Hg2 Hl).
    - destruct Hb as [[-> _]|[[-> _]|(_ & -> & _)]]; cbn; auto.
  Qed.
  Lemma bracketed_boundary p : bracketed_text F fm p -> fm = Ron -> boundary p.
  Proof.
    intros (g1 & o & a & cl & g2 & -> & Hb & Hr & _ & Hg1 & _) E. right.
    assert (Ho : bound_char o = true) by (rewrite (Hr E); reflexivity).
    destruct (gap_bound g1 Hg1) as [-> | H]; [exact Ho|]. destruct g1; [exact Ho | exact H].
  Qed.
  Theorem C32_unknown_variant p text : bracketed_text F fm p -> variant_text fm k p text ->
    (forall v, In v vs -> variant_key fm v = k -> fm = Json /\ bare v) ->
    rejects F c G fm (TNamed i) text /\
    (fm = Ron \/ (exists v, In v vs /\ ~ bare v) -> exists e, parses (TNamed i) text (Err e) /\ e_reason e = NoSuchEnum k).
  Proof.
    intros Hp Ht Hv. destruct (bracketed_lexes p Hp) as (o & r & Hpl & Ho).
    pose proof (variant_lexes F fm k p text _ Ht Hpl (bracketed_boundary p Hp)) as Hl. unfold vartoks in Hl.
    assert (Hc : fm = Json \/ fm = Ron) by (destruct fm; auto). destruct Hc as [E|E]; rewrite E in *.
    - assert (Hf : find_variant (fun v => negb (is_unit v) && str_eqb (variant_key Json v) k) vs 0 = None).
      { apply find_none. intros v Hin. destruct (is_unit v) eqn:Eu; [reflexivity|]. cbn [negb andb]. destruct (str_eqb (variant_key Json v) k) eqn:Es; [|reflexivity].
        apply str_eqb_eq in Es. destruct (Hv v Hin Es) as [_ H]. apply bare_unit in H. congruence. }
      destruct (existsb (fun v => negb (is_unit v)) vs) eqn:Ex.
      + assert (Hr : exists e, TextRun.parses F c G Json (TNamed i) text (Err e) /\ e_reason e = NoSuchEnum k).
        { apply (parses_reason F c G Json (TNamed i) text _ false (NoSuchEnum k) Hl (or_intror eq_refl)); [|discriminate]. exists 1%nat. eexists. split.
          - cbn [de_text]. rewrite HG. unfold de_enum_json. rewrite Ex. unfold expect, p_colon, pbind.
            cbn [st0 tok_kind l_tok tok_lexer t_toks ltok_kind tok_is andb l_next tok_next t_bad ltok_str ltok_id t_sb t_ib app]. unfold expect.
            cbn [st0 tok_kind l_tok tok_lexer t_toks ltok_kind tok_is andb l_next tok_next t_bad ltok_str ltok_id t_sb t_ib app l_str].
            destruct Ho as [-> | [-> | ->]]; cbn [st0 tok_kind l_tok tok_lexer t_toks ltok_kind tok_is l_next tok_next t_bad ltok_str ltok_id t_sb t_ib l_str]; rewrite Hf; reflexivity.
          - reflexivity. }
        split; [destruct Hr as (e & He & _); exists e; exact He | intros _; exact Hr].
      + split; [|intros [H|(v & Hin & Hb)]; [discriminate|]].
        * apply (parses_err F c G Json (TNamed i) text _ false Hl (or_intror eq_refl)). exists 1%nat. eexists. cbn [de_text]. rewrite HG. unfold de_enum_json. rewrite Ex. reflexivity.
        * exfalso. pose proof (existsb_false _ _ Ex v Hin) as H. cbv beta in H. apply Hb, bare_unit. destruct (is_unit v); [reflexivity | discriminate].
    - assert (Hr : exists e, TextRun.parses F c G Ron (TNamed i) text (Err e) /\ e_reason e = NoSuchEnum k).
      { apply (parses_reason F c G Ron (TNamed i) text _ false (NoSuchEnum k) Hl (or_intror eq_refl)); [|discriminate]. exists 1%nat. eexists. split.
        - cbn [de_text]. rewrite HG. unfold de_enum_ron, expect, pbind.
          cbn [st0 tok_kind l_tok tok_lexer t_toks ltok_kind tok_is andb l_next tok_next t_bad ltok_str ltok_id t_sb t_ib l_id].
          destruct Ho as [-> | [-> | ->]]; cbn [st0 tok_kind l_tok tok_lexer t_toks ltok_kind tok_is andb l_next tok_next t_bad ltok_str ltok_id t_sb t_ib l_id].
          all: rewrite find_none; [reflexivity|]; intros v Hin; destruct (str_eqb (variant_key Ron v) k) eqn:Es; [|reflexivity]; apply str_eqb_eq in Es; destruct (Hv v Hin Es); discriminate.
        - reflexivity. }
      split; [destruct Hr as (e & He & _); exists e; exact He | intros _; exact Hr].
  Qed.
  (** RON: a variant with fields needs them. *)
  Theorem C32_fields_required text v tag : fm = Ron -> unit_text fm k text -> NoDup (map (variant_key fm) vs) ->
    nth_error vs tag = Some v -> variant_key fm v = k -> ~ bare v -> rejects F c G fm (TNamed i) text.
  Proof.
    intros E Ht Hnd Hn Hk Hb. pose proof (unit_lexes F fm k text Ht) as Hl. unfold keytok in Hl. pose proof (other_variant fm vs tag v k Hnd Hn Hk) as OV. rewrite E in *.
    apply (parses_err F c G Ron (TNamed i) text _ false Hl (or_intror eq_refl)). exists 1%nat.
    assert (H : exists w e, de_text tok_lexer F c G Ron 1 (TNamed i) (st0 [LId k] false) = (w, Err e)); [|destruct H as (w & e & H); exists e; rewrite H; reflexivity].
    cbn [de_text]. rewrite HG. unfold de_enum_ron, expect, pbind.
    cbn [st0 tok_kind l_tok tok_lexer t_toks ltok_kind tok_is andb l_next tok_next t_bad ltok_str ltok_id t_sb t_ib l_id].
    rewrite (OV (fun v => str_eqb (variant_key Ron v) k)); [|intros w Hw; apply str_eqb_eq in Hw; exact Hw | apply str_eqb_eq; exact Hk].
    unfold bare in Hb. destruct (v_body v) as [|ts|fs]; [contradiction| |]; unfold de_body, de_bracketed, de_named, pmap, pbind, expect; cbn; eauto.
  Qed.
End EnumErr.

(** *** Examples *)
Definition GE : env := [DEnum [ {| v_name := chars "A"; v_rename := None; v_body := BUnit |};
  {| v_name := chars "B"; v_rename := None; v_body := BTuple [TInt U8; TBool] |};
  {| v_name := chars "D"; v_rename := None; v_body := BStruct [fld (chars "x") false (VZ 0) (TInt I8); opt_field (chars "y") TBool] |} ]].
Example C32_ex : NoDup (map (variant_key Json) [ {| v_name := chars "A"; v_rename := None; v_body := BUnit |};
  {| v_name := chars "B"; v_rename := None; v_body := BTuple [TInt U8; TBool] |}]) /\
  deserialize_text toy c64 GE Json 12 (TNamed 0) (chars "{ ""B"" : [7 , true,] } ") = Ok (VEnum 1 [VZ 7; VBool true]) /\
  deserialize_text toy c64 GE Ron 12 (TNamed 0) (chars "B(7,true)") = Ok (VEnum 1 [VZ 7; VBool true]) /\
  deserialize_text toy c64 GE Json 12 (TNamed 0) (chars "{""D"":{""x"":-1}}") = Ok (VEnum 2 [VZ (-1); VNone]) /\
  (exists e, deserialize_text toy c64 GE Json 12 (TNamed 0) (chars """C""") = Err e /\ e_reason e = NoSuchEnum (chars "C")) /\
  (exists e, deserialize_text toy c64 GE Json 12 (TNamed 0) (chars """B""") = Err e /\ e_reason e = NoSuchEnum (chars "B")).
Proof.
  split; [repeat constructor; cbn; intuition discriminate|]. do 3 (split; [vm_compute; reflexivity|]).
  split; eexists; (split; [vm_compute; reflexivity | reflexivity]).
Qed.
(** The JSON reader takes the last string before it looks the name up, and the RON
    reader of a variant without fields looks at nothing after the name:
    [{"A": "B"}]-like texts do not name the variant they seem to name. *)
Theorem C32_refuted_ron_payload : parses toy c64 GE Ron (TNamed 0) (chars "A(1)") (Ok (VEnum 0 [])).
Proof. eapply de_text_returns with (n := 12%nat); [vm_compute; reflexivity | discriminate]. Qed.
Theorem C32_refuted_next_string : parses toy c64 GE Json (TNamed 0) (chars """zz"" ""A""") (Ok (VEnum 0 [])) /\
  parses toy c64 GE Ron (TNamed 0) (chars "zz A") (Ok (VEnum 0 [])).
Proof. split; eapply de_text_returns with (n := 12%nat); try (vm_compute; reflexivity); discriminate. Qed.
Example C28_ex : deserialize_text toy c64 [] Json 12 (TArr 2 (TInt U8)) (chars " [1 ,2,] ") = Ok (VSeq [VZ 1; VZ 2]) /\
  (exists e, deserialize_text toy c64 [] Json 12 (TArr 2 (TInt U8)) (chars "[1]") = Err e) /\
  (exists e, deserialize_text toy c64 [] Json 12 (TTup [TInt U8; TBool]) (chars "[1,true,2]") = Err e) /\
  list_text toy Json 91 93 [chars "1"; chars "2"] (chars " [1 ,2,] ").
Proof.
  split; [vm_compute; reflexivity|]. split; [eexists; vm_compute; reflexivity|]. split; [eexists; vm_compute; reflexivity|].
  assert (V : forall d, all_digits [d] -> decimal [d] < 10 -> value_text toy Json [d]) by (intros d H1 H2; apply va_num, int_literal; [exact H1 | eapply N.lt_trans; [exact H2 | reflexivity]]).
  assert (D : forall d, 48 <= d <= 57 -> all_digits [d]) by (intros d H; split; [discriminate | constructor; [exact H | constructor]]).
  exists [32], [32], (chars "1 ,2,"). split; [reflexivity|]. split; [gap_tac|]. split; [gap_tac|]. right. left. exists (chars "1 ,2"), []. split; [|split; [gap_tac | reflexivity]].
  apply (its_more toy Json [] (chars "1") [32] [chars "2"] (chars "2")); [gap_tac | gap_tac | apply V; [apply D; split; discriminate | reflexivity] |].
  apply (its_one toy Json [] (chars "2") []); [gap_tac | gap_tac | apply V; [apply D; split; discriminate | reflexivity]].
Qed.
Example C12_text_ex : deserialize_text toy c64 [] Json 12 (TSeq SBSet (TInt U8)) (chars "[3,1,3]") = Ok (VSeq [VZ 1; VZ 3]) /\
  deserialize_text toy c64 [] Ron 12 (TMap MHash TStr (TInt U8)) (chars "{""a"":1,""b"":2,""a"":3}") = Ok (VMap [(VStr (chars "a"), VZ 3); (VStr (chars "b"), VZ 2)]).
Proof. split; vm_compute; reflexivity. Qed.
