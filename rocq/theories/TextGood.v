(** Token lists on which skipping a member ends and finds a value, and the JSON
    texts that have such token lists. *)
From Verif Require Import Base Utf8 Types TyAll BinModel Text TextModel TextSim TextToks TextLex TextRead TextRound TextFuel TextRun
  SpecText SpecGram SpecTerm TextGram TextSpace TextTerm.
Local Open Scope N_scope.

(** A token [whole_field] can start with. *)
Definition vstart (t : ltok) : bool :=
  match ltok_kind t with
  | KF64 _ | KI64 _ | KStr | KU64 _ | KBool _ | KNull | KBlockOpen | KCurlyOpen => true
  | _ => false
  end.
(** After every colon comes a value (or a lexical error). *)
Definition colons (l : list ltok) (b : bool) : Prop :=
  forall p q, l = p ++ LP KColon :: q -> match q with [] => b = true | x :: _ => vstart x = true end.
Definition wj (t : ltok) : Z :=
  match ltok_kind t with KBlockOpen | KCurlyOpen => 1 | KBlockClose | KCurlyClose => -1 | _ => 0 end%Z.
Fixpoint wjs (l : list ltok) : Z := match l with [] => 0 | t :: r => (wj t + wjs r)%Z end.
(** Every bracket opened is closed (or there is a lexical error). *)
Definition closed (l : list ltok) (b : bool) : Prop :=
  b = true \/ forall p o q, l = p ++ o :: q -> wj o = 1%Z -> exists q1 q2, q = q1 ++ q2 /\ (1 + wjs q1 = 0)%Z.
Lemma wjs_app a b : wjs (a ++ b) = (wjs a + wjs b)%Z.
Proof. induction a as [|x a IH]; cbn [app wjs]; lia. Qed.
Lemma colons_suffix a l b : colons (a ++ l) b -> colons l b.
Proof. intros H p q E. apply (H (a ++ p) q). rewrite E, app_assoc. reflexivity. Qed.
Lemma closed_suffix a l b : closed (a ++ l) b -> closed l b.
Proof. intros [H|H]; [left; exact H|right]. intros p o q E. apply (H (a ++ p) o q). rewrite E, app_assoc. reflexivity. Qed.

Section Whole.
  Variable P : panic -> Prop.
  Lemma whole_go : forall n l d u, t_toks u = l -> (length l <= n)%nat ->
    (0 < d \/ exists x r, l = x :: r /\ wj x = 1%Z) ->
    (exists q1 q2, l = q1 ++ q2 /\ q1 <> [] /\ (Z.of_N d + wjs q1 = 0)%Z) \/ (t_bad u = true /\ l <> []) ->
    endsat P False 1 (whole_loop L n d) u.
  Proof.
    induction n as [|n IH]; intros l d u Hu Hn Hd H.
    { exfalso. destruct l; [|cbn in Hn; lia]. destruct H as [(q1 & q2 & E & Hq & _)|[_ H]]; [|congruence].
      destruct q1; [congruence | discriminate]. }
    destruct l as [|x r].
    { exfalso. destruct H as [(q1 & q2 & E & Hq & _)|[_ H]]; [|congruence]. destruct q1; [congruence | discriminate]. }
    set (d2 := match ltok_kind x with KBlockOpen | KCurlyOpen => d + 1 | KBlockClose | KCurlyClose => d - 1 | _ => d end).
    assert (Hd2 : Z.of_N d2 = (Z.of_N d + wj x)%Z).
    { destruct Hd as [Hd|(y & r' & E & Hw)]; [unfold d2, wj; destruct (ltok_kind x); lia|].
      injection E as <- <-. unfold d2, wj in *. destruct (ltok_kind x); lia. }
    assert (Hw : whole_loop L (S n) d u = pbind (l_next L) (fun _ => if d2 =? 0 then pret tt else whole_loop L n d2) u).
    { cbn [whole_loop]. assert (Ek : l_tok L u = ltok_kind x) by (cbn [l_tok L]; rewrite Hu; reflexivity). rewrite Ek. unfold d2.
      destruct (ltok_kind x); reflexivity. }
    unfold endsat. rewrite Hw. unfold pbind. cbn [l_next L]. unfold tok_next. rewrite Hu.
    destruct r as [|y r].
    - destruct (t_bad u) eqn:Eb; [exact I|].
      destruct H as [(q1 & q2 & E & Hq & Hz)|[H _]]; [|discriminate].
      destruct q1 as [|z q1]; [congruence|]. injection E as <- E. destruct q1; [|discriminate].
      cbn [wjs] in Hz. assert (E0 : d2 = 0) by lia. rewrite E0. cbn. exists [x]. repeat split. cbn. lia.
    - set (u1 := {| t_toks := y :: r; t_bad := _; t_sb := _; t_ib := _ |}).
      destruct (N.eqb_spec d2 0) as [E0|E0]; [exists [x]; repeat split; cbn; lia|].
      assert (E1 : endsat P False 1 (whole_loop L n d2) u1).
      { apply (IH (y :: r)); [reflexivity | cbn in *; lia | left; lia |].
        destruct H as [(q1 & q2 & E & Hq & Hz)|[H _]]; [|right; split; [exact H | discriminate]].
        left. destruct q1 as [|z q1]; [congruence|]. injection E as <- E. exists q1, q2. split; [exact E|].
        cbn [wjs] in Hz. split; [|lia]. intros ->. cbn [wjs] in Hz. lia. }
      unfold endsat in E1. destruct (whole_loop L n d2 u1) as [u2 [v|e|p|]]; auto.
      destruct E1 as (a & A1 & A2 & A3). exists (x :: a). cbn [t_toks t_bad u1] in *. rewrite A1. repeat split; [exact A2 | cbn; lia].
  Qed.

  (** From a colon on, on lists where brackets are closed. *)
  Lemma skips_ok : forall n K, (K < n)%nat ->
    P PUnimplemented -> Skips P False (fun l b => closed l b) n K.
  Proof.
    intros n K Hn HP u Hg Hl. unfold endsat, pbind, p_colon, expect.
    destruct (tok_is (l_tok L u) KColon) eqn:Ec; [|exact I]. apply kind_is in Ec.
    cbn [l_next L l_tok] in *. unfold tok_next. destruct (t_toks u) as [|x [|y r]] eqn:Et; [discriminate| |].
    - destruct (t_bad u); [exact I|]. cbn. exact HP.
    - set (u1 := {| t_toks := y :: r; t_bad := t_bad u; t_sb := ltok_str y (t_sb u); t_ib := ltok_id y (t_ib u) |}).
      assert (H : endsat P False 1 (whole_field L n) u1).
      { unfold endsat, whole_field. assert (Ek : l_tok L u1 = ltok_kind y) by reflexivity. rewrite Ek.
        destruct (ltok_kind y) eqn:E; try exact HP; try (exact (next_endsat1 P False (fun _ _ => True) (fun _ _ _ _ => I) u1 ltac:(discriminate))).
        - apply (whole_go n (y :: r) 0 u1 eq_refl); [cbn in *; lia | right; exists y, r; split; [reflexivity|]; unfold wj; rewrite E; reflexivity |].
          destruct Hg as [Hg|Hg]; [right; split; [exact Hg | discriminate]|]. left.
          destruct (Hg [x] y r eq_refl) as (q1 & q2 & -> & Hz); [unfold wj; rewrite E; reflexivity|].
          exists (y :: q1), q2. repeat split; [discriminate|]. cbn [wjs]. unfold wj at 1. rewrite E. lia.
        - apply (whole_go n (y :: r) 0 u1 eq_refl); [cbn in *; lia | right; exists y, r; split; [reflexivity|]; unfold wj; rewrite E; reflexivity |].
          destruct Hg as [Hg|Hg]; [right; split; [exact Hg | discriminate]|]. left.
          destruct (Hg [x] y r eq_refl) as (q1 & q2 & -> & Hz); [unfold wj; rewrite E; reflexivity|].
          exists (y :: q1), q2. repeat split; [discriminate|]. cbn [wjs]. unfold wj at 1. rewrite E. lia. }
      unfold endsat in H. destruct (whole_field L n u1) as [u2 [v|e|p|]]; auto.
      destruct H as (a & A1 & A2 & A3). exists (x :: a). cbn [t_toks t_bad u1] in *. rewrite A1. repeat split; [exact A2 | cbn; lia].
  Qed.
  (** The same without the panic, where every colon has its value. *)
  Lemma skips_good : forall n K, (K < n)%nat -> Skips P False (fun l b => closed l b /\ colons l b) n K.
  Proof.
    intros n K Hn u [Hg Hcl] Hl. unfold endsat, pbind, p_colon, expect.
    destruct (tok_is (l_tok L u) KColon) eqn:Ec; [|exact I]. apply kind_is in Ec.
    cbn [l_next L l_tok] in *. unfold tok_next. destruct (t_toks u) as [|x [|y r]] eqn:Et; [discriminate| |].
    - assert (Ex : x = LP KColon) by (cbn in Ec; destruct x; try discriminate; cbn in Ec; congruence). subst x.
      specialize (Hcl [] [] eq_refl). cbn in Hcl. rewrite Hcl. exact I.
    - assert (Ex : x = LP KColon) by (cbn in Ec; destruct x; try discriminate; cbn in Ec; congruence). subst x.
      specialize (Hcl [] (y :: r) eq_refl). cbn beta iota in Hcl.
      set (u1 := {| t_toks := y :: r; t_bad := t_bad u; t_sb := ltok_str y (t_sb u); t_ib := ltok_id y (t_ib u) |}).
      assert (H : endsat P False 1 (whole_field L n) u1).
      { unfold endsat, whole_field. assert (Ek : l_tok L u1 = ltok_kind y) by reflexivity. rewrite Ek.
        unfold vstart in Hcl. destruct (ltok_kind y) eqn:E; try discriminate Hcl; try (exact (next_endsat1 P False (fun _ _ => True) (fun _ _ _ _ => I) u1 ltac:(discriminate))).
        - apply (whole_go n (y :: r) 0 u1 eq_refl); [cbn in *; lia | right; exists y, r; split; [reflexivity|]; unfold wj; rewrite E; reflexivity |].
          destruct Hg as [Hg|Hg]; [right; split; [exact Hg | discriminate]|]. left.
          destruct (Hg [LP KColon] y r eq_refl) as (q1 & q2 & -> & Hz); [unfold wj; rewrite E; reflexivity|].
          exists (y :: q1), q2. repeat split; [discriminate|]. cbn [wjs]. unfold wj at 1. rewrite E. lia.
        - apply (whole_go n (y :: r) 0 u1 eq_refl); [cbn in *; lia | right; exists y, r; split; [reflexivity|]; unfold wj; rewrite E; reflexivity |].
          destruct Hg as [Hg|Hg]; [right; split; [exact Hg | discriminate]|]. left.
          destruct (Hg [LP KColon] y r eq_refl) as (q1 & q2 & -> & Hz); [unfold wj; rewrite E; reflexivity|].
          exists (y :: q1), q2. repeat split; [discriminate|]. cbn [wjs]. unfold wj at 1. rewrite E. lia. }
      unfold endsat in H. destruct (whole_field L n u1) as [u2 [v|e|p|]]; auto.
      destruct H as (a & A1 & A2 & A3). exists (LP KColon :: a). cbn [t_toks t_bad u1] in *. rewrite A1. repeat split; [exact A2 | cbn; lia].
  Qed.
  (** And on any list, when going on for ever is allowed for. *)
  Lemma skips_any : forall n K, P PUnimplemented -> Skips P True (fun _ _ => True) n K.
  Proof.
    intros n K HP u _ Hl. unfold endsat, pbind, p_colon, expect.
    destruct (tok_is (l_tok L u) KColon) eqn:Ec; [|exact I]. apply kind_is in Ec.
    pose proof (next_real P True (fun _ _ => True) (fun _ _ _ _ => I) u ltac:(rewrite Ec; discriminate)) as Hnx. unfold endsat in Hnx.
    destruct (l_next L u) as [u1 [v|e|p|]]; auto. destruct Hnx as (a & A1 & A2 & A3).
    assert (Hloop : forall n d u, endsat P True 0 (whole_loop L n d) u).
    { induction n0 as [|n0 IH]; intros d u0; [exact I|]. unfold endsat. cbn [whole_loop]. unfold pbind.
      pose proof (next_endsat P True (fun _ _ => True) (fun _ _ _ _ => I) u0) as Hx. unfold endsat in Hx. destruct (l_next L u0) as [u2 [w|e|p|]]; auto.
      match goal with |- match (if ?b then _ else _) u2 with _ => _ end => destruct b end; [exact Hx|].
      destruct Hx as (a0 & B1 & B2 & B3).
      match goal with |- match whole_loop L n0 ?d u2 with _ => _ end => specialize (IH d u2) end. unfold endsat in IH.
      match goal with |- match ?e with _ => _ end => destruct e as [u3 [w'|e'|p|]]; auto end.
      destruct IH as (a1 & C1 & C2 & C3). exists (a0 ++ a1). rewrite B1, C1, app_assoc. repeat split; [congruence | lia]. }
    assert (H : endsat P True 0 (whole_field L n) u1).
    { unfold endsat, whole_field. destruct (l_tok L u1); try exact HP; try exact (next_endsat P True (fun _ _ => True) (fun _ _ _ _ => I) u1); apply Hloop. }
    unfold endsat in H. destruct (whole_field L n u1) as [u2 [w|e|p|]]; auto.
    destruct H as (a1 & C1 & C2 & C3). exists (a ++ a1). rewrite A1, C1, app_assoc, app_length. repeat split; [congruence | lia].
  Qed.
End Whole.

(** ** Texts *)
Lemma wj_bal l : bal l -> wjs l = 0%Z /\ forall p o q, l = p ++ o :: q -> wj o = 1%Z -> exists q1 q2, q = q1 ++ q2 /\ (1 + wjs q1 = 0)%Z.
Proof.
  induction 1 as [|a b H [A1 A2] H' [B1 B2]|t Ht|o cl l Hb H [IH1 IH2]].
  - split; [reflexivity|]. intros p o q E. destruct p; discriminate.
  - split; [rewrite wjs_app; lia|]. intros p o q E Ho.
    assert (Hs : (exists r, a = p ++ o :: r /\ q = r ++ b) \/ exists p', b = p' ++ o :: q).
    { clear - E. revert p E. induction a as [|y a IH]; intros p E; [right; exists p; exact E|].
      destruct p as [|z p]; [injection E as <- <-; left; exists a; auto|]. injection E as <- E.
      destruct (IH _ E) as [(r & -> & ->)|Hr]; [left; exists r; auto | right; exact Hr]. }
    destruct Hs as [(r & -> & ->)|(p' & ->)]; [|eapply B2; [reflexivity | exact Ho]].
    destruct (A2 p o r eq_refl Ho) as (q1 & q2 & -> & Hz). exists q1, (q2 ++ b). rewrite app_assoc. auto.
  - split.
    + cbn [wjs]. unfold is_bracket in Ht. unfold wj. destruct t as [| |[]]; cbn in *; try reflexivity; discriminate.
    + intros p o q E Ho. destruct p as [|x p]; [|destruct p; discriminate]. injection E as <- <-.
      exfalso. unfold is_bracket in Ht. unfold wj in Ho. destruct t as [| |[]]; cbn in *; try discriminate.
  - assert (Hw : (wj (LP o) + wj (LP cl) = 0)%Z) by (unfold bracket in Hb; unfold wj; cbn; destruct Hb as [[-> ->]|[[-> ->]|[-> ->]]]; reflexivity).
    split; [cbn [wjs]; rewrite wjs_app; cbn [wjs]; lia|]. intros p o' q E Ho. destruct p as [|x p].
    + injection E as <- <-. exists (l ++ [LP cl]), []. rewrite app_nil_r. split; [reflexivity|]. rewrite wjs_app. cbn [wjs]. lia.
    + injection E as <- E. clear Hw.
      assert (Hc : wj (LP cl) <> 1%Z) by (unfold bracket in Hb; unfold wj; cbn; destruct Hb as [[_ ->]|[[_ ->]|[_ ->]]]; discriminate).
      assert (Hs : exists r, l = p ++ o' :: r /\ q = r ++ [LP cl]).
      { clear - E Ho Hc. revert p E. induction l as [|y l IH]; intros p E.
        - destruct p as [|z p]; [injection E as <- <-; contradiction | destruct p; discriminate].
        - destruct p as [|z p]; [injection E as <- <-; exists l; auto|]. injection E as <- E. destruct (IH _ E) as (r & -> & ->). exists r. auto. }
      destruct Hs as (r & -> & ->). destruct (IH2 p o' r eq_refl Ho) as (q1 & q2 & -> & Hz). exists q1, (q2 ++ [LP cl]). rewrite app_assoc. auto.
Qed.
Lemma bal_closed l : bal l -> closed l false.
Proof. intro H. right. apply wj_bal in H. tauto. Qed.

Lemma colons_nil b : colons [] b. Proof. intros p q E. destruct p; discriminate. Qed.
Lemma colons_app a l b : colons a false -> colons l b -> colons (a ++ l) b.
Proof.
  intros Ha Hl p q E.
  assert (Hs : (exists r, a = p ++ LP KColon :: r /\ q = r ++ l) \/ exists p', l = p' ++ LP KColon :: q).
  { clear - E. revert p E. induction a as [|y a IH]; intros p E; [right; exists p; exact E|].
    destruct p as [|z p]; [injection E as <- <-; left; exists a; auto|]. injection E as <- E.
    destruct (IH _ E) as [(r & -> & ->)|Hr]; [left; exists r; auto | right; exact Hr]. }
  destruct Hs as [(r & -> & ->)|(p' & ->)]; [|eapply Hl; reflexivity].
  specialize (Ha p r eq_refl). destruct r; [discriminate | exact Ha].
Qed.
Lemma colons_cons x l b : x <> LP KColon -> colons l b -> colons (x :: l) b.
Proof.
  intros Hx H. apply (colons_app [x] l b); [|exact H]. intros p q E. destruct p as [|y p]; [injection E as -> _; congruence|].
  destruct p; discriminate.
Qed.
Definition vhead (l : list ltok) (b : bool) : Prop := match l with [] => b = true | x :: _ => vstart x = true end.
Lemma colons_colon l b : vhead l b -> colons l b -> colons (LP KColon :: l) b.
Proof.
  intros Hv H p q E. destruct p as [|y p]; [injection E as <-; exact Hv|]. injection E as _ E. exact (H p q E).
Qed.

Lemma boundary_app s r : boundary s -> boundary r -> boundary (s ++ r).
Proof. intros Hs Hr. destruct s; [exact Hr|]. destruct Hs as [Hs|Hs]; [discriminate | right; exact Hs]. Qed.

(** Any number of RFC 8259 and more: also with a plus sign in the exponent. *)
Definition any_number (s : str) : Prop := exists sg ip fr ex, s = sg ++ ip ++ fr ++ ex /\ number_parts sg ip fr ex.

Section Texts.
  Variable F : flt.
  Notation lexs := (lexs F Json).
  Notation lexes := (lexes F Json).
  Notation lexes_any := (lexes_any F Json).

  (** Either all of [s] is tokens, balanced and in order, or the text goes wrong inside [s]. *)
  Definition fails (s : str) (p : list ltok) : Prop := forall rest, boundary rest -> lexs (s ++ rest) = (p, true).
  Definition piece (s : str) : Prop :=
    (exists l, lexes s l /\ bal l /\ colons l false) \/ (exists p, fails s p /\ colons p true).
  Definition valpiece (s : str) : Prop :=
    (exists l, lexes s l /\ bal l /\ colons l false /\ vhead l false) \/ (exists p, fails s p /\ colons p true /\ vhead p true).
  Lemma valpiece_piece s : valpiece s -> piece s.
  Proof. intros [(l & A & B & C & _)|(p & A & B & _)]; [left | right]; eauto. Qed.
  Lemma piece_any a la s : lexes_any a la -> bal la -> colons la false -> piece s -> piece (a ++ s).
  Proof.
    intros A B C [(l & D & E & H)|(p & D & E)].
    - left. exists (la ++ l). split; [apply lexes_app_r; assumption|]. split; [apply bal_app; assumption | apply colons_app; assumption].
    - right. exists (la ++ p). split; [|apply colons_app; assumption]. intros rest Hr. rewrite <- app_assoc, A, D by exact Hr. reflexivity.
  Qed.
  Lemma piece_gap g s : gap g -> piece s -> piece (g ++ s).
  Proof. intros Hg. apply (piece_any g []); [apply gap_lexes; exact Hg | constructor | apply colons_nil]. Qed.
  Lemma valpiece_gap g s : gap g -> valpiece s -> valpiece (g ++ s).
  Proof.
    intros Hg [(l & A & B & C & D)|(p & A & B & C)].
    - left. exists l. split; [apply (lexes_app_r F Json g s [] l); [apply gap_lexes; exact Hg | exact A]|]. auto.
    - right. exists p. split; [|auto]. intros rest Hr. rewrite <- app_assoc, (gap_lexes F Json g Hg), cat_nil. apply A. exact Hr.
  Qed.
  Lemma piece_app a s : piece a -> boundary s -> piece s -> piece (a ++ s).
  Proof.
    intros [(la & A & B & C)|(p & A & B)] Hs H.
    - destruct H as [(l & D & E & H)|(p & D & E)].
      + left. exists (la ++ l). split; [apply lexes_app; assumption|]. split; [apply bal_app; assumption | apply colons_app; assumption].
      + right. exists (la ++ p). split; [|apply colons_app; assumption]. intros rest Hr. rewrite <- app_assoc, A, D by (try exact Hr; apply boundary_app; assumption).
        reflexivity.
    - right. exists p. split; [|exact B]. intros rest Hr. rewrite <- app_assoc. apply A. apply boundary_app; assumption.
  Qed.
  Lemma valpiece_app a s : valpiece a -> boundary s -> piece s -> valpiece (a ++ s).
  Proof.
    intros [(la & A & B & C & V)|(p & A & B & V)] Hs H.
    - assert (V2 : forall l b, vhead (la ++ l) b) by (intros; destruct la; [discriminate | exact V]).
      destruct H as [(l & D & E & H)|(p & D & E)].
      + left. exists (la ++ l). split; [apply lexes_app; assumption|]. split; [apply bal_app; assumption|]. split; [apply colons_app; assumption | apply V2].
      + right. exists (la ++ p). split; [|split; [apply colons_app; assumption | apply V2]]. intros rest Hr. rewrite <- app_assoc, A, D by (try exact Hr; apply boundary_app; assumption).
        reflexivity.
    - right. exists p. split; [|auto]. intros rest Hr. rewrite <- app_assoc. apply A. apply boundary_app; assumption.
  Qed.
  Lemma piece_comma s : piece s -> piece ([44] ++ s).
  Proof.
    apply (piece_any [44] [LP KComma]); [apply lexes_punct; reflexivity | apply bal_leaf; reflexivity |].
    apply colons_cons; [discriminate | apply colons_nil].
  Qed.
  Lemma piece_colon s : valpiece s -> piece ([58] ++ s).
  Proof.
    assert (A : lexes_any [58] [LP KColon]) by (apply lexes_punct; reflexivity).
    intros [(l & D & E & H & V)|(p & D & E & V)].
    - left. exists ([LP KColon] ++ l). split; [apply lexes_app_r; assumption|]. split; [apply bal_app; [apply bal_leaf; reflexivity | exact E]|].
      apply colons_colon; assumption.
    - right. exists ([LP KColon] ++ p). split; [|apply colons_colon; assumption]. intros rest Hr. rewrite <- app_assoc, A, D by exact Hr. reflexivity.
  Qed.
  Lemma piece_str b s : any_body b -> piece s -> piece (quoted b ++ s).
  Proof.
    intros [x Hb]. apply (piece_any _ [LStr x]); [apply lexes_quoted; exact Hb | apply bal_leaf; reflexivity |].
    apply colons_cons; [discriminate | apply colons_nil].
  Qed.
  Lemma piece_nil : piece [].
  Proof. left. exists []. split; [apply lexes_weak, lexes_any_nil|]. split; [constructor | apply colons_nil]. Qed.
  Lemma valpiece_wrap o cl s : brackets Json o cl -> piece s -> valpiece (o :: s ++ [cl]).
  Proof.
    intros Hb H. destruct (brackets_lex F Json _ _ Hb) as (B1 & B2 & B3 & B4).
    assert (Ho : vstart (LP (kopen o)) = true) by (destruct Hb as [[-> _]|[[-> _]|[Hb _]]]; [reflexivity | reflexivity | discriminate]).
    assert (Hn : kopen o <> KColon /\ kclose cl <> KColon) by (destruct Hb as [[-> ->]|[[-> ->]|[Hb _]]]; [split; discriminate | split; discriminate | discriminate]).
    destruct Hn as [Hn1 Hn2].
    destruct H as [(l & A & B & C)|(p & A & B)].
    - left. exists (LP (kopen o) :: l ++ [LP (kclose cl)]). split.
      + pose proof (lexes_app_l F Json s [cl] l [LP (kclose cl)] A B2 ltac:(discriminate) B4) as H1.
        apply lexes_weak. exact (lexes_any_app F Json [o] _ _ _ B1 H1).
      + split; [apply bal_wrap; assumption|]. split; [|exact Ho]. apply colons_cons; [congruence|]. apply colons_app; [exact C|].
        apply colons_cons; [congruence | apply colons_nil].
    - right. exists (LP (kopen o) :: p). split.
      + intros rest Hr. change (o :: s ++ [cl]) with ([o] ++ (s ++ [cl])). rewrite <- app_assoc, B1, <- app_assoc, A; [reflexivity|].
        right. destruct B4 as [B4|B4]; [discriminate | exact B4].
      + split; [|exact Ho]. apply colons_cons; [congruence | exact B].
  Qed.
  Lemma one_value s t : lexes s [t] -> scalar_tok Json t = true -> valpiece s.
  Proof.
    intros A B. left. exists [t]. split; [exact A|]. split; [apply (bal_single Json); exact B|]. split.
    - apply colons_cons; [|apply colons_nil]. intros ->. discriminate.
    - cbn. destruct t as [| |[]]; try reflexivity; discriminate.
  Qed.

  (** Numbers. *)
  Lemma num_scalar buf fl t : num_tok F buf fl = Some t -> scalar_tok Json (LP t) = true.
  Proof.
    unfold num_tok. destruct fl; [destruct (f64_parse F buf); [|discriminate]; intro E; injection E as <-; reflexivity|].
    destruct (cur buf =? c_minus); [destruct (parse_i64 buf) | destruct (parse_u64 buf)]; try discriminate; intro E; injection E as <-; reflexivity.
  Qed.
  Lemma scan_num_plus sg ip fr e d rest : number_parts sg ip fr (e :: 43 :: d) ->
    scan_num ((sg ++ ip ++ fr ++ e :: 43 :: d) ++ rest) = (sg ++ ip ++ fr ++ [e], 43 :: d ++ rest, true).
  Proof.
    intros (Hsg & Hip & Hfr & Hex). destruct Hex as [Hex|(e' & es & d' & E & He & _)]; [discriminate|]. injection E as <- _.
    apply all_digits_b in Hip as [Hi1 Hi2].
    assert (Hfr' : fr = [] \/ exists d, fr = c_dot :: d /\ forallb is_digit d = true).
    { destruct Hfr as [->|(d0 & -> & Hd)]; [left; reflexivity|]. right. exists d0. split; [reflexivity|]. apply all_digits_b; assumption. }
    assert (Hed : is_digit e = false /\ (e =? c_dot) = false /\ (e =? 101) || (e =? 69) = true) by (destruct He as [-> | ->]; auto).
    destruct Hed as (E1 & E2 & E3).
    unfold scan_num. unfold str in *.
    assert (Hs : (if (cur ((sg ++ ip ++ fr ++ e :: 43 :: d) ++ rest) =? c_minus) || (cur ((sg ++ ip ++ fr ++ e :: 43 :: d) ++ rest) =? c_plus)
                  then ([cur ((sg ++ ip ++ fr ++ e :: 43 :: d) ++ rest)], tl ((sg ++ ip ++ fr ++ e :: 43 :: d) ++ rest))
                  else ([], (sg ++ ip ++ fr ++ e :: 43 :: d) ++ rest)) = (sg, ip ++ fr ++ e :: 43 :: d ++ rest)).
    { destruct Hsg as [-> | ->].
      - cbn [app]. destruct ip as [|x ip]; [congruence|]. cbn [app cur]. cbn [forallb] in Hi2. apply andb_prop in Hi2 as [Hx _]. apply digit_range in Hx.
        replace (x =? c_minus) with false by (symmetry; apply N.eqb_neq; unfold c_minus; lia).
        replace (x =? c_plus) with false by (symmetry; apply N.eqb_neq; unfold c_plus; lia). cbn [orb]. rewrite <- !app_assoc. cbn [app]. rewrite <- ?app_assoc. reflexivity.
      - cbn [app cur tl]. change (45 =? c_minus) with true. cbn [orb]. rewrite <- !app_assoc. reflexivity. }
    rewrite Hs.
    assert (Hf0 : fr ++ e :: 43 :: d ++ rest = [] \/ is_digit (cur (fr ++ e :: 43 :: d ++ rest)) = false).
    { right. destruct Hfr' as [->|(d0 & -> & _)]; [exact E1 | reflexivity]. }
    rewrite (take_while_app is_digit ip _ Hi2 Hf0), (drop_while_app is_digit ip _ Hi2 Hf0).
    assert (He0 : e :: 43 :: d ++ rest = [] \/ is_digit (cur (e :: 43 :: d ++ rest)) = false) by (right; exact E1).
    destruct Hfr' as [->|(d0 & -> & Hd0)].
    - cbn [app cur]. rewrite E2. cbn [cur tl]. rewrite E3. change (43 =? c_minus) with false. cbn [take_while drop_while cur]. change (is_digit 43) with false. cbn iota.
      rewrite ?app_nil_r. cbn [app]. reflexivity.
    - cbn [app cur tl]. change (c_dot =? c_dot) with true. cbn iota.
      rewrite (take_while_app is_digit d0 _ Hd0 He0), (drop_while_app is_digit d0 _ Hd0 He0). cbn [cur tl]. rewrite E3. change (43 =? c_minus) with false.
      cbn [take_while drop_while cur]. change (is_digit 43) with false. cbn iota. cbn [app]. reflexivity.
  Qed.
  Lemma number_piece s : any_number s -> valpiece s.
  Proof.
    intros (sg & ip & fr & ex & -> & Hp).
    destruct (in_dec N.eq_dec 43 ex) as [Hin|Hno].
    - (* a plus sign in the exponent *)
      pose proof Hp as Hp0. destruct Hp as (Hsg & Hip & Hfr & Hex).
      destruct Hex as [->|(e & es & d & -> & He & Hes & Hd)]; [destruct Hin|].
      assert (Hes' : es = [43]).
      { destruct Hes as [-> | [-> | ->]]; [| |reflexivity]; exfalso; cbn [app In] in Hin; destruct Hd as [_ Hd]; rewrite Forall_forall in Hd;
        repeat (destruct Hin as [Hin|Hin]; [subst; destruct He; discriminate|]); apply Hd in Hin; lia. }
      subst es. cbn [app] in *.
      set (s := sg ++ ip ++ fr ++ e :: 43 :: d) in *. set (buf := sg ++ ip ++ fr ++ [e]).
      assert (Hstart : exists x r, s = x :: r /\ num_start Json x = true).
      { unfold s. destruct Hsg as [-> | ->]; [|eexists; eexists; split; [reflexivity | reflexivity]].
        destruct ip as [|x ip]; [destruct Hip as [Hip _]; congruence|]. exists x. eexists. split; [reflexivity|].
        destruct Hip as [_ Hip]. apply Forall_inv in Hip. unfold num_start. rewrite (proj2 (digit_range x) Hip), !orb_true_r. reflexivity. }
      destruct Hstart as (x & r & Es & Hx). destruct (num_start_cases Json _ Hx) as (H1 & H2 & H3 & H4).
      assert (Hlex : forall rest, lex1 F Json (s ++ rest) = (43 :: d ++ rest, match num_tok F buf true with Some t => Some (LP t) | None => None end)).
      { intro rest. unfold lex1. pose proof (scan_num_plus sg ip fr e d rest Hp0) as Hsc. fold s in Hsc. fold buf in Hsc.
        rewrite Es in *. cbn [app length scan]. rewrite not_ws_drop by exact H1. cbn [cur tl]. rewrite H2, H3, H4, Hx. cbn [app] in Hsc. rewrite Hsc.
        destruct (num_tok F buf true); reflexivity. }
      destruct (num_tok F buf true) as [t|] eqn:Et.
      + assert (Ht : t <> KEof) by (intros ->; apply num_scalar in Et; discriminate).
        assert (Hcat : forall rest, lexs (s ++ rest) = cat [LP t] (lexs ((43 :: d) ++ rest))).
        { intro rest. apply (lexs_cons F Json _ (43 :: d ++ rest) (LP t)); [apply Hlex | congruence]. }
        assert (Hsc : forall rest, boundary rest -> scan_num ((43 :: d) ++ rest) = (43 :: d, rest, false)).
        { intros rest Hr. apply all_digits_b in Hd as [D1 D2]. unfold scan_num. cbn [app cur tl]. change (43 =? c_minus) with false. change (43 =? c_plus) with true. cbn [orb].
          rewrite (take_while_app is_digit d rest D2 (boundary_no_digit _ Hr)), (drop_while_app is_digit d rest D2 (boundary_no_digit _ Hr)).
          destruct (boundary_no_num _ Hr) as (B1 & B2 & B3). rewrite B1, B2, B3. cbn [orb app]. rewrite app_nil_r. reflexivity. }
        destruct (num_tok F (43 :: d) false) as [t2|] eqn:Et2.
        * assert (Hl2 : lexes (43 :: d) [LP t2]).
          { apply lexes_num; [discriminate | reflexivity|]. intros rest Hr. exists false. split; [apply Hsc; exact Hr | exact Et2]. }
          left. exists [LP t; LP t2]. split.
          { intros rest Hr. rewrite Hcat, Hl2 by exact Hr. apply (cat_app [LP t] [LP t2]). }
          split; [apply (bal_app [LP t] [LP t2]); apply (bal_single Json); eapply num_scalar; eassumption|].
          split; [|apply num_scalar in Et; destruct t; try reflexivity; discriminate].
          apply num_scalar in Et. apply num_scalar in Et2.
          apply colons_cons; [intro E0; injection E0 as ->; discriminate|]. apply colons_cons; [intro E0; injection E0 as ->; discriminate | apply colons_nil].
        * right. exists [LP t]. split.
          { intros rest Hr. rewrite Hcat. assert (Hb : lexs ((43 :: d) ++ rest) = ([], true)); [|rewrite Hb; reflexivity].
            eapply lexs_err. unfold lex1. cbn [app length scan]. rewrite not_ws_drop by reflexivity. cbn [cur tl].
            change (43 =? 0) with false. change (43 =? c_slash) with false. change (punct Json 43) with (@None tok). change (num_start Json 43) with true. cbn iota.
            specialize (Hsc rest Hr). cbn [app] in Hsc. rewrite Hsc, Et2. reflexivity. }
          apply num_scalar in Et. split; [apply colons_cons; [intro E0; injection E0 as ->; discriminate | apply colons_nil]|].
          destruct t; try reflexivity; discriminate.
      + right. exists []. split; [|split; [apply colons_nil | reflexivity]]. intros rest Hr. eapply lexs_err. apply Hlex.
    - destruct (number_bad_or F Json (sg ++ ip ++ fr ++ ex)) as [[t Ht]|Hbad].
      + exists sg, ip, fr, ex. auto.
      + apply (one_value _ (LP t)); [exact Ht|].
        destruct (number_scan Json _ _ _ _ Hp Hno) as (S1 & S2 & S3 & S4). set (s := sg ++ ip ++ fr ++ ex) in *.
        destruct s as [|x s'] eqn:Es; [congruence|]. cbn [cur] in S3. destruct (num_start_cases Json _ S3) as (H1 & H2 & H3 & H4).
        specialize (Ht [] (or_introl eq_refl)). rewrite app_nil_r in Ht.
        assert (Hl : lex1 F Json (x :: s') = ([], match num_tok F (x :: s') match fr, ex with [], [] => false | _, _ => true end with Some t => Some (LP t) | None => None end)).
        { unfold lex1. cbn [length scan]. rewrite not_ws_drop by exact H1. cbn [cur tl]. rewrite H2, H3, H4, S3. specialize (S1 [] (or_introl eq_refl)). rewrite app_nil_r in S1. rewrite S1.
          destruct (num_tok F (x :: s') match fr, ex with [], [] => false | _, _ => true end); reflexivity. }
        destruct (num_tok F (x :: s') match fr, ex with [], [] => false | _, _ => true end) as [t0|] eqn:E0.
        * rewrite (lexs_cons F Json _ _ (LP t0) Hl) in Ht by (apply num_scalar in E0; intro E; injection E as ->; discriminate).
          unfold cat in Ht. cbn [fst snd app] in Ht. assert (t0 = t) by congruence. subst t0. eapply num_scalar; exact E0.
        * rewrite (lexs_err F Json _ _ Hl) in Ht. discriminate.
      + right. exists []. split; [exact Hbad|]. split; [apply colons_nil | reflexivity].
  Qed.

  Lemma gap_boundary_r g s : gap g -> boundary s -> boundary (g ++ s).
  Proof.
    intros Hg Hs. destruct Hg as [|x g Hx|body g|body g]; [exact Hs|right..]; cbn [app cur]; [|reflexivity|reflexivity].
    destruct Hx as [-> | [-> | [-> | ->]]]; reflexivity.
  Qed.
  Lemma piece_gap0 g : gap g -> piece g.
  Proof. intro Hg. rewrite <- (app_nil_r g). apply piece_gap; [exact Hg | apply piece_nil]. Qed.
  Lemma gap_boundary0 g : gap g -> boundary g.
  Proof. intro Hg. rewrite <- (app_nil_r g). apply gap_boundary_r; [exact Hg | left; reflexivity]. Qed.
  Lemma json_pieces :
    (forall s, json gap any_number any_body s -> valpiece s) /\
    (forall s, elements gap any_number any_body s -> piece s) /\ (forall s, members gap any_number any_body s -> piece s).
  Proof.
    apply (json_mutind gap any_number any_body valpiece piece piece).
    - intros s H. destruct (lexes_words F Json s H) as (t & L1 & L2 & _). eapply one_value; eassumption.
    - intros s H. apply number_piece. exact H.
    - intros b [x H]. apply (one_value _ (LStr x)); [apply lexes_weak, lexes_quoted; exact H | reflexivity].
    - intros g H. apply valpiece_wrap; [left; auto | apply piece_gap0; exact H].
    - intros s _ H. apply valpiece_wrap; [left; auto | exact H].
    - intros g H. apply valpiece_wrap; [right; left; auto | apply piece_gap0; exact H].
    - intros s _ H. apply valpiece_wrap; [right; left; auto | exact H].
    - intros a x b Ha _ Hx Hb. apply piece_gap; [exact Ha|]. apply piece_app; [apply valpiece_piece; exact Hx | apply gap_boundary0; exact Hb | apply piece_gap0; exact Hb].
    - intros a x b s Ha _ Hx Hb _ Hs. apply piece_gap; [exact Ha|]. apply piece_app; [apply valpiece_piece; exact Hx | |].
      + apply gap_boundary_r; [exact Hb | right; reflexivity].
      + apply piece_gap; [exact Hb | apply piece_comma; exact Hs].
    - intros a k b c x d Ha Hk Hb Hc _ Hx Hd. apply piece_gap; [exact Ha|]. apply piece_str; [exact Hk|]. apply piece_gap; [exact Hb|].
      apply piece_colon. apply valpiece_gap; [exact Hc|]. apply valpiece_app; [exact Hx | apply gap_boundary0; exact Hd | apply piece_gap0; exact Hd].
    - intros a k b c x d s Ha Hk Hb Hc _ Hx Hd _ Hs. apply piece_gap; [exact Ha|]. apply piece_str; [exact Hk|]. apply piece_gap; [exact Hb|].
      apply piece_colon. apply valpiece_gap; [exact Hc|]. apply valpiece_app; [exact Hx | apply gap_boundary_r; [exact Hd | right; reflexivity] |].
      apply piece_gap; [exact Hd | apply piece_comma; exact Hs].
  Qed.

  (** The tokens of a JSON text. *)
  Theorem json_good g1 s g2 l b : gap g1 -> json gap any_number any_body s -> gap g2 -> lexs (g1 ++ s ++ g2) = (l, b) -> closed l b /\ colons l b.
  Proof.
    intros H1 Hs H2 E. pose proof (proj1 json_pieces s Hs) as Hv. apply valpiece_piece in Hv.
    pose proof (piece_gap g1 _ H1 (piece_app s g2 Hv (gap_boundary0 g2 H2) (piece_gap0 g2 H2))) as Hp.
    destruct Hp as [(la & A & B & C)|(p & A & B)].
    - rewrite (lexes_end F Json _ _ A) in E. injection E as <- <-. split; [apply bal_closed; exact B | exact C].
    - specialize (A [] (or_introl eq_refl)). rewrite app_nil_r in A. rewrite A in E. injection E as <- <-. split; [left; reflexivity | exact B].
  Qed.
End Texts.
