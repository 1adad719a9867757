(** The JSON readers take exactly the token sequences of SpecAcc.v: the readers of
    the types, and the whole. *)
From Verif Require Import Base Utf8 Types BinModel Text TextModel TextSim TextToks TextLex TextRead SpecText SpecGram SpecObj SpecList TextGram TextMain TextFuel TextLocal TextRun TextEmbed TextObj TextList SpecTok TokLex SpecDoc Doc SpecAcc AccBase AccDoc.
Local Open Scope N_scope.

Section De.
  Variables (F : flt) (c : cfg) (G : env).
  Notation L := tok_lexer.
  Notation both := (both F Json).
  Notation atx := (atx F Json).
  Notation kd := (kd F Json).
  Notation kh := (kh F Json).
  Notation good := (good F Json).
  Notation DE := (de_text L F c G Json).

  (** *** More generic steps *)
  Lemma both_ok_ext {A} n (m m' : nat -> @pm tst A) P : (forall j u u' a, m j u = (u', Ok a) <-> m' j u = (u', Ok a)) -> both n m P -> both n m' P.
  Proof.
    intros H [Hi Hf]. split.
    - intros u u' a xs0 b Ha E. apply H in E. exact (Hi u u' a xs0 b Ha E).
    - intros nx xs a HP. destruct (Hf nx xs a HP) as [N HN]. exists N. intros j Hj rest b u Hn Hg Ha. destruct (HN j Hj rest b u Hn Hg Ha) as (u' & E & A'). exists u'. split; [apply H; exact E | exact A'].
  Qed.
  Lemma both_fin {A} n (m : nat -> @pm tst A) (ok : A -> Prop) : (forall j u u' v, m j u = (u', Ok v) -> u' = u /\ ok v) -> (forall j u v, ok v -> m j u = (u, Ok v)) ->
    both n m (fun _ xs v => xs = [] /\ ok v).
  Proof.
    intros H1 H2. split.
    - intros u u' v xs0 b Ha E. destruct (H1 _ _ _ _ E) as [-> Ho]. exists [], xs0. split; [reflexivity|]. split; [exact Ha|]. split; [congruence|]. auto.
    - intros nx xs v [-> Ho]. exists O. intros j _ rest b u _ _ Ha. exists u. split; [apply H2; exact Ho | exact Ha].
  Qed.
  Lemma both_or {A} n (m m1 m2 : nat -> @pm tst A) P1 P2 :
    both n m1 P1 -> both n m2 P2 ->
    (forall j u u' a, m j u = (u', Ok a) -> m1 j u = (u', Ok a) \/ m2 j u = (u', Ok a)) ->
    (forall j nx xs rest b u u' a, atx u (xs ++ rest) b -> P1 nx xs a -> m1 j u = (u', Ok a) -> m j u = (u', Ok a)) ->
    (forall j nx xs rest b u u' a, atx u (xs ++ rest) b -> P2 nx xs a -> m2 j u = (u', Ok a) -> m j u = (u', Ok a)) ->
    both n m (fun nx xs a => P1 nx xs a \/ P2 nx xs a).
  Proof.
    intros [I1 F1] [I2 F2] H H1 H2. split.
    - intros u u' a xs0 b Ha E. destruct (H _ _ _ _ E) as [E1|E1].
      + destruct (I1 _ _ _ _ _ Ha E1) as (xs & rest & ? & ? & ? & ?). exists xs, rest. auto.
      + destruct (I2 _ _ _ _ _ Ha E1) as (xs & rest & ? & ? & ? & ?). exists xs, rest. auto.
    - intros nx xs a [HP|HP].
      + destruct (F1 _ _ _ HP) as [N HN]. exists N. intros j Hj rest b u Hn Hg Ha. destruct (HN j Hj rest b u Hn Hg Ha) as (u' & E & A'). exists u'. split; [|exact A']. exact (H1 _ _ _ _ _ _ _ _ Ha HP E).
      + destruct (F2 _ _ _ HP) as [N HN]. exists N. intros j Hj rest b u Hn Hg Ha. destruct (HN j Hj rest b u Hn Hg Ha) as (u' & E & A'). exists u'. split; [|exact A']. exact (H2 _ _ _ _ _ _ _ _ Ha HP E).
  Qed.

  Lemma pbind_ext {A B} (m m' : @pm tst A) (f f' : A -> @pm tst B) u : m u = m' u -> (forall a v, f a v = f' a v) -> pbind m f u = pbind m' f' u.
  Proof. intros H1 H2. unfold pbind. rewrite H1. destruct (m' u) as [u1 [a|e|p|]]; try reflexivity. apply H2. Qed.

  (** *** Loops in brackets *)
  Section Brackets.
    Variables (op cl : N) (kop kcl : tok).
    Hypothesis Hop : forall x, kd x = kop <-> x = XP op.
    Hypothesis Hcl : forall x, kd x = kcl <-> x = XP cl.
    Hypothesis Sop : simple kop.
    Hypothesis Scl : simple kcl.
    Hypothesis Hcc : kcl <> KComma.
    Lemma both_loop {A B} n (cond : tst -> bool) (cnd : option lexeme -> bool) (body item : nat -> A -> @pm tst A) (I : A -> rel A) (J : A -> list lexeme -> A -> Prop) (a0 : A) (fin : A -> @pm tst B) (ok : A -> B -> Prop) w1 w2 w3 :
      (forall u xs b, atx u xs b -> cond u = cnd (head xs)) ->
      (forall j a u, cond u = true -> body j a u = pbind (item j a) (fun a' => pbind (eat_comma L kcl w2) (fun _ => pret a')) u) ->
      (forall a, both n (fun j => item j a) (I a)) ->
      (forall a nx l a', hstr nx = None -> (I a nx l a' <-> J a l a')) ->
      (forall a l a', J a l a' -> exists x r, l = x :: r /\ cnd (Some x) = true) ->
      cnd (Some (XP cl)) = false ->
      (forall a u u' v, fin a u = (u', Ok v) -> u' = u /\ ok a v) -> (forall a u v, ok a v -> fin a u = (u, Ok v)) ->
      both n (fun j => pbind (expect L kop w1) (fun _ => pbind (while_ j cond (body j) a0) (fun a => pbind (expect L kcl w3) (fun _ => fin a))))
        (fun _ xs v => exists ls ys a, run J a0 ls a /\ listed ls ys /\ xs = between op cl ys /\ ok a v).
    Proof.
      intros Hcond Hbody Hit HI Hst Hc0 Hf1 Hf2.
      set (body' := fun j a => pbind (item j a) (fun a' => pbind (eat_comma L kcl w2) (fun _ => pret a'))).
      assert (Hw : forall j k a u, while_ k cond (body j) a u = while_ k cond (body' j) a u).
      { intros j k. induction k as [|k IH]; intros a u; [reflexivity|]. cbn [while_]. destruct (cond u) eqn:Ec; [|reflexivity].
        apply pbind_ext; [exact (Hbody _ _ _ Ec) | exact IH]. }
      apply (both_ext F Json n (fun j => pbind (expect L kop w1) (fun _ => pbind (while_ j cond (body' j) a0) (fun a => pbind (expect L kcl w3) (fun _ => fin a))))).
      { intros j u. apply pbind_ext; [reflexivity|]. intros _ u1. apply pbind_ext; [symmetry; apply Hw | reflexivity]. }
      eapply both_weak.
      - apply (both_bind F Json n (fun _ => expect L kop w1) (fun j _ => pbind (while_ j cond (body' j) a0) (fun a => pbind (expect L kcl w3) (fun _ => fin a))) (r_tok F Json kop) (fun _ => r_bind (iter cnd (item_rel F kcl I) a0) (fun a => r_bind (r_tok F Json kcl) (fun _ _ xs v => xs = [] /\ ok a v)))).
        + apply both_expect; exact Sop.
        + intros _. apply (both_bind F Json n (fun j => while_ j cond (body' j) a0) (fun j a => pbind (expect L kcl w3) (fun _ => fin a))).
          * apply (both_while F Json cnd (item_rel F kcl I) cond body' Hcond). intro a. unfold body', item_rel.
            apply (both_bind F Json n (fun j => item j a) (fun j a' => pbind (eat_comma L kcl w2) (fun _ => pret a'))); [apply Hit|]. intro a'.
            apply (both_bind F Json n (fun _ => eat_comma L kcl w2) (fun _ _ => pret a')); [apply both_comma; assumption|]. intros _. apply both_ret.
          * intro a. apply (both_bind F Json n (fun _ => expect L kcl w3) (fun _ _ => fin a)); [apply both_expect; exact Scl|]. intros _. apply both_fin; [intros _; apply Hf1 | intros _; apply Hf2].
      - intros nx xs v. apply (bracketed_iff F op cl kop kcl Hop Hcl (proj2 Scl) cnd I J HI Hst Hc0 ok).
    Qed.

    (** A fixed number of items. *)
    Context {T : Type}.
    Variable J : T -> list lexeme -> val -> Prop.
    Hypothesis Hst : forall t l v, J t l v -> exists x r, l = x :: r /\ x <> XP cl.
    Lemma both_all n (p : nat -> T -> @pm tst val) ts : (forall t, In t ts -> both n (fun j => p j t) (one_rel cl J t)) ->
      both n (fun j => de_list (map (p j) ts)) (all_rel cl J ts).
    Proof.
      induction ts as [|t ts IH]; intro Hp.
      - eapply both_weak; [apply (both_ret F Json n [])|]. intros nx xs v. split; [intros [-> ->]; constructor|]. intro H. inversion H; subst. split; reflexivity.
      - cbn [map de_list]. eapply both_weak.
        + apply (both_bind F Json n (fun j => p j t) (fun j v => pbind (de_list (map (p j) ts)) (fun r => pret (v :: r))) (one_rel cl J t)
            (fun v => r_bind (all_rel cl J ts) (fun r => r_ret (v :: r)))); [apply Hp; left; reflexivity|]. intro v.
          apply (both_bind F Json n (fun j => de_list (map (p j) ts)) (fun _ r => pret (v :: r))); [apply IH; intros t' Ht'; apply Hp; right; exact Ht' | intro; apply both_ret].
        + intros nx xs vs. split.
          * intros (x1 & x2 & v & -> & H1 & x3 & x4 & r & -> & H2 & -> & ->). rewrite app_nil_r in *. cbn [hd_of] in H2. constructor; assumption.
          * intro H. inversion H as [|t' ts' nx' xs1 xs2 v vs' H1 H2]; subst. exists xs1, xs2, v. split; [reflexivity|]. split; [exact H1|].
            exists xs2, [], vs'. rewrite app_nil_r. split; [reflexivity|]. split; [exact H2 | split; reflexivity].
    Qed.
    Lemma both_fixed n (p : nat -> T -> @pm tst val) ts w1 w2 : (forall t, In t ts -> both n (fun j => p j t) (one_rel cl J t)) ->
      both n (fun j => pbind (expect L kop w1) (fun _ => pbind (de_list (map (p j) ts)) (fun vs => pbind (expect L kcl w2) (fun _ => pret vs))))
        (fun _ xs vs => exists ls ys, each_item J ts ls vs /\ listed ls ys /\ xs = between op cl ys).
    Proof.
      intro Hp. eapply both_weak.
      - apply (both_bind F Json n (fun _ => expect L kop w1) (fun j _ => pbind (de_list (map (p j) ts)) (fun vs => pbind (expect L kcl w2) (fun _ => pret vs))) (r_tok F Json kop)
          (fun _ => r_bind (all_rel cl J ts) (fun a => r_bind (r_tok F Json kcl) (fun _ => r_ret a)))); [apply both_expect; exact Sop|]. intros _.
        apply (both_bind F Json n (fun j => de_list (map (p j) ts)) (fun j vs => pbind (expect L kcl w2) (fun _ => pret vs))); [apply both_all; exact Hp|]. intro vs.
        apply (both_bind F Json n (fun _ => expect L kcl w2) (fun _ _ => pret vs)); [apply both_expect; exact Scl|]. intros _. apply both_ret.
      - intros nx xs v. apply (fixed_iff F op cl kop kcl Hop Hcl J Hst).
    Qed.
  End Brackets.

  (** *** Skipped values *)
  Lemma good_weight x : good x -> weight x = wtk (kd x).
  Proof.
    intros [r H]. destruct x as [p|w|s|q s].
    - destruct H as [H|[Q _]]; [|discriminate]. cbn [In] in H. repeat destruct H as [<-|H]; try reflexivity. destruct H.
    - destruct H as [H _]. unfold word in H. destruct H as [-> |[-> | ->]]; reflexivity.
    - assert (Hg : good (XN s)) by (exists r; exact H). destruct (num_good F s Hg) as (t & E & Ht). unfold AccBase.kd. rewrite E. cbn [ltok_kind weight].
      destruct Ht as [[Hv _]|(b & -> & _)]; [|reflexivity]. destruct Hv as (sg & ip & fr & ex & _ & _ & _ & Hv). destruct fr; [destruct ex; [destruct sg; destruct Hv as [_ ->]; reflexivity|]|]; destruct Hv as (b & _ & ->); reflexivity.
    - reflexivity.
  Qed.
  Lemma total_app xs ys : total (xs ++ ys) = (total xs + total ys)%Z.
  Proof. induction xs as [|x xs IH]; cbn [app total]; [reflexivity | rewrite IH; lia]. Qed.
  Lemma next_eof u b u' a : atx u [] b -> l_next L u = (u', Ok a) -> u' = u.
  Proof. intros [[(T & _) _] _] E. cbn [l_next tok_lexer] in E. unfold tok_next in E. cbn [map] in T. rewrite T in E. destruct (t_bad u); congruence. Qed.
  Definition depth_ok (d : N) (xs : list lexeme) : Prop :=
    xs <> [] /\ (Z.of_N d + total xs = 0)%Z /\ forall p q, xs = p ++ q -> p <> [] -> q <> [] -> (0 < Z.of_N d + total p)%Z.
  Lemma loop_step d x : good x -> d <> 0 \/ x = XP 91 \/ x = XP 123 ->
    Z.of_N (let d1 := match kd x with KBlockOpen | KCurlyOpen => d + 1 | _ => d end in match kd x with KBlockClose | KCurlyClose => d1 - 1 | _ => d1 end) = (Z.of_N d + weight x)%Z.
  Proof.
    intros Hg Hd. rewrite (good_weight x Hg). pose proof (kd_inv F x) as Q. destruct (kd x) eqn:Ek; cbn [wtk] in *; try lia; try discriminate Q.
    - destruct Hd as [Hd|[-> | ->]]; [lia | discriminate | discriminate].
    - destruct Hd as [Hd|[-> | ->]]; [lia | discriminate | discriminate].
  Qed.
  Lemma whole_inv n : forall d u u' a xs0 b, atx u xs0 b -> d <> 0 \/ head xs0 = Some (XP 91) \/ head xs0 = Some (XP 123) -> whole_loop L n d u = (u', Ok a) ->
    exists xs rest, xs0 = xs ++ rest /\ atx u' rest b /\ goes rest b /\ depth_ok d xs.
  Proof.
    induction n as [|n IH]; intros d u u' a xs0 b Ha Hd E; [discriminate|]. destruct xs0 as [|x xs0].
    { exfalso. destruct Hd as [Hd|[Hd|Hd]]; try discriminate Hd. destruct Ha as [Ha _]. cbn [map] in Ha. pose proof (whole_eof Json (S n) d u b Ha Hd) as Q. rewrite E in Q. discriminate Q. }
    cbn [whole_loop] in E. rewrite (atx_tok F Json _ _ _ Ha) in E. cbn [head hd_of AccBase.kh] in E.
    assert (Hg : good x) by (destruct Ha as [_ Hg]; inversion Hg; assumption).
    assert (Hs := loop_step d x Hg). cbv zeta in Hs. set (d2 := match kd x with KBlockClose | KCurlyClose => _ - 1 | _ => _ end) in *.
    assert (Hd2 : Z.of_N d2 = (Z.of_N d + weight x)%Z) by (apply Hs; cbn [head hd_of] in Hd; destruct Hd as [Hd|[Hd|Hd]]; [auto | injection Hd; auto | injection Hd; auto]).
    clearbody d2. clear Hs. unfold pbind in E. destruct (l_next L u) as [u1 [r|e|p|]] eqn:En; try discriminate. destruct (next_inv F Json _ _ _ _ _ _ Ha En) as [A1 G1].
    destruct (d2 =? 0) eqn:E0.
    - apply N.eqb_eq in E0. unfold pret in E. injection E as <- _. exists [x], xs0. split; [reflexivity|]. split; [exact A1|]. split; [exact G1|]. split; [discriminate|].
      split; [cbn [total]; lia|]. intros p q Hpq Hp Hq. destruct p as [|y [|z p]]; [congruence | destruct q; [congruence | discriminate] | discriminate].
    - apply N.eqb_neq in E0. destruct (IH d2 u1 u' a xs0 b A1 (or_introl E0) E) as (xs & rest & -> & A2 & G2 & D1 & D2 & D3). exists (x :: xs), rest. split; [reflexivity|]. split; [exact A2|]. split; [exact G2|].
      split; [discriminate|]. split; [cbn [total]; lia|]. intros p q Hpq Hp Hq. destruct p as [|y p]; [congruence|]. injection Hpq as <- ->. cbn [total].
      destruct p as [|z p]; [cbn [total]; lia|]. assert (Hz : z :: p <> []) by discriminate. specialize (D3 _ _ eq_refl Hz Hq). lia.
  Qed.
  Lemma whole_fwd : forall xs n d u rest b, atx u (xs ++ rest) b -> goes rest b -> d <> 0 \/ head xs = Some (XP 91) \/ head xs = Some (XP 123) -> depth_ok d xs -> (length xs <= n)%nat ->
    exists u', whole_loop L n d u = (u', Ok tt) /\ atx u' rest b.
  Proof.
    induction xs as [|x xs IH]; intros n d u rest b Ha Hg Hd (D1 & D2 & D3) Hn; [congruence|]. destruct n as [|n]; [cbn [length] in Hn; lia|]. cbn [app] in Ha.
    cbn [whole_loop]. rewrite (atx_tok F Json _ _ _ Ha). cbn [head hd_of AccBase.kh].
    assert (Hgx : good x) by (destruct Ha as [_ Hgx]; inversion Hgx; assumption).
    assert (Hs := loop_step d x Hgx). cbv zeta in Hs. set (d2 := match kd x with KBlockClose | KCurlyClose => _ - 1 | _ => _ end) in *.
    assert (Hd2 : Z.of_N d2 = (Z.of_N d + weight x)%Z) by (apply Hs; cbn [head hd_of] in Hd; destruct Hd as [Hd|[Hd|Hd]]; [auto | injection Hd; auto | injection Hd; auto]).
    clearbody d2. clear Hs. destruct (next_fwd F Json _ _ _ _ Ha (goes_app _ _ _ Hg)) as (u1 & E1 & A1 & _). unfold pbind. rewrite E1. cbn [total] in D2.
    destruct xs as [|y xs].
    - cbn [total] in D2. replace (d2 =? 0) with true by (symmetry; apply N.eqb_eq; lia). exists u1. split; [reflexivity | exact A1].
    - assert (Hpos : (0 < Z.of_N d2)%Z).
      { assert (P1 : [x] <> []) by discriminate. assert (P2 : y :: xs <> []) by discriminate. specialize (D3 [x] (y :: xs) eq_refl P1 P2). cbn [total] in D3. lia. }
      replace (d2 =? 0) with false by (symmetry; apply N.eqb_neq; lia). apply (IH n d2 u1 rest b A1 Hg); [left; lia | | cbn [length] in *; lia].
      split; [discriminate|]. split; [lia|]. intros p q Hpq Hp Hq. assert (P1 : x :: p <> []) by discriminate. specialize (D3 (x :: p) q). rewrite Hpq in D3. specialize (D3 eq_refl P1 Hq). cbn [total] in D3. lia.
  Qed.
  Lemma good_open x : good x -> (forall p, x <> XP p) -> match kd x with KF64 _ | KI64 _ | KStr | KU64 _ | KBool _ | KNull => True | _ => False end.
  Proof.
    intros Hg Hx. pose proof (good_weight x Hg) as W. destruct x as [p|w|s|q s]; [congruence| | |exact I].
    - destruct Hg as [r [Hw _]]. destruct Hw as [-> |[-> | ->]]; exact I.
    - destruct (num_good F s Hg) as (t & E & Ht). unfold AccBase.kd. rewrite E. cbn [ltok_kind]. destruct Ht as [[Hv _]|(b & -> & _)]; [|exact I].
      destruct Hv as (sg & ip & fr & ex & _ & _ & _ & Hv). destruct fr; [destruct ex; [destruct sg; destruct Hv as [_ ->]; exact I|]|]; destruct Hv as (b & _ & ->); exact I.
  Qed.
  Lemma acc_whole n : both n (fun j => whole_field L j) (fun _ xs _ => ignored xs).
  Proof.
    split.
    - intros u u' a xs0 b Ha E. unfold whole_field in E. rewrite (atx_tok F Json _ _ _ Ha) in E. destruct xs0 as [|x xs0]; [discriminate|]. cbn [head hd_of AccBase.kh] in E.
      assert (One : (forall p, x <> XP p) -> l_next L u = (u', Ok a) -> exists xs rest, x :: xs0 = xs ++ rest /\ atx u' rest b /\ (xs <> [] -> goes rest b) /\ ignored xs).
      { intros Hx En. destruct (next_inv F Json _ _ _ _ _ _ Ha En) as [A1 G1]. exists [x], xs0. split; [reflexivity|]. split; [exact A1|]. split; [auto|]. left. exists x. auto. }
      assert (Grp : x = XP 91 \/ x = XP 123 -> whole_loop L n 0 u = (u', Ok a) -> exists xs rest, x :: xs0 = xs ++ rest /\ atx u' rest b /\ (xs <> [] -> goes rest b) /\ ignored xs).
      { intros Hx En. destruct (whole_inv n 0 u u' a (x :: xs0) b Ha) as (xs & rest & E1 & A1 & G1 & D1 & D2 & D3); [right; cbn [head hd_of]; destruct Hx as [-> | ->]; auto | exact En|].
        exists xs, rest. split; [exact E1|]. split; [exact A1|]. split; [auto|]. right. destruct xs as [|y xs]; [congruence|]. injection E1 as <- ->. exists x, xs. split; [reflexivity|]. split; [exact Hx|]. split; [exact D2|]. exact D3. }
      pose proof (kd_inv F x) as Q. destruct (kd x) eqn:Ek; try discriminate E;
        try (apply One; [intro p; first [rewrite Q; discriminate | destruct Q as (q & Q); first [rewrite Q; discriminate | destruct Q as [s Q]; rewrite Q; discriminate]]|exact E]).
      + apply Grp; [auto | exact E].
      + apply Grp; [auto | exact E].
    - intros nx xs [] [(x & -> & Hx)|(x & r & -> & Hx & D2 & D3)].
      + exists O. intros j _ rest b u Hn Hg Ha. cbn [app] in Ha. assert (Hgx : good x) by (destruct Ha as [_ Hgx]; inversion Hgx; assumption).
        destruct (next_fwd F Json _ _ _ _ Ha Hg) as (u1 & E1 & A1 & _). exists u1. split; [|exact A1]. unfold whole_field. rewrite (atx_tok F Json _ _ _ Ha). cbn [head hd_of AccBase.kh].
        pose proof (good_open x Hgx Hx) as Q. destruct (kd x); try contradiction; exact E1.
      + exists (length (x :: r)). intros j Hj rest b u Hn Hg Ha.
        destruct (whole_fwd (x :: r) j 0 u rest b Ha Hg) as (u' & E & A'); [right; cbn [head hd_of]; destruct Hx as [-> | ->]; auto | split; [discriminate|]; split; [lia|]; intros p q Hpq Hp Hq; specialize (D3 p q Hpq Hp Hq); lia | exact Hj|].
        exists u'. split; [|exact A']. unfold whole_field. rewrite (atx_tok F Json _ _ _ Ha). cbn [app head hd_of AccBase.kh]. destruct Hx as [-> | ->]; exact E.
  Qed.

  (** *** Durations *)
  Lemma acc_colon n : both n (fun _ => p_colon L) (fun _ xs _ => xs = [xcolon]).
  Proof.
    eapply both_weak; [apply both_expect; split; [reflexivity | discriminate]|]. intros nx xs v. split.
    - intros (x & -> & H). apply kd_colon in H. subst. reflexivity.
    - intros ->. eexists. split; [reflexivity | apply kd_colon; reflexivity].
  Qed.
  Lemma curly_op x : kd x = KCurlyOpen <-> x = XP 123. Proof. apply kd_lcur. Qed.
  Definition not_close (k : tok) (o : option lexeme) : bool := negb (tok_is (kh o) k).
  Lemma not_close_cond k u xs b : atx u xs b -> negb (tok_is (l_tok L u) k) = not_close k (head xs).
  Proof. intro Ha. rewrite (atx_tok F Json _ _ _ Ha). reflexivity. Qed.
  Notation dacc := (option N * option N)%type.
  Definition num_item (k : ik) (f : N -> dacc) : @pm tst dacc := pbind (p_colon L) (fun _ => pbind (de_u64 L k) (fun v => pret (f v))).
  Definition ditemx (a : dacc) : @pm tst dacc :=
    pbind (de_str L) (fun key =>
      if str_eqb key (chars "secs") then
        match fst a with Some _ => perr L (CannotParse (chars "Duration can only have one secs field")) | None => num_item U64 (fun v => (Some v, snd a)) end
      else if str_eqb key (chars "nanos") then
        match snd a with Some _ => perr L (CannotParse (chars "Duration can only have one nanos field")) | None => num_item U32 (fun v => (fst a, Some v)) end
      else perr L (CannotParse (chars "Duration can only have secs or nanos fields, got " ++ key))).
  Definition num_rel (k : ik) (f : N -> dacc) : rel dacc := fun _ xs a' => exists s v, xs = [xcolon; XN s] /\ nat_means (unplus s) v /\ v <= u_max k /\ a' = f v.
  Lemma acc_num n k f : k = U64 \/ k = U32 -> both n (fun _ => num_item k f) (num_rel k f).
  Proof.
    intro K. eapply both_weak.
    - apply (both_bind F Json n (fun _ => p_colon L) (fun _ _ => pbind (de_u64 L k) (fun v => pret (f v))) _ (fun _ => r_bind (fun _ xs v => exists s, xs = [XN s] /\ nat_means (unplus s) v /\ v <= u_max k) (fun v => r_ret (f v))) (acc_colon n)).
      intros _. apply (both_bind F Json n (fun _ => de_u64 L k) (fun _ v => pret (f v))); [apply acc_u64; exact K | intro; apply both_ret].
    - intros nx xs a'. split.
      + intros (x1 & x2 & [] & -> & -> & x3 & x4 & v & -> & (s & -> & H1 & H2) & -> & ->). exists s, v. auto.
      + intros (s & v & -> & H1 & H2 & ->). exists [xcolon], [XN s], tt. split; [reflexivity|]. split; [reflexivity|]. exists [XN s], [], v. split; [reflexivity|]. split; [eauto | split; reflexivity].
  Qed.
  Definition dstepx (a : dacc) (l : list lexeme) (a' : dacc) : Prop :=
    exists q s v, (l = [XS q (chars "secs"); xcolon; XN s] /\ fst a = None /\ nat_means (unplus s) v /\ v <= u_max U64 /\ a' = (Some v, snd a)) \/
                  (l = [XS q (chars "nanos"); xcolon; XN s] /\ snd a = None /\ nat_means (unplus s) v /\ v <= u_max U32 /\ a' = (fst a, Some v)).
  Lemma acc_ditem n a : both n (fun _ => ditemx a) (fun _ l a' => dstepx a l a').
  Proof.
    eapply both_weak.
    - apply (both_bind F Json n (fun _ => de_str L) (fun _ key =>
        if str_eqb key (chars "secs") then
          match fst a with Some _ => perr L (CannotParse (chars "Duration can only have one secs field")) | None => num_item U64 (fun v => (Some v, snd a)) end
        else if str_eqb key (chars "nanos") then
          match snd a with Some _ => perr L (CannotParse (chars "Duration can only have one nanos field")) | None => num_item U32 (fun v => (fst a, Some v)) end
        else perr L (CannotParse (chars "Duration can only have secs or nanos fields, got " ++ key))) _
        (fun key nx xs a' => key = chars "secs" /\ fst a = None /\ num_rel U64 (fun v => (Some v, snd a)) nx xs a' \/ key = chars "nanos" /\ snd a = None /\ num_rel U32 (fun v => (fst a, Some v)) nx xs a') (acc_str F n)).
      intro key. destruct (str_eqb key (chars "secs")) eqn:E1; [apply str_eqb_eq in E1; subst key|].
      + destruct (fst a) as [x|].
        * apply both_never; [discriminate|]. intros nx xs v [(_ & Q & _)|(Q & _)]; discriminate.
        * eapply both_weak; [apply acc_num; auto|]. intros nx xs v. split; [auto|]. intros [(_ & _ & H)|(Q & _)]; [exact H | discriminate].
      + assert (N1 : key <> chars "secs") by (intros ->; discriminate E1). destruct (str_eqb key (chars "nanos")) eqn:E2; [apply str_eqb_eq in E2; subst key|].
        * destruct (snd a) as [x|].
          -- apply both_never; [discriminate|]. intros nx xs v [(Q & _)|(_ & Q & _)]; [contradiction | discriminate].
          -- eapply both_weak; [apply acc_num; auto|]. intros nx xs v. split; [auto|]. intros [(Q & _)|(_ & _ & H)]; [contradiction | exact H].
        * assert (N2 : key <> chars "nanos") by (intros ->; discriminate E2). apply both_never; [discriminate|]. intros nx xs v [(Q & _)|(Q & _)]; contradiction.
    - intros nx xs a'. split.
      + intros (x1 & x2 & key & -> & (q & ->) & [(-> & H1 & s & v & -> & H2 & H3 & ->)|(-> & H1 & s & v & -> & H2 & H3 & ->)]); exists q, s, v; [left | right]; auto.
      + intros (q & s & v & [(-> & H1 & H2 & H3 & ->)|(-> & H1 & H2 & H3 & ->)]).
        * exists [XS q (chars "secs")], [xcolon; XN s], (chars "secs"). split; [reflexivity|]. split; [eauto|]. left. split; [reflexivity|]. split; [exact H1|]. exists s, v. auto.
        * exists [XS q (chars "nanos")], [xcolon; XN s], (chars "nanos"). split; [reflexivity|]. split; [eauto|]. right. split; [reflexivity|]. split; [exact H1|]. exists s, v. auto.
  Qed.
  Lemma drun_inv ls s o : run dstepx (None, None) ls (Some s, o) ->
    exists ms, Forall2 member_toks ms ls /\ s < 2 ^ 64 /\
      exists sa sb, nat_means (unplus sa) s /\ (ms = [(chars "secs", [XN sa])] /\ match o with Some x => x | None => 0 end = 0 \/
        nat_means (unplus sb) (match o with Some x => x | None => 0 end) /\ (ms = [(chars "secs", [XN sa]); (chars "nanos", [XN sb])] \/ ms = [(chars "nanos", [XN sb]); (chars "secs", [XN sa])])).
  Proof.
    assert (M : forall v, v <= u_max U64 -> v < 2 ^ 64) by (intros v Hv; change (u_max U64) with 18446744073709551615 in Hv; lia).
    intro C. inversion C as [|a l1 a1 r1 a2 S1 C1]; subst. destruct S1 as (q1 & s1 & v1 & [(-> & _ & M1 & B1 & ->)|(-> & _ & M1 & B1 & ->)]).
    - inversion C1 as [|a l2 a3 r2 a4 S2 C2]; subst.
      + exists [(chars "secs", [XN s1])]. split; [constructor; [exists q1; reflexivity | constructor]|]. split; [auto|]. exists s1, []. split; [exact M1|]. left. auto.
      + destruct S2 as (q2 & s2 & v2 & [(_ & Q & _)|(-> & _ & M2 & B2 & ->)]); [discriminate|].
        inversion C2 as [|a l3 a5 r3 a6 S3 C3]; subst.
        * exists [(chars "secs", [XN s1]); (chars "nanos", [XN s2])]. split; [constructor; [exists q1; reflexivity | constructor; [exists q2; reflexivity | constructor]]|]. split; [auto|]. exists s1, s2. split; [exact M1|]. right. split; [exact M2 | auto].
        * destruct S3 as (q3 & s3 & v3 & [(_ & Q & _)|(_ & Q & _)]); discriminate.
    - inversion C1 as [|a l2 a3 r2 a4 S2 C2]; subst.
      destruct S2 as (q2 & s2 & v2 & [(-> & _ & M2 & B2 & ->)|(_ & Q & _)]); [|discriminate].
      inversion C2 as [|a l3 a5 r3 a6 S3 C3]; subst.
      + exists [(chars "nanos", [XN s1]); (chars "secs", [XN s2])]. split; [constructor; [exists q1; reflexivity | constructor; [exists q2; reflexivity | constructor]]|]. split; [auto|]. exists s2, s1. split; [exact M2|]. right. split; [exact M1 | auto].
      + destruct S3 as (q3 & s3 & v3 & [(_ & Q & _)|(_ & Q & _)]); discriminate.
  Qed.
  Lemma drun_fwd ms ls a b sa sb : Forall2 member_toks ms ls -> a < 2 ^ 64 -> b <= 1000000000 -> nat_means (unplus sa) a ->
    (ms = [(chars "secs", [XN sa])] /\ b = 0 \/ nat_means (unplus sb) b /\ (ms = [(chars "secs", [XN sa]); (chars "nanos", [XN sb])] \/ ms = [(chars "nanos", [XN sb]); (chars "secs", [XN sa])])) ->
    exists o, run dstepx (None, None) ls (Some a, o) /\ b = match o with Some x => x | None => 0 end.
  Proof.
    intros Hm Ha Hb Ma H. assert (M : a <= u_max U64) by (change (u_max U64) with 18446744073709551615; lia). assert (M2 : b <= u_max U32) by (change (u_max U32) with 4294967295; lia).
    destruct H as [[-> ->]|[Mb [-> | ->]]].
    - inversion Hm as [|? l1 ? ls1 H1 H2]; subst. inversion H2; subst. destruct H1 as [q1 ->]. exists None. split; [|reflexivity]. econstructor; [|constructor]. exists q1, sa, a. left. auto.
    - inversion Hm as [|? l1 ? ls1 H1 H2]; subst. inversion H2 as [|? l2 ? ls2 H3 H4]; subst. inversion H4; subst. destruct H1 as [q1 ->]. destruct H3 as [q2 ->]. exists (Some b). split; [|reflexivity].
      econstructor; [|econstructor; [|constructor]]; [exists q1, sa, a; left; auto|]. exists q2, sb, b. right. cbn [fst snd]. auto.
    - inversion Hm as [|? l1 ? ls1 H1 H2]; subst. inversion H2 as [|? l2 ? ls2 H3 H4]; subst. inversion H4; subst. destruct H1 as [q1 ->]. destruct H3 as [q2 ->]. exists (Some b). split; [|reflexivity].
      econstructor; [|econstructor; [|constructor]]; [exists q1, sb, b; right; auto|]. exists q2, sa, a. left. cbn [fst snd]. auto.
  Qed.
  Definition dfin (a : dacc) : @pm tst val :=
    match fst a with
    | None => perr L (CannotParse (chars "Duration must have secs field"))
    | Some secs =>
      let ns := match snd a with Some x => x | None => 0 end in
      if 1000000000 <? ns then perr L (OutOfRange (chars "Duration nanos must be at most 1,000,000,000"))
      else if ns <? 1000000000 then pret (VDur secs ns)
      else if secs + 1 <? 2 ^ 64 then pret (VDur (secs + 1) 0)
      else pfail (Panic PDuration)
    end.
  Definition dok (a : dacc) (v : val) : Prop :=
    exists s, fst a = Some s /\ let b := match snd a with Some x => x | None => 0 end in
      (b < 1000000000 /\ v = VDur s b \/ b = 1000000000 /\ s + 1 < 2 ^ 64 /\ v = VDur (s + 1) 0).
  Lemma acc_dur n : both n (fun j => de_dur L j) (fun _ xs v => exists s ns, dur_toks xs s ns /\ v = VDur s ns).
  Proof.
    eapply both_weak.
    - apply (both_loop 123 125 KCurlyOpen KCurlyClose (kd_lcur F) (kd_rcur F)) with (cnd := not_close KCurlyClose) (item := fun _ => ditemx) (I := fun a _ l a' => dstepx a l a') (J := dstepx) (fin := dfin) (ok := dok) (w2 := chars ", or }").
      + split; [reflexivity | discriminate].
      + split; [reflexivity | discriminate].
      + discriminate.
      + intros u xs b. apply not_close_cond.
      + intros j a u _. unfold dur_body, ditemx, pbind. destruct (de_str L u) as [u1 [key|e|p|]]; reflexivity.
      + intro a. apply acc_ditem.
      + intros. reflexivity.
      + intros a l a' (q & s & v & [(-> & _)|(-> & _)]); eexists; eexists; (split; [reflexivity | reflexivity]).
      + reflexivity.
      + intros a u u' v E. unfold dfin, dok in *. destruct (fst a) as [s|]; [|discriminate]. cbv zeta in *. set (b := match snd a with Some x => x | None => 0 end) in *.
        destruct (1000000000 <? b) eqn:E1; [discriminate|]. destruct (b <? 1000000000) eqn:E2; [injection E as <- <-; split; [reflexivity|]; exists s; split; [reflexivity|]; left; split; [apply N.ltb_lt; exact E2 | reflexivity]|].
        destruct (s + 1 <? 2 ^ 64) eqn:E3; [|discriminate]. injection E as <- <-. split; [reflexivity|]. exists s. split; [reflexivity|]. right. apply N.ltb_ge in E1, E2. apply N.ltb_lt in E3. split; [lia | auto].
      + intros a u v (s & Hs & H). unfold dfin. rewrite Hs. cbv zeta in *. set (b := match snd a with Some x => x | None => 0 end) in *. destruct H as [[H ->]|(H & H2 & ->)].
        * replace (1000000000 <? b) with false by (symmetry; apply N.ltb_ge; lia). replace (b <? 1000000000) with true by (symmetry; apply N.ltb_lt; lia). reflexivity.
        * rewrite H. change (1000000000 <? 1000000000) with false. cbn iota. replace (s + 1 <? 2 ^ 64) with true by (symmetry; apply N.ltb_lt; lia). reflexivity.
    - intros nx xs v. split.
      + intros (ls & ys & [o1 o2] & Hr & Hl & -> & s & Hs & Ho). cbn [fst snd] in *. subst o1. destruct (drun_inv ls s o2 Hr) as (ms & Hm & Hlt & sa & sb & Ma & Hms). cbv zeta in Ho. set (b := match o2 with Some x => x | None => 0 end) in *.
        assert (Ho' : exists s0 ns, v = VDur s0 ns /\ (b < 1000000000 /\ s0 = s /\ ns = b \/ b = 1000000000 /\ s0 = s + 1 /\ s + 1 < 2 ^ 64 /\ ns = 0)).
        { destruct Ho as [[H ->]|(H & H2 & ->)]; [exists s, b | exists (s + 1), 0]; auto 8. }
        destruct Ho' as (s0 & ns & -> & Ho'). exists s0, ns. split; [|reflexivity]. exists ms, s, b. split; [exists ls, ys; auto|]. split; [exact Hlt|]. split; [|exact Ho']. exists sa, sb. auto.
      + intros (s & ns & (ms & a & b & (ls & ys & Hm & Hl & ->) & Ha & (sa & sb & Ma & Hms) & Hb) & ->).
        destruct (drun_fwd ms ls a b sa sb Hm Ha ltac:(destruct Hb; lia) Ma Hms) as (o & Hr & Eo). exists ls, ys, (Some a, o). split; [exact Hr|]. split; [exact Hl|]. split; [reflexivity|].
        exists a. split; [reflexivity|]. cbn [snd]. cbv zeta. rewrite <- Eo. destruct Hb as [(H & -> & ->)|(H & -> & H2 & ->)]; [left | right]; auto.
  Qed.

  (** *** Options *)
  Definition shape (xs : list lexeme) : Prop := exists x r, xs = x :: r /\ match x with XP p => p = 91 \/ p = 123 | _ => r = [] end.
  Lemma shape_open xs : shape xs -> exists x r, xs = x :: r /\ x <> XP 93 /\ x <> XP 125 /\ not_close KBlockClose (Some x) = true /\ not_close KCurlyClose (Some x) = true.
  Proof.
    intros (x & r & -> & Hx). exists x, r. split; [reflexivity|].
    assert (N1 : x <> XP 93 /\ x <> XP 125) by (destruct x; split; try discriminate; intro Q; injection Q as ->; destruct Hx; discriminate). destruct N1 as [N1 N2].
    split; [exact N1|]. split; [exact N2|]. unfold not_close. cbn [AccBase.kh]. split.
    - destruct (tok_is (kd x) KBlockClose) eqn:E; [|reflexivity]. apply tok_is_eq, kd_rbr in E. contradiction.
    - destruct (tok_is (kd x) KCurlyClose) eqn:E; [|reflexivity]. apply tok_is_eq, kd_rcur in E. contradiction.
  Qed.
  Notation xnull := [XW (chars "null")].
  Lemma acc_next_null n : both n (fun _ u => if tok_is (l_tok L u) KNull then pbind (l_next L) (fun _ => pret VNone) u else perr L (CannotParse []) u) (fun _ xs v => xs = xnull /\ v = VNone).
  Proof.
    eapply both_weak; [apply (both_scalar F n _ (fun t => match t with KNull => Some VNone | _ => None end) (fun x v => x = XW (chars "null") /\ v = VNone))|].
    - intro u. destruct (l_tok L u); try (intros u' a; discriminate). reflexivity.
    - reflexivity.
    - intros x a _. split.
      + intro H. pose proof (kd_inv F x) as Q. destruct (kd x); try discriminate H. injection H as <-. auto.
      + intros [-> ->]. reflexivity.
    - intros nx xs v. split; [intros (x & -> & -> & ->); auto | intros [-> ->]; eauto].
  Qed.
  Lemma acc_opt n (m : nat -> @pm tst val) P : both n m P -> (forall nx xs v, P nx xs v -> shape xs) ->
    both n (fun j => de_opt L Json (m j)) (fun nx xs v => xs = xnull /\ v = VNone \/ xs <> xnull /\ exists w, v = VSome w /\ P nx xs w).
  Proof.
    intros H Hs. apply (both_or n _ (fun _ u => if tok_is (l_tok L u) KNull then pbind (l_next L) (fun _ => pret VNone) u else perr L (CannotParse []) u)
      (fun j u => if tok_is (l_tok L u) KNull then perr L (CannotParse []) u else pmap VSome (m j) u) (fun _ xs v => xs = xnull /\ v = VNone) (fun nx xs v => xs <> xnull /\ exists w, v = VSome w /\ P nx xs w)).
    - apply acc_next_null.
    - pose proof (both_map F Json n VSome m P H) as [Mi Mf]. split.
      + intros u u' a xs0 b Ha E. destruct (tok_is (l_tok L u) KNull) eqn:Et; [discriminate|]. destruct (Mi _ _ _ _ _ Ha E) as (xs & rest & -> & A1 & G1 & w & -> & HP).
        exists xs, rest. split; [reflexivity|]. split; [exact A1|]. split; [exact G1|]. split; [|eauto]. intros ->. rewrite (atx_tok F Json _ _ _ Ha) in Et. discriminate Et.
      + intros nx xs v (Hn & w & -> & HP). destruct (Mf nx xs (VSome w)) as [N HN]; [exists w; auto|]. exists N. intros j Hj rest b u En Hg Ha. destruct (HN j Hj rest b u En Hg Ha) as (u' & E & A'). exists u'. split; [|exact A'].
        destruct (tok_is (l_tok L u) KNull) eqn:Et; [|exact E]. exfalso. rewrite (atx_tok F Json _ _ _ Ha) in Et. destruct (Hs _ _ _ HP) as (x & r & -> & Hx). cbn [app head hd_of AccBase.kh] in Et. apply tok_is_eq, kd_null in Et. subst x. rewrite Hx in Hn. congruence.
    - intros j u u' a E. unfold de_opt, at_none in E. destruct (tok_is (l_tok L u) KNull); auto.
    - intros j nx xs rest b u u' a _ _ E. unfold de_opt, at_none. destruct (tok_is (l_tok L u) KNull); [exact E | discriminate].
    - intros j nx xs rest b u u' a _ _ E. unfold de_opt, at_none. destruct (tok_is (l_tok L u) KNull); [discriminate | exact E].
  Qed.
  Lemma dur_shape xs s ns : dur_toks xs s ns -> shape xs.
  Proof. intros (ms & a & b & (ls & ys & _ & _ & ->) & _). exists (XP 123), (ys ++ [XP 125]). split; [reflexivity | right; reflexivity]. Qed.
  Lemma acc_time n : both n (fun j => de_time L c Json j) (fun _ xs v => xs = xnull /\ v = VTime 0 0 \/ exists s ns, dur_toks xs s ns /\ s <= time_max c /\ v = VTime (Z.of_N s) ns).
  Proof.
    eapply both_weak.
    - apply (both_pure F Json n (fun j => de_opt L Json (de_dur L j)) _ _ (fun w v => match w with VSome (VDur s ns) => s <= time_max c /\ v = VTime (Z.of_N s) ns | _ => v = VTime 0 0 end) (acc_opt n _ _ (acc_dur n) ltac:(intros nx xs v (s & ns & H & _); exact (dur_shape _ _ _ H)))).
      + intros a u u' v E. destruct a as [| | | | | |w| | | | |]; try (unfold pret in E; injection E as <- <-; auto). destruct w; try (unfold pret in E; injection E as <- <-; auto).
        destruct (_ <=? time_max c) eqn:El; [|discriminate]. apply N.leb_le in El. unfold pret in E; injection E as <- <-. auto.
      + intros a u v H. destruct a as [| | | | | |w| | | | |]; try (rewrite H; reflexivity). destruct w; try (rewrite H; reflexivity). destruct H as [H ->]. apply N.leb_le in H. rewrite H. reflexivity.
    - intros nx xs v. split.
      + intros (w & [[-> ->]|(_ & w' & -> & s & ns & Hd & ->)] & Ho); [left; auto|]. right. exists s, ns. destruct Ho. auto.
      + intros [[-> ->]|(s & ns & Hd & Hs & ->)]; [exists VNone; auto|]. exists (VSome (VDur s ns)). split; [|auto]. right. split; [|eauto 6].
        destruct (dur_shape _ _ _ Hd) as (x & r & -> & Hx). destruct Hd as (ms & a & b & (ls & ys & _ & _ & Q) & _). intros Q2. rewrite Q in Q2. discriminate Q2.
  Qed.

  (** *** The types, given their parts *)
  Section Step.
    Variables (n : nat) (X : option str -> ty -> list lexeme -> val -> Prop).
    Hypothesis HX : forall t, both n (fun j => DE j t) (fun nx xs v => X (hstr nx) t xs v).
    Hypothesis Hsh : forall nx t xs v, X nx t xs v -> shape xs.

    Lemma run_seq k t acc ls acc' : run (fun a l a' => exists v, X None t l v /\ a' = seq_add k v a) acc ls acc' <-> exists ws, Forall2 (X None t) ls ws /\ acc' = seq_of k ws acc.
    Proof.
      split.
      - induction 1 as [a|a l a1 ls a2 (v & H1 & ->) H2 (ws & Hw & ->)]; [exists []; split; [constructor | reflexivity]|]. exists (v :: ws). split; [constructor; assumption | reflexivity].
      - intros (ws & Hw & ->). revert acc. induction Hw as [|l v ls ws H1 H2 IH]; intro acc; [constructor|]. econstructor; [exists v; split; [exact H1 | reflexivity] | apply IH].
    Qed.
    Lemma acc_seq k t : both n (fun j => de_seq L (DE j) j k t) (fun _ xs l => exists ls ws, array_toks ls xs /\ Forall2 (X None t) ls ws /\ l = seq_of k ws []).
    Proof.
      eapply both_weak.
      - apply (both_loop 91 93 KBlockOpen KBlockClose (kd_lbr F) (kd_rbr F)) with (cnd := not_close KBlockClose) (item := fun j a => pmap (fun v => seq_add k v a) (DE j t))
          (I := fun a => r_map (fun v => seq_add k v a) (fun nx xs v => X (hstr nx) t xs v)) (J := fun a l a' => exists v, X None t l v /\ a' = seq_add k v a) (fin := fun l => pret l) (ok := fun l l' => l' = l) (w2 := chars ", or ]").
        + split; [reflexivity | discriminate].
        + split; [reflexivity | discriminate].
        + discriminate.
        + intros u xs b. apply not_close_cond.
        + intros j a u _. unfold pmap, pbind. destruct (DE j t u) as [u1 [v|e|p|]]; reflexivity.
        + intro a. apply both_map. apply HX.
        + intros a nx l a' Hn. unfold r_map. rewrite Hn. split; intros (v & H1 & H2); eauto.
        + intros a l a' (v & Hv & _). destruct (shape_open l (Hsh _ _ _ _ Hv)) as (x & r & -> & _ & _ & H & _). eauto.
        + reflexivity.
        + intros a u u' v E. unfold pret in E. injection E as <- <-. auto.
        + intros a u v ->. reflexivity.
      - intros nx xs v. split.
        + intros (ls & ys & a & Hr & Hl & -> & ->). apply run_seq in Hr as (ws & Hw & ->). exists ls, ws. split; [exists ys; auto | auto].
        + intros (ls & ws & (ys & Hl & ->) & Hw & ->). exists ls, ys, (seq_of k ws []). split; [apply run_seq; eauto | auto].
    Qed.
    Notation entry := (fun e : list lexeme * list lexeme => fst e ++ xcolon :: snd e).
    Notation J_map k tk tv := (fun a l a' => exists ek ev x y, l = ek ++ xcolon :: ev /\ X None tk ek x /\ X None tv ev y /\ a' = map_add k x y a).
    Lemma run_map k tk tv acc ls acc' : run (J_map k tk tv) acc ls acc' <->
      exists es ws, ls = map entry es /\ Forall2 (fun e w => X None tk (fst e) (fst w) /\ X None tv (snd e) (snd w)) es ws /\ acc' = map_of k ws acc.
    Proof.
      split.
      - induction 1 as [a|a l a1 ls a2 (ek & ev & x & y & -> & H1 & H2 & ->) H3 (es & ws & -> & Hw & ->)]; [exists [], []; split; [reflexivity|]; split; [constructor | reflexivity]|].
        exists ((ek, ev) :: es), ((x, y) :: ws). split; [reflexivity|]. split; [constructor; auto | reflexivity].
      - intros (es & ws & -> & Hw & ->). revert acc. induction Hw as [|[ek ev] [x y] es ws [H1 H2] H3 IH]; intro acc; [constructor|]. cbn [map fst snd] in *.
        econstructor; [exists ek, ev, x, y; auto | apply IH].
    Qed.
    Definition map_item (k : mapk) (tk tv : ty) (j : nat) (a : list (val * val)) : @pm tst (list (val * val)) :=
      pbind (DE j tk) (fun x => pbind (p_colon L) (fun _ => pmap (fun y => map_add k x y a) (DE j tv))).
    Lemma acc_map k tk tv : both n (fun j => de_map L (DE j) j k tk tv) (fun _ xs l => exists es ws, entries_toks es xs /\
        Forall2 (fun e w => X None tk (fst e) (fst w) /\ X None tv (snd e) (snd w)) es ws /\ l = map_of k ws []).
    Proof.
      eapply both_weak.
      - apply (both_loop 123 125 KCurlyOpen KCurlyClose (kd_lcur F) (kd_rcur F)) with (cnd := not_close KCurlyClose) (item := map_item k tk tv)
          (I := fun a => r_bind (fun nx xs v => X (hstr nx) tk xs v) (fun x => r_bind (fun _ xs (_ : unit) => xs = [xcolon]) (fun _ => r_map (fun y => map_add k x y a) (fun nx xs v => X (hstr nx) tv xs v))))
          (J := J_map k tk tv) (fin := fun l => pret l) (ok := fun l l' => l' = l) (w2 := chars ", or }").
        + split; [reflexivity | discriminate].
        + split; [reflexivity | discriminate].
        + discriminate.
        + intros u xs b. apply not_close_cond.
        + intros j a u _. unfold map_item, pmap, pbind. destruct (DE j tk u) as [u1 [v|e|p|]]; try reflexivity. destruct (p_colon L u1) as [u2 [[]|e|p|]]; try reflexivity. destruct (DE j tv u2) as [u3 [y|e|p|]]; reflexivity.
        + intro a. unfold map_item. apply (both_bind F Json n (fun j => DE j tk) (fun j x => pbind (p_colon L) (fun _ => pmap (fun y => map_add k x y a) (DE j tv)))); [apply HX|]. intro x.
          apply (both_bind F Json n (fun j => p_colon L) (fun j _ => pmap (fun y => map_add k x y a) (DE j tv))); [apply acc_colon|]. intros _. apply both_map. apply HX.
        + intros a nx l a' Hn. split.
          * intros (x1 & x2 & x & -> & H1 & x3 & x4 & [] & -> & -> & y & -> & H2). rewrite Hn in H2. exists x1, x4, x, y. auto.
          * intros (ek & ev & x & y & -> & H1 & H2 & ->). exists ek, (xcolon :: ev), x. split; [reflexivity|]. split; [exact H1|]. exists [xcolon], ev, tt. split; [reflexivity|]. split; [reflexivity|]. exists y. rewrite Hn. auto.
        + intros a l a' (ek & ev & x & y & -> & Hv & _). destruct (shape_open ek (Hsh _ _ _ _ Hv)) as (z & r & -> & _ & _ & _ & H). exists z, (r ++ xcolon :: ev). auto.
        + reflexivity.
        + intros a u u' v E. unfold pret in E. injection E as <- <-. auto.
        + intros a u v ->. reflexivity.
      - intros nx xs v. split.
        + intros (ls & ys & a & Hr & Hl & -> & ->). apply run_map in Hr as (es & ws & -> & Hw & ->). exists es, ws. split; [exists ys; auto | auto].
        + intros (es & ws & (ys & Hl & ->) & Hw & ->). exists (map entry es), ys, (map_of k ws []). split; [apply run_map; exists es, ws; auto | auto].
    Qed.

    (** Tuples *)
    Lemma X_open t l v : X None t l v -> exists x r, l = x :: r /\ x <> XP 93.
    Proof. intro H. destruct (shape_open l (Hsh _ _ _ _ H)) as (x & r & -> & N1 & _). eauto. Qed.
    Lemma acc_item t : both n (fun j => de_item L Json (DE j) t) (one_rel 93 (X None) t).
    Proof.
      eapply both_weak.
      - apply (both_bind F Json n (fun j => DE j t) (fun j v => pbind (eat_tcomma L Json) (fun _ => pret v)) _ (fun v => r_bind (r_comma F Json KBlockClose) (fun _ => r_ret v)) (HX t)). intro v.
        apply (both_bind F Json n (fun j => eat_tcomma L Json) (fun _ _ => pret v)); [apply both_comma; [split; [reflexivity | discriminate] | discriminate]|]. intros _. apply both_ret.
      - intros nx xs v. refine (item_rel_iff F 93 KBlockClose (kd_rbr F) _ (fun (_ : val) nx xs v => X (hstr nx) t xs v) (fun _ l v => X None t l v) _ v nx xs v); [discriminate|].
        intros a nx' l a' ->. reflexivity.
    Qed.
    Lemma acc_block t : both n (fun j => comma_block L Json (DE j) t) (one_rel 93 (X None) t).
    Proof.
      apply (both_ok_ext n (fun j => de_item L Json (DE j) t)); [|apply acc_item]. intros j u u' v. unfold de_item, comma_block, pbind.
      destruct (DE j t u) as [u1 [w|e|p|]]; try (split; discriminate).
      - destruct (eat_tcomma L Json u1) as [u2 [[]|e|p|]]; try (split; discriminate). unfold pret. tauto.
      - destruct (eat_tcomma L Json u1) as [u2 [[]|e2|p|]]; split; discriminate.
    Qed.
    Lemma each_tuple ts ls vs : each_item (X None) ts ls vs <-> tuple_means (X None) ts ls vs.
    Proof. split; induction 1; constructor; assumption. Qed.
    Lemma acc_fixed (p : nat -> ty -> @pm tst val) ts : (forall t, In t ts -> both n (fun j => p j t) (one_rel 93 (X None) t)) ->
      both n (fun j => de_bracketed L Json (map (p j) ts)) (fun _ xs vs => exists ls, array_toks ls xs /\ tuple_means (X None) ts ls vs).
    Proof.
      intro Hp. eapply both_weak.
      - apply (both_fixed 91 93 KBlockOpen KBlockClose (kd_lbr F) (kd_rbr F)) with (J := X None) (p := p) (ts := ts); [split; [reflexivity | discriminate] | split; [reflexivity | discriminate] | exact X_open | exact Hp].
      - intros nx xs vs. split.
        + intros (ls & ys & He & Hl & ->). apply each_tuple in He. exists ls. split; [exists ys; auto | exact He].
        + intros (ls & (ys & Hl & ->) & He). apply each_tuple in He. exists ls, ys. auto.
    Qed.
    Lemma rep_tuple t m : forall ls ws, tuple_means (X None) (repeat t m) ls ws <-> length ls = m /\ Forall2 (X None t) ls ws.
    Proof.
      induction m as [|m IH]; intros ls ws; cbn [repeat].
      - split; [intro H; inversion H; subst; split; [reflexivity | constructor]|]. intros [H1 H2]. destruct ls; [|discriminate]. inversion H2; subst. constructor.
      - split.
        + intro H. inversion H as [|? l v ? ls' ws' H1 H2]; subst. apply IH in H2 as [H2 H3]. split; [cbn; congruence | constructor; assumption].
        + intros [H1 H2]. destruct ls as [|l ls]; [discriminate|]. inversion H2; subst. constructor; [assumption|]. apply IH. split; [cbn in H1; lia | assumption].
    Qed.
    Lemma acc_single t : both n (fun j => de_bracketed L Json [DE j t]) (fun _ xs vs => exists l w, xs = in_square l /\ X None t l w /\ vs = [w]).
    Proof.
      apply (both_ext F Json n (fun j => pbind (expect L KBlockOpen (chars "[")) (fun _ => pbind (DE j t) (fun w => pbind (expect L KBlockClose (chars "]")) (fun _ => pret [w]))))).
      { intros j u. unfold de_bracketed, de_list, pbind. cbn [k_topen k_tclose w_topen w_tclose]. destruct (expect L KBlockOpen (chars "[") u) as [u1 [[]|e|p|]]; try reflexivity. destruct (DE j t u1) as [u2 [w|e|p|]]; reflexivity. }
      eapply both_weak.
      - apply (both_bind F Json n (fun _ => expect L KBlockOpen (chars "[")) (fun j _ => pbind (DE j t) (fun w => pbind (expect L KBlockClose (chars "]")) (fun _ => pret [w]))) (r_tok F Json KBlockOpen)
          (fun _ => r_bind (fun nx xs v => X (hstr nx) t xs v) (fun w => r_bind (r_tok F Json KBlockClose) (fun _ => r_ret [w])))); [apply both_expect; split; [reflexivity | discriminate]|]. intros _.
        apply (both_bind F Json n (fun j => DE j t) (fun j w => pbind (expect L KBlockClose (chars "]")) (fun _ => pret [w]))); [apply HX|]. intro w.
        apply (both_bind F Json n (fun _ => expect L KBlockClose (chars "]")) (fun _ _ => pret [w])); [apply both_expect; split; [reflexivity | discriminate] | intros _; apply both_ret].
      - intros nx xs vs. split.
        + intros (x1 & x2 & [] & -> & H1 & x3 & x4 & w & -> & H2 & x5 & x6 & [] & -> & H3 & -> & ->). rewrite app_nil_r in *. apply (r_tok_op F 91 KBlockOpen (kd_lbr F)) in H1. apply (r_tok_cl F 93 KBlockClose (kd_rbr F)) in H3. subst. exists x3, w. auto.
        + intros (l & w & -> & Hw & ->). exists [XP 91], (l ++ [XP 93]), tt. split; [reflexivity|]. split; [apply (r_tok_op F 91 KBlockOpen (kd_lbr F)); reflexivity|].
          exists l, [XP 93], w. split; [reflexivity|]. split; [exact Hw|]. exists [XP 93], [], tt. split; [reflexivity|]. split; [apply (r_tok_cl F 93 KBlockClose (kd_rbr F)); reflexivity | split; reflexivity].
    Qed.

    (** Structs *)
    Definition g_name : @pm tst str := fun u => if tok_is (l_tok L u) KStr then p_name u else perr L (CannotParse []) u.
    Lemma acc_name : both n (fun _ => g_name) (fun _ xs k => exists q, xs = [XS q k; xcolon]).
    Proof.
      split.
      - intros u u' k xs0 b Ha E. unfold g_name in E. destruct (tok_is (l_tok L u) KStr) eqn:Et; [|discriminate]. destruct (name_inv F _ _ _ _ _ Ha Et E) as (q & xs & -> & A1 & G1).
        exists [XS q k; xcolon], xs. split; [reflexivity|]. split; [exact A1|]. split; [auto | eauto].
      - intros nx xs k (q & ->). exists O. intros j _ rest b u _ Hg Ha. cbn [app] in Ha. destruct (name_fwd F _ _ _ _ _ Ha Hg) as (u' & E & A'). exists u'. split; [|exact A'].
        unfold g_name. rewrite (atx_tok F Json _ _ _ Ha). exact E.
    Qed.
    Lemma acc_field f : both n (fun j => de_field (DE j) f) (fun nx xs v => field_means (X (hstr nx)) f xs v).
    Proof.
      unfold de_field, field_means. destruct (f_isopt f && f_hasproxy f); [|apply HX]. apply both_map. apply HX.
    Qed.
    Definition mem_item (fs : list field) (j : nat) (acc : list (option val)) : @pm tst (list (option val)) :=
      pbind g_name (fun k => match find_field k fs 0 with
        | Some (i, f) => pmap (fun v => set_nth i (Some v) acc) (de_field (DE j) f)
        | None => pmap (fun _ => acc) (whole_field L j) end).
    Lemma uw_pure dflt fs : forall acc u u' vs, unwrap_fields L dflt fs acc u = (u', Ok vs) -> u' = u /\ forall u2, unwrap_fields L dflt fs acc u2 = (u2, Ok vs).
    Proof.
      induction fs as [|f fs IH]; intros acc u u' vs E; [injection E as <- <-; split; reflexivity|]. destruct acc as [|o acc]; [injection E as <- <-; split; reflexivity|].
      cbn [unwrap_fields] in *. unfold pbind in E. rewrite unwrap_uw in E. destruct (uw dflt f o) as [v|] eqn:Eu; [|discriminate].
      destruct (unwrap_fields L dflt fs acc u) as [u1 [r|e|p|]] eqn:E1; try discriminate. injection E as <- <-. destruct (IH _ _ _ _ E1) as [-> H]. split; [reflexivity|]. intro u2.
      unfold pbind. rewrite unwrap_uw, Eu, H. reflexivity.
    Qed.
    Lemma run_length fs acc ls acc' : run (mem_step (X None) fs) acc ls acc' -> length acc' = length acc.
    Proof.
      induction 1 as [|a l a1 ls a2 (b & k & ys & _ & H) _ IH]; [reflexivity|]. rewrite IH. destruct (find_field k fs 0) as [[i f]|]; [destruct H as (v & _ & ->); apply set_nth_length | destruct H as [_ ->]; reflexivity].
    Qed.
    Lemma len_f2 {A B} : forall (l : list A) (l' : list B), length l = length l' -> Forall2 (fun _ _ => True) l l'.
    Proof. induction l as [|a l IH]; intros [|b l'] H; try discriminate; constructor; [exact I | apply IH; cbn in H; lia]. Qed.
    Definition braces : @pm tst (list val) := pbind (expect L KCurlyOpen (chars "{")) (fun _ => pbind (expect L KCurlyClose (chars "}")) (fun _ => pret [])).
    Lemma acc_braces k : both k (fun _ => braces) (fun _ xs vs => xs = in_curly [] /\ vs = []).
    Proof.
      eapply both_weak.
      - apply (both_bind F Json k (fun _ => expect L KCurlyOpen (chars "{")) (fun _ _ => pbind (expect L KCurlyClose (chars "}")) (fun _ => pret [])) (r_tok F Json KCurlyOpen) (fun _ => r_bind (r_tok F Json KCurlyClose) (fun _ => r_ret [])));
          [apply both_expect; split; [reflexivity | discriminate]|]. intros _.
        apply (both_bind F Json k (fun _ => expect L KCurlyClose (chars "}")) (fun _ _ => pret [])); [apply both_expect; split; [reflexivity | discriminate] | intros _; apply both_ret].
      - intros nx xs vs. split.
        + intros (x1 & x2 & [] & -> & H1 & x3 & x4 & [] & -> & H2 & -> & ->). apply (r_tok_op F 123 KCurlyOpen (kd_lcur F)) in H1. apply (r_tok_cl F 125 KCurlyClose (kd_rcur F)) in H2. subst. auto.
        + intros [-> ->]. exists [XP 123], [XP 125], tt. split; [reflexivity|]. split; [apply (r_tok_op F 123 KCurlyOpen (kd_lcur F)); reflexivity|].
          exists [XP 125], [], tt. split; [reflexivity|]. split; [apply (r_tok_cl F 125 KCurlyClose (kd_rcur F)); reflexivity | split; reflexivity].
    Qed.
    Lemma empty_zero de dflt u u' vs : de_named L Json de 0 dflt [] u <> (u', Ok vs).
    Proof. unfold de_named, pbind. destruct (expect L (k_sopen Json) (w_sopen Json) u) as [u1 [[]|e|p|]]; discriminate. Qed.
    Lemma empty_named de j dflt u u' vs : de_named L Json de (S j) dflt [] u = (u', Ok vs) <-> braces u = (u', Ok vs).
    Proof.
      unfold de_named, braces. unfold pbind at 1 4. change (expect L (k_sopen Json) (w_sopen Json) u) with (expect L KCurlyOpen (chars "{") u). destruct (expect L KCurlyOpen (chars "{") u) as [u1 [[]|e|p|]]; try tauto.
      unfold pbind at 1. cbn [while_ map]. cbn [k_key]. destruct (tok_is (l_tok L u1) KStr) eqn:Et.
      - apply tok_is_eq in Et. split; intro E; exfalso.
        + unfold named_body, pbind at 2 in E. cbn [find_field] in E. unfold pbind, eat_scomma, eat_comma in E. rewrite Et in E. discriminate E.
        + unfold pbind, expect in E. rewrite Et in E. discriminate E.
      - reflexivity.
    Qed.
    Lemma empty_object dflt xs vs : (exists ms, object_toks ms xs /\ fields_means (X None) dflt [] ms vs /\ others_ignored [] ms) <-> xs = in_curly [] /\ vs = [].
    Proof.
      split.
      - intros (ms & (ls & ys & Hm & Hl & ->) & (H1 & _ & H3) & _). rewrite (H3 eq_refl) in Hm. inversion Hm; subst. inversion H1; subst. destruct Hl as [-> |[Q _]]; [auto | congruence].
      - intros [-> ->]. exists []. split; [exists [], []; split; [constructor|]; split; [left; reflexivity | reflexivity]|]. split; [split; [constructor|split; [intros k d f []|reflexivity]] | intros k d []].
    Qed.
    Definition str_next (o : option lexeme) : bool := tok_is (kh o) KStr.
    Lemma acc_named dflt fs : distinct_fields fs -> both n (fun j => de_named L Json (DE j) j dflt fs) (fun _ xs vs => exists ms, object_toks ms xs /\ fields_means (X None) dflt fs ms vs /\ others_ignored fs ms).
    Proof.
      intro Hu. destruct fs as [|f0 fs0] eqn:Efs.
      - clear Efs. destruct (acc_braces n) as [Bi Bf]. split.
        + intros u u' vs xs0 b Ha E. destruct n as [|k]; [exfalso; exact (empty_zero _ _ _ _ _ E)|]. apply empty_named in E. destruct (Bi _ _ _ _ _ Ha E) as (xs & rest & -> & A1 & G1 & -> & ->).
          exists (in_curly []), rest. split; [reflexivity|]. split; [exact A1|]. split; [exact G1|]. apply empty_object. auto.
        + intros nx xs vs H. apply empty_object in H. destruct (Bf nx xs vs H) as [N HN]. exists (S N). intros j Hj rest b u Hn Hg Ha. destruct j as [|j]; [lia|].
          destruct (HN (S j) ltac:(lia) rest b u Hn Hg Ha) as (u' & E & A'). exists u'. split; [|exact A']. apply empty_named. exact E.
      - rewrite <- Efs in *. assert (Hne : fs <> []) by (rewrite Efs; discriminate). clear Efs. eapply both_weak.
        + apply (both_loop 123 125 KCurlyOpen KCurlyClose (kd_lcur F) (kd_rcur F)) with (cnd := str_next) (item := mem_item fs)
            (I := fun acc => r_bind (fun _ xs k => exists q, xs = [XS q k; xcolon]) (fun k => match find_field k fs 0 with
               | Some (i, f) => r_map (fun v => set_nth i (Some v) acc) (fun nx xs v => field_means (X (hstr nx)) f xs v)
               | None => r_map (fun _ : unit => acc) (fun _ xs _ => ignored xs) end))
            (J := mem_step (X None) fs) (fin := fun l => unwrap_fields L dflt fs l) (ok := fun a vs => forall u, unwrap_fields L dflt fs a u = (u, Ok vs)) (w2 := chars ", or }").
          * split; [reflexivity | discriminate].
          * split; [reflexivity | discriminate].
          * discriminate.
          * intros u xs b Ha. unfold k_key. rewrite (atx_tok F Json _ _ _ Ha). reflexivity.
          * intros j acc u Hc. unfold k_key in Hc. unfold named_body, mem_item. apply pbind_ext; [|reflexivity]. unfold g_name, p_name, pbind, key_of. rewrite Hc.
            destruct (find_field (l_str L u) fs 0) as [[i f]|] eqn:Ef.
            -- destruct (p_next_colon L u) as [u1 [[]|e|p|]]; try reflexivity. unfold pret at 2. rewrite Ef. reflexivity.
            -- destruct fs as [|f1 fs1]; [congruence|]. destruct (p_next_colon L u) as [u1 [[]|e|p|]]; try reflexivity. unfold pret at 2. rewrite Ef. reflexivity.
          * intro acc. apply (both_bind F Json n (fun _ => g_name) (fun j k => match find_field k fs 0 with
              | Some (i, f) => pmap (fun v => set_nth i (Some v) acc) (de_field (DE j) f)
              | None => pmap (fun _ => acc) (whole_field L j) end)); [apply acc_name|]. intro k. destruct (find_field k fs 0) as [[i f]|].
            -- apply both_map. apply acc_field.
            -- apply both_map. apply acc_whole.
          * intros acc nx l acc' Hn. split.
            -- intros (x1 & x2 & k & -> & (q & ->) & H). exists q, k, x2. split; [reflexivity|]. destruct (find_field k fs 0) as [[i f]|]; [|destruct H as ([] & -> & H); auto].
               destruct H as (v & -> & H). rewrite Hn in H. eauto.
            -- intros (q & k & ys & -> & H). exists [XS q k; xcolon], ys, k. split; [reflexivity|]. split; [eauto|]. destruct (find_field k fs 0) as [[i f]|]; [|destruct H as (H & ->); exists tt; auto].
               destruct H as (v & H & ->). exists v. rewrite Hn. auto.
          * intros acc l acc' (q & k & ys & -> & _). eexists. eexists. split; reflexivity.
          * reflexivity.
          * intros a u u' v E. destruct (uw_pure dflt fs a u u' v E) as [-> H]. auto.
          * intros a u v H. apply H.
        + intros nx xs vs. split.
          * intros (ls & ys & acc & Hr & Hl & -> & Ho). pose proof (run_length _ _ _ _ Hr) as Hlen. rewrite map_length in Hlen.
            destruct (proj1 (fields_iff (X None) dflt fs Hu ls vs Hne)) as (ms & Hm & H1 & H2).
            { exists acc. split; [exact Hr|]. split; [exact Hlen|]. eapply unwrap_inv; [apply len_f2; symmetry; exact Hlen | apply (Ho (st0 [] false))]. }
            exists ms. split; [exists ls, ys; auto | auto].
          * intros (ms & (ls & ys & Hm & Hl & ->) & H1 & H2). destruct (proj2 (fields_iff (X None) dflt fs Hu ls vs Hne)) as (acc & Hr & Hlen & Hd); [exists ms; auto|].
            exists ls, ys, acc. split; [exact Hr|]. split; [exact Hl|]. split; [reflexivity|]. intro u. apply unwrap_all; [apply len_f2; symmetry; exact Hlen | exact Hd].
    Qed.

    (** Enums *)
    Definition fv1 (vs : list variant) (k : str) := find_variant (fun v => negb (is_unit v) && str_eqb (variant_key Json v) k) vs 0.
    Definition fv2 (vs : list variant) (k : str) := find_variant (fun v => is_unit v && str_eqb (variant_key Json v) k) vs 0.
    Definition wrapped (vs : list variant) (j : nat) : @pm tst val :=
      pbind (expect L KCurlyOpen (chars "{")) (fun _ => pbind p_member (fun k =>
        match fv1 vs k with
        | Some (i, v) => pbind (de_body L Json (DE j) j i (v_body v)) (fun r => pbind (expect L KCurlyClose (chars "}")) (fun _ => pret r))
        | None => perr L (NoSuchEnum k) end)).
    Definition bare (vs : list variant) : @pm tst val :=
      pbind p_key (fun k => match fv2 vs k with Some (i, _) => pret (VEnum i []) | None => perr L (NoSuchEnum k) end).
    Lemma enum_split vs j u : de_enum_json L Json (DE j) j vs u =
      if tok_is (l_tok L u) KCurlyOpen && existsb (fun v => negb (is_unit v)) vs then wrapped vs j u
      else if tok_is (l_tok L u) KStr && existsb is_unit vs then bare vs u else err_token L (chars "String or {") u.
    Proof.
      unfold de_enum_json, wrapped, bare. destruct (tok_is (l_tok L u) KCurlyOpen && existsb (fun v => negb (is_unit v)) vs).
      - apply pbind_ext; [reflexivity|]. intros _ u1. unfold p_member, pbind. destruct (expect L KStr (chars "String") u1) as [u2 [[]|e|p|]]; try reflexivity. destruct (p_colon L u2) as [u3 [[]|e|p|]]; try reflexivity.
        fold (fv1 vs (l_str L u3)). destruct (fv1 vs (l_str L u3)) as [[i v]|]; reflexivity.
      - destruct (tok_is (l_tok L u) KStr && existsb is_unit vs); [|reflexivity]. unfold p_key, pbind. destruct (expect L KStr (chars "String") u) as [u2 [[]|e|p|]]; try reflexivity.
        fold (fv2 vs (l_str L u2)). destruct (fv2 vs (l_str L u2)) as [[i v]|]; reflexivity.
    Qed.
    Definition body_rel (i : N) (b : vbody) : rel val := fun _ ys v =>
      match b with
      | BUnit => ys = [] /\ v = VEnum i []
      | BTuple ts => exists ws, v = VEnum i ws /\ exists ls, array_toks ls ys /\ tuple_means (X None) ts ls ws
      | BStruct fs => exists ws, v = VEnum i ws /\ exists ms, object_toks ms ys /\ fields_means (X None) false fs ms ws /\ others_ignored fs ms
      end.
    Lemma acc_body i b : match b with BStruct fs => distinct_fields fs | _ => True end -> both n (fun j => de_body L Json (DE j) j i b) (body_rel i b).
    Proof.
      intro Hd. destruct b as [|ts|fs]; cbn [de_body].
      - apply both_ret.
      - apply (both_map F Json n (VEnum i) (fun j => de_bracketed L Json (map (de_item L Json (DE j)) ts))). apply (acc_fixed (fun j => de_item L Json (DE j))). intros t _. apply acc_item.
      - apply (both_map F Json n (VEnum i) (fun j => de_named L Json (DE j) j false fs)). apply acc_named. exact Hd.
    Qed.
    Definition wrap_rel (vs : list variant) : rel val := fun _ xs v => exists q k i vr ys, fv1 vs k = Some (i, vr) /\ xs = in_curly (XS q k :: xcolon :: ys) /\ body_rel i (v_body vr) None ys v.
    Lemma body_next i b nx nx' ys v : body_rel i b nx ys v -> body_rel i b nx' ys v. Proof. exact (fun H => H). Qed.
    Lemma body_open i b nx ys v : b <> BUnit -> body_rel i b nx ys v -> exists r, ys = XP 91 :: r \/ ys = XP 123 :: r.
    Proof.
      intros Hb H. destruct b as [|ts|fs]; [congruence| |].
      - destruct H as (ws & _ & ls & (zs & _ & ->) & _). exists (zs ++ [XP 93]). left. reflexivity.
      - destruct H as (ws & _ & ms & (ls & zs & _ & _ & ->) & _). exists (zs ++ [XP 125]). right. reflexivity.
    Qed.
    Lemma fv1_nonunit vs k i vr : fv1 vs k = Some (i, vr) -> v_body vr <> BUnit.
    Proof. intro H. apply find_variant_some in H as (tag & _ & _ & Hp). unfold is_unit in Hp. destruct (v_body vr); [discriminate Hp | discriminate | discriminate]. Qed.
    Lemma acc_wrapped vs : Forall (fun v => match v_body v with BStruct fs => distinct_fields fs | _ => True end) vs -> both n (fun j => wrapped vs j) (wrap_rel vs).
    Proof.
      intro Hd. eapply both_weak.
      - apply (both_bind F Json n (fun _ => expect L KCurlyOpen (chars "{")) (fun j _ => pbind p_member (fun k =>
          match fv1 vs k with
          | Some (i, v) => pbind (de_body L Json (DE j) j i (v_body v)) (fun r => pbind (expect L KCurlyClose (chars "}")) (fun _ => pret r))
          | None => perr L (NoSuchEnum k) end)) (r_tok F Json KCurlyOpen)
          (fun _ => r_bind member_rel (fun k => match fv1 vs k with Some (i, v) => r_bind (body_rel i (v_body v)) (fun r => r_bind (r_tok F Json KCurlyClose) (fun _ => r_ret r)) | None => fun _ _ _ => False end))).
        + apply both_expect; split; [reflexivity | discriminate].
        + intros _. apply (both_bind F Json n (fun _ => p_member) (fun j k =>
            match fv1 vs k with
            | Some (i, v) => pbind (de_body L Json (DE j) j i (v_body v)) (fun r => pbind (expect L KCurlyClose (chars "}")) (fun _ => pret r))
            | None => perr L (NoSuchEnum k) end)); [apply acc_member|]. intro k. destruct (fv1 vs k) as [[i vr]|] eqn:Ef; [|apply both_never; [discriminate | tauto]].
          apply (both_bind F Json n (fun j => de_body L Json (DE j) j i (v_body vr)) (fun _ r => pbind (expect L KCurlyClose (chars "}")) (fun _ => pret r))).
          * apply acc_body. apply find_variant_some in Ef as (tag & _ & Hn & _). rewrite Forall_forall in Hd. apply Hd. eapply nth_error_In; exact Hn.
          * intro r. apply (both_bind F Json n (fun _ => expect L KCurlyClose (chars "}")) (fun _ _ => pret r)); [apply both_expect; split; [reflexivity | discriminate] | intros _; apply both_ret].
      - intros nx xs v. split.
        + intros (x1 & x2 & [] & -> & H1 & x3 & x4 & k & -> & (q & s & -> & Hk) & H2). destruct (fv1 vs k) as [[i vr]|] eqn:Ef; [|contradiction].
          destruct H2 as (ys & x6 & r & -> & Hb & x7 & x8 & [] & -> & H3 & -> & ->). rewrite app_nil_r in *. apply (r_tok_op F 123 KCurlyOpen (kd_lcur F)) in H1. apply (r_tok_cl F 125 KCurlyClose (kd_rcur F)) in H3. subst x1 x7.
          destruct (body_open _ _ _ _ _ (fv1_nonunit _ _ _ _ Ef) Hb) as [z Hz]. assert (k = s) by (destruct Hz as [-> | ->]; exact Hk). subst s.
          exists q, k, i, vr, ys. split; [exact Ef|]. split; [reflexivity|]. eapply body_next; exact Hb.
        + intros (q & k & i & vr & ys & Ef & -> & Hb). exists [XP 123], ((XS q k :: xcolon :: ys) ++ [XP 125]), tt. split; [reflexivity|]. split; [apply (r_tok_op F 123 KCurlyOpen (kd_lcur F)); reflexivity|].
          exists [XS q k; xcolon], (ys ++ [XP 125]), k. split; [reflexivity|]. split.
          * exists q, k. split; [reflexivity|]. destruct (body_open _ _ _ _ _ (fv1_nonunit _ _ _ _ Ef) Hb) as [z Hz]. destruct Hz as [-> | ->]; reflexivity.
          * rewrite Ef. exists ys, [XP 125], v. split; [reflexivity|]. split; [eapply body_next; exact Hb|]. exists [XP 125], [], tt. split; [reflexivity|]. split; [apply (r_tok_cl F 125 KCurlyClose (kd_rcur F)); reflexivity | split; reflexivity].
    Qed.
    Definition bare_rel (vs : list variant) : rel val := fun nx xs v => exists q s i vr, fv2 vs (match hstr nx with Some s' => s' | None => s end) = Some (i, vr) /\ xs = [XS q s] /\ v = VEnum i [].
    Lemma acc_bare vs : both n (fun _ => bare vs) (bare_rel vs).
    Proof.
      eapply both_weak.
      - apply (both_bind F Json n (fun _ => p_key) (fun _ k => match fv2 vs k with Some (i, _) => pret (VEnum i []) | None => perr L (NoSuchEnum k) end) key_rel
          (fun k => match fv2 vs k with Some (i, _) => r_ret (VEnum i []) | None => fun _ _ _ => False end)); [apply acc_key|].
        intro k. destruct (fv2 vs k) as [[i vr]|]; [apply both_ret | apply both_never; [discriminate | tauto]].
      - intros nx xs v. split.
        + intros (x1 & x2 & k & -> & (q & s & -> & Hk) & H2). destruct (fv2 vs k) as [[i vr]|] eqn:Ef; [|contradiction]. destruct H2 as [-> ->]. cbn [hd_of] in Hk. exists q, s, i, vr. subst k. auto.
        + intros (q & s & i & vr & Ef & -> & ->). eexists [XS q s], [], _. split; [reflexivity|]. split; [exists q, s; split; [reflexivity|]; reflexivity|]. cbn [hd_of]. rewrite Ef. split; reflexivity.
    Qed.
    Lemma fv1_exists vs k i vr : fv1 vs k = Some (i, vr) -> existsb (fun v => negb (is_unit v)) vs = true.
    Proof. intro H. apply find_variant_some in H as (tag & _ & Hn & Hp). apply existsb_exists. exists vr. split; [eapply nth_error_In; exact Hn|]. apply andb_prop in Hp. tauto. Qed.
    Lemma fv2_exists vs k i vr : fv2 vs k = Some (i, vr) -> existsb is_unit vs = true.
    Proof. intro H. apply find_variant_some in H as (tag & _ & Hn & Hp). apply existsb_exists. exists vr. split; [eapply nth_error_In; exact Hn|]. apply andb_prop in Hp. tauto. Qed.
    Lemma acc_enum vs : Forall (fun v => match v_body v with BStruct fs => distinct_fields fs | _ => True end) vs ->
      both n (fun j => de_enum_json L Json (DE j) j vs) (fun nx xs v => wrap_rel vs nx xs v \/ bare_rel vs nx xs v).
    Proof.
      intro Hd. apply (both_or n _ (fun j => wrapped vs j) (fun _ => bare vs)).
      - apply acc_wrapped. exact Hd.
      - apply acc_bare.
      - intros j u u' a E. rewrite enum_split in E. destruct (tok_is (l_tok L u) KCurlyOpen && _); [auto|]. destruct (tok_is (l_tok L u) KStr && _); [auto | discriminate].
      - intros j nx xs rest b u u' a Ha (q & k & i & vr & ys & Ef & -> & _) E. rewrite enum_split, (atx_tok F Json _ _ _ Ha), (fv1_exists _ _ _ _ Ef). exact E.
      - intros j nx xs rest b u u' a Ha (q & s & i & vr & Ef & -> & _) E. rewrite enum_split, (atx_tok F Json _ _ _ Ha), (fv2_exists _ _ _ _ Ef). cbn [app head hd_of AccBase.kh]. change (kd (XS q s)) with KStr. exact E.
    Qed.
  End Step.

  (** *** The whole *)
  Lemma takes_shape : forall n nx t xs v, takes F c G n nx t xs v -> shape xs.
  Proof.
    assert (Sc : forall x xs, xs = [x] -> (forall p, x <> XP p) -> shape xs) by (intros x xs -> Hx; exists x, []; split; [reflexivity|]; destruct x; [exfalso; eapply Hx; reflexivity | reflexivity | reflexivity | reflexivity]).
    assert (Sq : forall ys, shape (in_square ys)) by (intro ys; exists (XP 91), (ys ++ [XP 93]); split; [reflexivity | left; reflexivity]).
    assert (Cu : forall ys, shape (in_curly ys)) by (intro ys; exists (XP 123), (ys ++ [XP 125]); split; [reflexivity | right; reflexivity]).
    assert (Ar : forall ls xs, array_toks ls xs -> shape xs) by (intros ls xs (ys & _ & ->); apply Sq).
    assert (Ob : forall ms xs, object_toks ms xs -> shape xs) by (intros ms xs (ls & ys & _ & _ & ->); apply Cu).
    induction n as [|n IH]; intros nx t xs v H; [contradiction|]. cbn [takes] in H. destruct t as [k| | | | | |t'|k t'|k tk tv|m t'|ts|t'| | |p t'|i].
    - destruct H as (s & z & H & _). eapply Sc; [exact H | discriminate].
    - destruct H as (s & z & H & _). eapply Sc; [exact H | discriminate].
    - destruct H as (s & z & H & _). eapply Sc; [exact H | discriminate].
    - destruct H as [[H _]|[H _]]; (eapply Sc; [exact H | discriminate]).
    - destruct H as (s & z & H & _). eapply Sc; [exact H | discriminate].
    - destruct H as [H _]. eapply Sc; [exact H | discriminate].
    - destruct H as [[H _]|(_ & w & _ & H)]; [eapply Sc; [exact H | discriminate] | exact (IH _ _ _ _ H)].
    - destruct H as (ls & ws & H & _). exact (Ar _ _ H).
    - destruct H as (es & ws & (ys & _ & ->) & _). apply Cu.
    - destruct H as (ls & ws & H & _). exact (Ar _ _ H).
    - destruct H as (_ & ls & ws & H & _). exact (Ar _ _ H).
    - exact (IH _ _ _ _ H).
    - destruct H as (s & ns & H & _). exact (dur_shape _ _ _ H).
    - destruct H as [[H _]|(s & ns & H & _)]; [eapply Sc; [exact H | discriminate] | exact (dur_shape _ _ _ H)].
    - destruct H as (w & H & _). exact (IH _ _ _ _ H).
    - destruct (nth_error G i) as [[dflt cn fs|tr fs|vs|p t']|]; [| | | |contradiction].
      + destruct H as (ms & vs & H & _). exact (Ob _ _ H).
      + destruct H as [_ H]. destruct fs as [|f [|f2 fs]].
        * destruct H as [-> _]. apply Cu.
        * destruct tr; [destruct H as (w & H & _); exact (IH _ _ _ _ H) | destruct H as (l & w & -> & _); apply Sq].
        * assert (H' : exists ls ws, array_toks ls xs /\ tuple_means (takes F c G n None) (map f_ty (f :: f2 :: fs)) ls ws /\ v = VSeq ws) by (destruct tr; exact H). destruct H' as (ls & ws & H' & _). exact (Ar _ _ H').
      + destruct H as (tag & vr & _ & H). destruct (v_body vr).
        * destruct H as (b & s & H & _). eapply Sc; [exact H | discriminate].
        * destruct H as (b & ls & ws & ys & -> & _). apply Cu.
        * destruct H as (b & ms & ws & ys & -> & _). apply Cu.
      + destruct H as (w & H & _). exact (IH _ _ _ _ H).
  Qed.

  Hypothesis HG : Forall distinct_names G.
  Lemma fv_iff (q : variant -> bool) vs k i vr : NoDup (map (key_of_variant Json) vs) ->
    (find_variant (fun v => q v && str_eqb (variant_key Json v) k) vs 0 = Some (i, vr) <->
     exists tag, i = N.of_nat tag /\ nth_error vs tag = Some vr /\ q vr = true /\ key_of_variant Json vr = k).
  Proof.
    intro Hn. split.
    - intro H. apply find_variant_some in H as (tag & -> & Hi & Hp). apply andb_prop in Hp as [H1 H2]. apply str_eqb_eq in H2. exists tag. split; [lia|]. auto.
    - intros (tag & -> & Hi & Hq & Hk). replace (N.of_nat tag) with (0 + N.of_nat tag) by lia. apply (find_variant_nodup Json); [exact Hn | exact Hi | | ].
      + rewrite Hq. cbn [andb]. apply str_eqb_eq. exact Hk.
      + intros v Hv. apply andb_prop in Hv as [_ Hv]. apply str_eqb_eq in Hv. rewrite Hk, <- Hv. reflexivity.
  Qed.
  Theorem acc_all : forall n t, both n (fun j => DE j t) (fun nx xs v => takes F c G n (hstr nx) t xs v).
  Proof.
    induction n as [|n IH]; intro t.
    - split; [intros u u' a xs0 b _ E; discriminate E | intros nx xs a []].
    - apply both_shift. pose proof (fun nx t xs v => takes_shape n nx t xs v) as Sh. cbn [takes]. set (X := takes F c G n) in *. fold X in IH.
      destruct t as [k| | | | | |t'|k t'|k tk tv|m t'|ts|t'| | |p t'|i].
      + apply acc_int.
      + eapply both_weak; [apply (both_map F Json n (fun b => VF (f32_of_f64 F b)) (fun _ => de_f64 L F)); apply acc_f64|]. intros nx xs v. split; [intros (b & -> & s & -> & H); eauto | intros (s & b & -> & -> & H); exists b; eauto].
      + eapply both_weak; [apply (both_map F Json n VF (fun _ => de_f64 L F)); apply acc_f64|]. intros nx xs v. split; [intros (b & -> & s & -> & H); eauto | intros (s & b & -> & -> & H); exists b; eauto].
      + apply acc_bool.
      + eapply both_weak; [apply (both_map F Json n VStr (fun _ => de_str L)); apply acc_str|]. intros nx xs v. split; [intros (s & -> & b & ->); eauto | intros (b & s & -> & ->); exists s; eauto].
      + eapply both_weak; [apply (both_map F Json n (fun _ => VUnit) (fun _ => expect L KNull (chars "null"))); apply acc_null|]. intros nx xs v. split; [intros ([] & -> & ->); auto | intros [-> ->]; exists tt; auto].
      + apply (acc_opt n (fun j => DE j t') (fun nx xs v => X (hstr nx) t' xs v)); [apply IH | intros nx xs v; apply Sh].
      + eapply both_weak; [apply (both_map F Json n VSeq (fun j => de_seq L (DE j) j k t')); apply (acc_seq n X IH Sh)|]. intros nx xs v. split; [intros (l & -> & ls & ws & H1 & H2 & ->); eauto | intros (ls & ws & H1 & H2 & ->); eexists; split; [reflexivity | eauto]].
      + eapply both_weak; [apply (both_map F Json n VMap (fun j => de_map L (DE j) j k tk tv)); apply (acc_map n X IH Sh)|]. intros nx xs v. split; [intros (l & -> & ls & ws & H1 & H2 & ->); eauto | intros (ls & ws & H1 & H2 & ->); eexists; split; [reflexivity | eauto]].
      + assert (E : forall j, repeat (de_item L Json (DE j) t') m = map (de_item L Json (DE j)) (repeat t' m)) by (intro j; clear; induction m; cbn; congruence).
        apply (both_ext F Json n (fun j => pmap VSeq (de_bracketed L Json (map (de_item L Json (DE j)) (repeat t' m))))); [intros j u; cbn [de_text]; rewrite E; reflexivity|].
        eapply both_weak; [apply (both_map F Json n VSeq); apply (acc_fixed n X Sh (fun j => de_item L Json (DE j))); intros t _; apply acc_item; exact IH|].
        intros nx xs v. split.
        * intros (ws & -> & ls & H1 & H2). apply (rep_tuple n X IH Sh) in H2 as [H2 H3]. eauto 6.
        * intros (ls & ws & H1 & H2 & H3 & ->). exists ws. split; [reflexivity|]. exists ls. split; [exact H1|]. apply (rep_tuple n X IH Sh). auto.
      + destruct (tuple_arity (length ts)) eqn:Ea.
        * apply (both_ext F Json n (fun j => pmap VSeq (de_bracketed L Json (map (comma_block L Json (DE j)) ts)))); [intros j u; cbn [de_text]; rewrite Ea; reflexivity|].
          eapply both_weak; [apply (both_map F Json n VSeq); apply (acc_fixed n X Sh (fun j => comma_block L Json (DE j))); intros t _; apply acc_block; exact IH|].
          assert (Hl : (2 <= length ts <= 4)%nat) by (unfold tuple_arity in Ea; apply andb_prop in Ea as [E1 E2]; apply Nat.leb_le in E1, E2; lia).
          intros nx xs v. split; [intros (ws & -> & ls & H1 & H2); split; [exact Hl|]; exists ls, ws; auto | intros (_ & ls & ws & H1 & H2 & ->); exists ws; split; [reflexivity|]; exists ls; auto].
        * apply both_never; [intros j u u' a; cbn [de_text]; rewrite Ea; discriminate|]. intros nx xs v [Hl _]. unfold tuple_arity in Ea. apply andb_false_iff in Ea. destruct Ea as [Ea|Ea]; apply Nat.leb_gt in Ea; lia.
      + apply IH.
      + apply acc_dur.
      + apply acc_time.
      + eapply both_weak; [apply (both_map F Json n (p_from p) (fun j => DE j t')); apply IH|]. intros nx xs v. split; [intros (w & -> & H2); exists w; auto | intros (w & H1 & ->); exists w; auto].
      + destruct (nth_error G i) as [d|] eqn:Ei; [|apply both_never; [intros j u u' a; cbn [de_text]; rewrite Ei; discriminate | tauto]].
        assert (Hd : distinct_names d) by (rewrite Forall_forall in HG; apply HG; eapply nth_error_In; exact Ei).
        destruct d as [dflt cn fs|tr fs|vs|p t'].
        * apply (both_ext F Json n (fun j => pmap VSeq (de_named L Json (DE j) j dflt fs))); [intros j u; cbn [de_text]; rewrite Ei; reflexivity|].
          eapply both_weak; [apply (both_map F Json n VSeq); apply (acc_named n X IH); exact Hd|]. intros nx xs v. split; [intros (ws & -> & ms & H1 & H2 & H3); exists ms, ws; auto | intros (ms & ws & H1 & -> & H2 & H3); exists ws; split; [reflexivity|]; exists ms; auto].
        * destruct (existsb f_hasproxy fs) eqn:Ep; [apply both_never; [intros j u u' a; cbn [de_text]; rewrite Ei, Ep; discriminate | intros nx xs v [Q _]; discriminate]|].
          apply (both_ext F Json n (fun j => pmap VSeq (de_unnamed L Json (DE j) tr fs))); [intros j u; cbn [de_text]; rewrite Ei, Ep; destruct fs; reflexivity|].
          destruct fs as [|f [|f2 fs]].
          -- eapply both_weak; [apply (both_map F Json n VSeq (fun _ => braces)); apply acc_braces|]. intros nx xs v. split; [intros (ws & -> & -> & ->); auto | intros (_ & -> & ->); exists []; auto].
          -- cbn [de_unnamed]. destruct tr.
             ++ eapply both_weak; [apply (both_map F Json n VSeq); apply (both_map F Json n (fun v => [v]) (fun j => DE j (f_ty f))); apply IH|]. intros nx xs v. split; [intros (ws & -> & w & -> & H); eauto | intros (_ & w & H & ->); exists [w]; split; [reflexivity | exists w; auto]].
             ++ eapply both_weak; [apply (both_map F Json n VSeq); apply (acc_single n X IH)|]. intros nx xs v. split; [intros (ws & -> & l & w & -> & H & ->); split; [reflexivity|]; exists l, w; auto | intros (_ & l & w & -> & H & ->); exists [w]; split; [reflexivity|]; exists l, w; auto].
          -- assert (Eu : forall j, de_unnamed L Json (DE j) tr (f :: f2 :: fs) = de_bracketed L Json (map (de_item L Json (DE j)) (map f_ty (f :: f2 :: fs)))) by (intro j; cbn [de_unnamed]; rewrite map_map; reflexivity).
             apply (both_ext F Json n (fun j => pmap VSeq (de_bracketed L Json (map (de_item L Json (DE j)) (map f_ty (f :: f2 :: fs)))))); [intros j u; rewrite Eu; reflexivity|].
             eapply both_weak; [apply (both_map F Json n VSeq); apply (acc_fixed n X Sh (fun j => de_item L Json (DE j))); intros t _; apply acc_item; exact IH|].
             intros nx xs v. split.
             ++ intros (ws & -> & ls & H1 & H2). split; [reflexivity|]. destruct tr; exists ls, ws; auto.
             ++ intros (_ & H). assert (H' : exists ls ws, array_toks ls xs /\ tuple_means (X None) (map f_ty (f :: f2 :: fs)) ls ws /\ v = VSeq ws) by (destruct tr; exact H). destruct H' as (ls & ws & H1 & H2 & ->). exists ws. split; [reflexivity|]. exists ls. auto.
        * destruct Hd as [Hn Hb]. apply (both_ext F Json n (fun j => de_enum_json L Json (DE j) j vs)); [intros j u; cbn [de_text]; rewrite Ei; reflexivity|].
          eapply both_weak; [apply (acc_enum n X IH Sh vs Hb)|]. intros nx xs v. split.
          -- intros [(q & k & j & vr & ys & Ef & -> & H)|(q & s & j & vr & Ef & -> & ->)].
             ++ apply (fv_iff (fun v => negb (is_unit v))) in Ef as (tag & -> & Ht & Hq & Hk); [|exact Hn]. exists tag, vr. split; [exact Ht|]. unfold is_unit in Hq. unfold body_rel in H. destruct (v_body vr) as [|ts|fs]; [discriminate Hq| |].
                ** destruct H as (ws & -> & ls & H1 & H2). exists q, ls, ws, ys. subst k. auto.
                ** destruct H as (ws & -> & ms & H1 & H2 & H3). exists q, ms, ws, ys. subst k. auto.
             ++ apply (fv_iff is_unit) in Ef as (tag & -> & Ht & Hq & Hk); [|exact Hn]. exists tag, vr. split; [exact Ht|]. unfold is_unit in Hq. destruct (v_body vr); [|discriminate Hq | discriminate Hq]. exists q, s. auto.
          -- intros (tag & vr & Ht & H). destruct (v_body vr) as [|ts|fs] eqn:Eb.
             ++ destruct H as (q & s & -> & -> & Hk). right. exists q, s, (N.of_nat tag), vr. split; [|auto]. apply (fv_iff is_unit); [exact Hn|]. exists tag. unfold is_unit. rewrite Eb. auto.
             ++ destruct H as (q & ls & ws & ys & -> & H1 & H2 & ->). left. exists q, (key_of_variant Json vr), (N.of_nat tag), vr, ys. split; [|split; [reflexivity|]].
                ** apply (fv_iff (fun v => negb (is_unit v))); [exact Hn|]. exists tag. unfold is_unit. rewrite Eb. auto.
                ** rewrite Eb. exists ws. split; [reflexivity|]. eauto.
             ++ destruct H as (q & ms & ws & ys & -> & H1 & H2 & H3 & ->). left. exists q, (key_of_variant Json vr), (N.of_nat tag), vr, ys. split; [|split; [reflexivity|]].
                ** apply (fv_iff (fun v => negb (is_unit v))); [exact Hn|]. exists tag. unfold is_unit. rewrite Eb. auto.
                ** rewrite Eb. exists ws. split; [reflexivity|]. eauto.
        * apply (both_ext F Json n (fun j => pmap (p_from p) (DE j t'))); [intros j u; cbn [de_text]; rewrite Ei; reflexivity|].
          eapply both_weak; [apply (both_map F Json n (p_from p) (fun j => DE j t')); apply IH|]. intros nx xs v. split; [intros (w & -> & H2); exists w; auto | intros (w & H1 & ->); exists w; auto].
  Qed.
End De.
