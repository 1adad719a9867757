(** The RON readers take exactly the token sequences of SpecRonAcc.v: the readers of
    the types, and the whole (the counterpart of AccDe.v). *)
From Verif Require Import Base Utf8 Types BinModel Text TextModel TextSim TextToks TextLex TextRead SpecText SpecGram SpecObj SpecList TextGram TextMain TextFuel TextLocal TextRun TextEmbed TextObj TextList SpecTok TokLex SpecDoc Doc SpecAcc AccBase SpecRonAcc RonAccDoc.
From Verif Require SpecRon.
Local Open Scope N_scope.

Section De.
  Variables (F : flt) (c : cfg) (G : env).
  Notation L := tok_lexer.
  Notation both := (both F Ron).
  Notation atx := (atx F Ron).
  Notation kd := (kd F Ron).
  Notation kh := (kh F Ron).
  Notation good := (good F Ron).
  Notation DE := (de_text L F c G Ron).

  (** *** More generic steps *)
  Lemma both_ok_ext {A} n (m m' : nat -> @pm tst A) P : (forall j u u' a, m j u = (u', Ok a) <-> m' j u = (u', Ok a)) -> both n m P -> both n m' P.
  Proof.
    intros H [Hi Hf]. split.
    - intros u u' a xs0 b Ha E. apply H in E. exact (Hi u u' a xs0 b Ha E).
    - intros nx xs a HP. destruct (Hf nx xs a HP) as [N HN]. exists N. intros j Hj rest b u Hn Hg Ha. destruct (HN j Hj rest b u Hn Hg Ha) as (u' & E & A'). exists u'. split; [apply H; exact E | exact A'].
  Qed.
  Lemma both_fin {A} n (m : nat -> @pm tst A) (ok : A -> Prop) : (forall j u u' v, m j u = (u', Ok v) -> u' = u /\ ok v) -> (forall j u v, ok v -> m j u = (u, Ok v)) ->
    both n m (fun _ xs v => xs = [] /\ ok v).
  Proof.
    intros H1 H2. split.
    - intros u u' v xs0 b Ha E. destruct (H1 _ _ _ _ E) as [-> Ho]. exists [], xs0. split; [reflexivity|]. split; [exact Ha|]. split; [congruence|]. auto.
    - intros nx xs v [-> Ho]. exists O. intros j _ rest b u _ _ Ha. exists u. split; [apply H2; exact Ho | exact Ha].
  Qed.
  Lemma both_or {A} n (m m1 m2 : nat -> @pm tst A) P1 P2 :
    both n m1 P1 -> both n m2 P2 ->
    (forall j u u' a, m j u = (u', Ok a) -> m1 j u = (u', Ok a) \/ m2 j u = (u', Ok a)) ->
    (forall j nx xs rest b u u' a, atx u (xs ++ rest) b -> P1 nx xs a -> m1 j u = (u', Ok a) -> m j u = (u', Ok a)) ->
    (forall j nx xs rest b u u' a, atx u (xs ++ rest) b -> P2 nx xs a -> m2 j u = (u', Ok a) -> m j u = (u', Ok a)) ->
    both n m (fun nx xs a => P1 nx xs a \/ P2 nx xs a).
  Proof.
    intros [I1 F1] [I2 F2] H H1 H2. split.
    - intros u u' a xs0 b Ha E. destruct (H _ _ _ _ E) as [E1|E1].
      + destruct (I1 _ _ _ _ _ Ha E1) as (xs & rest & ? & ? & ? & ?). exists xs, rest. auto.
      + destruct (I2 _ _ _ _ _ Ha E1) as (xs & rest & ? & ? & ? & ?). exists xs, rest. auto.
    - intros nx xs a [HP|HP].
      + destruct (F1 _ _ _ HP) as [N HN]. exists N. intros j Hj rest b u Hn Hg Ha. destruct (HN j Hj rest b u Hn Hg Ha) as (u' & E & A'). exists u'. split; [|exact A']. exact (H1 _ _ _ _ _ _ _ _ Ha HP E).
      + destruct (F2 _ _ _ HP) as [N HN]. exists N. intros j Hj rest b u Hn Hg Ha. destruct (HN j Hj rest b u Hn Hg Ha) as (u' & E & A'). exists u'. split; [|exact A']. exact (H2 _ _ _ _ _ _ _ _ Ha HP E).
  Qed.

  Lemma pbind_ext {A B} (m m' : @pm tst A) (f f' : A -> @pm tst B) u : m u = m' u -> (forall a v, f a v = f' a v) -> pbind m f u = pbind m' f' u.
  Proof. intros H1 H2. unfold pbind. rewrite H1. destruct (m' u) as [u1 [a|e|p|]]; try reflexivity. apply H2. Qed.

  (** *** Loops in brackets *)
  Section Brackets.
    Variables (op cl : N) (kop kcl : tok).
    Hypothesis Hop : forall x, kd x = kop <-> x = XP op.
    Hypothesis Hcl : forall x, kd x = kcl <-> x = XP cl.
    Hypothesis Sop : simple kop.
    Hypothesis Scl : simple kcl.
    Hypothesis Hcc : kcl <> KComma.
    Lemma both_loop {A B} n (cond : tst -> bool) (cnd : option lexeme -> bool) (body item : nat -> A -> @pm tst A) (I : A -> rel A) (J : A -> list lexeme -> A -> Prop) (a0 : A) (fin : A -> @pm tst B) (ok : A -> B -> Prop) w1 w2 w3 :
      (forall u xs b, atx u xs b -> cond u = cnd (head xs)) ->
      (forall j a u, cond u = true -> body j a u = pbind (item j a) (fun a' => pbind (eat_comma L kcl w2) (fun _ => pret a')) u) ->
      (forall a, both n (fun j => item j a) (I a)) ->
      (forall a nx l a', hword nx = None -> (I a nx l a' <-> J a l a')) ->
      (forall a l a', J a l a' -> exists x r, l = x :: r /\ cnd (Some x) = true) ->
      cnd (Some (XP cl)) = false ->
      (forall a u u' v, fin a u = (u', Ok v) -> u' = u /\ ok a v) -> (forall a u v, ok a v -> fin a u = (u, Ok v)) ->
      both n (fun j => pbind (expect L kop w1) (fun _ => pbind (while_ j cond (body j) a0) (fun a => pbind (expect L kcl w3) (fun _ => fin a))))
        (fun _ xs v => exists ls ys a, run J a0 ls a /\ listed ls ys /\ xs = between op cl ys /\ ok a v).
    Proof.
      intros Hcond Hbody Hit HI Hst Hc0 Hf1 Hf2.
      set (body' := fun j a => pbind (item j a) (fun a' => pbind (eat_comma L kcl w2) (fun _ => pret a'))).
      assert (Hw : forall j k a u, while_ k cond (body j) a u = while_ k cond (body' j) a u).
      { intros j k. induction k as [|k IH]; intros a u; [reflexivity|]. cbn [while_]. destruct (cond u) eqn:Ec; [|reflexivity].
        apply pbind_ext; [exact (Hbody _ _ _ Ec) | exact IH]. }
      apply (both_ext F Ron n (fun j => pbind (expect L kop w1) (fun _ => pbind (while_ j cond (body' j) a0) (fun a => pbind (expect L kcl w3) (fun _ => fin a))))).
      { intros j u. apply pbind_ext; [reflexivity|]. intros _ u1. apply pbind_ext; [symmetry; apply Hw | reflexivity]. }
      eapply both_weak.
      - apply (both_bind F Ron n (fun _ => expect L kop w1) (fun j _ => pbind (while_ j cond (body' j) a0) (fun a => pbind (expect L kcl w3) (fun _ => fin a))) (r_tok F Ron kop) (fun _ => r_bind (iter cnd (item_rel F kcl I) a0) (fun a => r_bind (r_tok F Ron kcl) (fun _ _ xs v => xs = [] /\ ok a v)))).
        + apply both_expect; exact Sop.
        + intros _. apply (both_bind F Ron n (fun j => while_ j cond (body' j) a0) (fun j a => pbind (expect L kcl w3) (fun _ => fin a))).
          * apply (both_while F Ron cnd (item_rel F kcl I) cond body' Hcond). intro a. unfold body', item_rel.
            apply (both_bind F Ron n (fun j => item j a) (fun j a' => pbind (eat_comma L kcl w2) (fun _ => pret a'))); [apply Hit|]. intro a'.
            apply (both_bind F Ron n (fun _ => eat_comma L kcl w2) (fun _ _ => pret a')); [apply both_comma; assumption|]. intros _. apply both_ret.
          * intro a. apply (both_bind F Ron n (fun _ => expect L kcl w3) (fun _ _ => fin a)); [apply both_expect; exact Scl|]. intros _. apply both_fin; [intros _; apply Hf1 | intros _; apply Hf2].
      - intros nx xs v. apply (bracketed_iff F op cl kop kcl Hop Hcl (proj2 Scl) cnd I J HI Hst Hc0 ok).
    Qed.

    (** A fixed number of items. *)
    Context {T : Type}.
    Variable J : T -> list lexeme -> val -> Prop.
    Hypothesis Hst : forall t l v, J t l v -> exists x r, l = x :: r /\ x <> XP cl.
    Lemma both_all n (p : nat -> T -> @pm tst val) ts : (forall t, In t ts -> both n (fun j => p j t) (one_rel cl J t)) ->
      both n (fun j => de_list (map (p j) ts)) (all_rel cl J ts).
    Proof.
      induction ts as [|t ts IH]; intro Hp.
      - eapply both_weak; [apply (both_ret F Ron n [])|]. intros nx xs v. split; [intros [-> ->]; constructor|]. intro H. inversion H; subst. split; reflexivity.
      - cbn [map de_list]. eapply both_weak.
        + apply (both_bind F Ron n (fun j => p j t) (fun j v => pbind (de_list (map (p j) ts)) (fun r => pret (v :: r))) (one_rel cl J t)
            (fun v => r_bind (all_rel cl J ts) (fun r => r_ret (v :: r)))); [apply Hp; left; reflexivity|]. intro v.
          apply (both_bind F Ron n (fun j => de_list (map (p j) ts)) (fun _ r => pret (v :: r))); [apply IH; intros t' Ht'; apply Hp; right; exact Ht' | intro; apply both_ret].
        + intros nx xs vs. split.
          * intros (x1 & x2 & v & -> & H1 & x3 & x4 & r & -> & H2 & -> & ->). rewrite app_nil_r in *. cbn [hd_of] in H2. constructor; assumption.
          * intro H. inversion H as [|t' ts' nx' xs1 xs2 v vs' H1 H2]; subst. exists xs1, xs2, v. split; [reflexivity|]. split; [exact H1|].
            exists xs2, [], vs'. rewrite app_nil_r. split; [reflexivity|]. split; [exact H2 | split; reflexivity].
    Qed.
    Lemma both_fixed n (p : nat -> T -> @pm tst val) ts w1 w2 : (forall t, In t ts -> both n (fun j => p j t) (one_rel cl J t)) ->
      both n (fun j => pbind (expect L kop w1) (fun _ => pbind (de_list (map (p j) ts)) (fun vs => pbind (expect L kcl w2) (fun _ => pret vs))))
        (fun _ xs vs => exists ls ys, each_item J ts ls vs /\ listed ls ys /\ xs = between op cl ys).
    Proof.
      intro Hp. eapply both_weak.
      - apply (both_bind F Ron n (fun _ => expect L kop w1) (fun j _ => pbind (de_list (map (p j) ts)) (fun vs => pbind (expect L kcl w2) (fun _ => pret vs))) (r_tok F Ron kop)
          (fun _ => r_bind (all_rel cl J ts) (fun a => r_bind (r_tok F Ron kcl) (fun _ => r_ret a)))); [apply both_expect; exact Sop|]. intros _.
        apply (both_bind F Ron n (fun j => de_list (map (p j) ts)) (fun j vs => pbind (expect L kcl w2) (fun _ => pret vs))); [apply both_all; exact Hp|]. intro vs.
        apply (both_bind F Ron n (fun _ => expect L kcl w2) (fun _ _ => pret vs)); [apply both_expect; exact Scl|]. intros _. apply both_ret.
      - intros nx xs v. apply (fixed_iff F op cl kop kcl Hop Hcl J Hst).
    Qed.
  End Brackets.

  (** *** Durations *)
  Lemma acc_colon n : both n (fun _ => p_colon L) (fun _ xs _ => xs = [xcolon]).
  Proof.
    eapply both_weak; [apply both_expect; split; [reflexivity | discriminate]|]. intros nx xs v. split.
    - intros (x & -> & H). apply kd_colon in H. subst. reflexivity.
    - intros ->. eexists. split; [reflexivity | apply kd_colon; reflexivity].
  Qed.
  Lemma curly_op x : kd x = KCurlyOpen <-> x = XP 123. Proof. apply kd_lcur. Qed.
  Definition not_close (k : tok) (o : option lexeme) : bool := negb (tok_is (kh o) k).
  Lemma not_close_cond k u xs b : atx u xs b -> negb (tok_is (l_tok L u) k) = not_close k (head xs).
  Proof. intro Ha. rewrite (atx_tok F Ron _ _ _ Ha). reflexivity. Qed.
  Notation dacc := (option N * option N)%type.
  Definition num_item (k : ik) (f : N -> dacc) : @pm tst dacc := pbind (p_colon L) (fun _ => pbind (de_u64 L k) (fun v => pret (f v))).
  Definition ditemx (a : dacc) : @pm tst dacc :=
    pbind (de_str L) (fun key =>
      if str_eqb key (chars "secs") then
        match fst a with Some _ => perr L (CannotParse (chars "Duration can only have one secs field")) | None => num_item U64 (fun v => (Some v, snd a)) end
      else if str_eqb key (chars "nanos") then
        match snd a with Some _ => perr L (CannotParse (chars "Duration can only have one nanos field")) | None => num_item U32 (fun v => (fst a, Some v)) end
      else perr L (CannotParse (chars "Duration can only have secs or nanos fields, got " ++ key))).
  Definition num_rel (k : ik) (f : N -> dacc) : rel dacc := fun _ xs a' => exists s v, xs = [xcolon; XN s] /\ nat_means (unplus s) v /\ v <= u_max k /\ a' = f v.
  Lemma acc_num n k f : k = U64 \/ k = U32 -> both n (fun _ => num_item k f) (num_rel k f).
  Proof.
    intro K. eapply both_weak.
    - apply (both_bind F Ron n (fun _ => p_colon L) (fun _ _ => pbind (de_u64 L k) (fun v => pret (f v))) _ (fun _ => r_bind (fun _ xs v => exists s, xs = [XN s] /\ nat_means (unplus s) v /\ v <= u_max k) (fun v => r_ret (f v))) (acc_colon n)).
      intros _. apply (both_bind F Ron n (fun _ => de_u64 L k) (fun _ v => pret (f v))); [apply acc_u64; exact K | intro; apply both_ret].
    - intros nx xs a'. split.
      + intros (x1 & x2 & [] & -> & -> & x3 & x4 & v & -> & (s & -> & H1 & H2) & -> & ->). exists s, v. auto.
      + intros (s & v & -> & H1 & H2 & ->). exists [xcolon], [XN s], tt. split; [reflexivity|]. split; [reflexivity|]. exists [XN s], [], v. split; [reflexivity|]. split; [eauto | split; reflexivity].
  Qed.
  Definition dstepx (a : dacc) (l : list lexeme) (a' : dacc) : Prop :=
    exists q s v, (l = [XS q (chars "secs"); xcolon; XN s] /\ fst a = None /\ nat_means (unplus s) v /\ v <= u_max U64 /\ a' = (Some v, snd a)) \/
                  (l = [XS q (chars "nanos"); xcolon; XN s] /\ snd a = None /\ nat_means (unplus s) v /\ v <= u_max U32 /\ a' = (fst a, Some v)).
  Lemma acc_ditem n a : both n (fun _ => ditemx a) (fun _ l a' => dstepx a l a').
  Proof.
    eapply both_weak.
    - apply (both_bind F Ron n (fun _ => de_str L) (fun _ key =>
        if str_eqb key (chars "secs") then
          match fst a with Some _ => perr L (CannotParse (chars "Duration can only have one secs field")) | None => num_item U64 (fun v => (Some v, snd a)) end
        else if str_eqb key (chars "nanos") then
          match snd a with Some _ => perr L (CannotParse (chars "Duration can only have one nanos field")) | None => num_item U32 (fun v => (fst a, Some v)) end
        else perr L (CannotParse (chars "Duration can only have secs or nanos fields, got " ++ key))) _
        (fun key nx xs a' => key = chars "secs" /\ fst a = None /\ num_rel U64 (fun v => (Some v, snd a)) nx xs a' \/ key = chars "nanos" /\ snd a = None /\ num_rel U32 (fun v => (fst a, Some v)) nx xs a') (acc_str F n)).
      intro key. destruct (str_eqb key (chars "secs")) eqn:E1; [apply str_eqb_eq in E1; subst key|].
      + destruct (fst a) as [x|].
        * apply both_never; [discriminate|]. intros nx xs v [(_ & Q & _)|(Q & _)]; discriminate.
        * eapply both_weak; [apply acc_num; auto|]. intros nx xs v. split; [auto|]. intros [(_ & _ & H)|(Q & _)]; [exact H | discriminate].
      + assert (N1 : key <> chars "secs") by (intros ->; discriminate E1). destruct (str_eqb key (chars "nanos")) eqn:E2; [apply str_eqb_eq in E2; subst key|].
        * destruct (snd a) as [x|].
          -- apply both_never; [discriminate|]. intros nx xs v [(Q & _)|(_ & Q & _)]; [contradiction | discriminate].
          -- eapply both_weak; [apply acc_num; auto|]. intros nx xs v. split; [auto|]. intros [(Q & _)|(_ & _ & H)]; [contradiction | exact H].
        * assert (N2 : key <> chars "nanos") by (intros ->; discriminate E2). apply both_never; [discriminate|]. intros nx xs v [(Q & _)|(Q & _)]; contradiction.
    - intros nx xs a'. split.
      + intros (x1 & x2 & key & -> & (q & ->) & [(-> & H1 & s & v & -> & H2 & H3 & ->)|(-> & H1 & s & v & -> & H2 & H3 & ->)]); exists q, s, v; [left | right]; auto.
      + intros (q & s & v & [(-> & H1 & H2 & H3 & ->)|(-> & H1 & H2 & H3 & ->)]).
        * exists [XS q (chars "secs")], [xcolon; XN s], (chars "secs"). split; [reflexivity|]. split; [eauto|]. left. split; [reflexivity|]. split; [exact H1|]. exists s, v. auto.
        * exists [XS q (chars "nanos")], [xcolon; XN s], (chars "nanos"). split; [reflexivity|]. split; [eauto|]. right. split; [reflexivity|]. split; [exact H1|]. exists s, v. auto.
  Qed.
  Lemma drun_inv ls s o : run dstepx (None, None) ls (Some s, o) ->
    exists ms, Forall2 member_toks ms ls /\ s < 2 ^ 64 /\
      exists sa sb, nat_means (unplus sa) s /\ (ms = [(chars "secs", [XN sa])] /\ match o with Some x => x | None => 0 end = 0 \/
        nat_means (unplus sb) (match o with Some x => x | None => 0 end) /\ (ms = [(chars "secs", [XN sa]); (chars "nanos", [XN sb])] \/ ms = [(chars "nanos", [XN sb]); (chars "secs", [XN sa])])).
  Proof.
    assert (M : forall v, v <= u_max U64 -> v < 2 ^ 64) by (intros v Hv; change (u_max U64) with 18446744073709551615 in Hv; lia).
    intro C. inversion C as [|a l1 a1 r1 a2 S1 C1]; subst. destruct S1 as (q1 & s1 & v1 & [(-> & _ & M1 & B1 & ->)|(-> & _ & M1 & B1 & ->)]).
    - inversion C1 as [|a l2 a3 r2 a4 S2 C2]; subst.
      + exists [(chars "secs", [XN s1])]. split; [constructor; [exists q1; reflexivity | constructor]|]. split; [auto|]. exists s1, []. split; [exact M1|]. left. auto.
      + destruct S2 as (q2 & s2 & v2 & [(_ & Q & _)|(-> & _ & M2 & B2 & ->)]); [discriminate|].
        inversion C2 as [|a l3 a5 r3 a6 S3 C3]; subst.
        * exists [(chars "secs", [XN s1]); (chars "nanos", [XN s2])]. split; [constructor; [exists q1; reflexivity | constructor; [exists q2; reflexivity | constructor]]|]. split; [auto|]. exists s1, s2. split; [exact M1|]. right. split; [exact M2 | auto].
        * destruct S3 as (q3 & s3 & v3 & [(_ & Q & _)|(_ & Q & _)]); discriminate.
    - inversion C1 as [|a l2 a3 r2 a4 S2 C2]; subst.
      destruct S2 as (q2 & s2 & v2 & [(-> & _ & M2 & B2 & ->)|(_ & Q & _)]); [|discriminate].
      inversion C2 as [|a l3 a5 r3 a6 S3 C3]; subst.
      + exists [(chars "nanos", [XN s1]); (chars "secs", [XN s2])]. split; [constructor; [exists q1; reflexivity | constructor; [exists q2; reflexivity | constructor]]|]. split; [auto|]. exists s2, s1. split; [exact M2|]. right. split; [exact M1 | auto].
      + destruct S3 as (q3 & s3 & v3 & [(_ & Q & _)|(_ & Q & _)]); discriminate.
  Qed.
  Lemma drun_fwd ms ls a b sa sb : Forall2 member_toks ms ls -> a < 2 ^ 64 -> b <= 1000000000 -> nat_means (unplus sa) a ->
    (ms = [(chars "secs", [XN sa])] /\ b = 0 \/ nat_means (unplus sb) b /\ (ms = [(chars "secs", [XN sa]); (chars "nanos", [XN sb])] \/ ms = [(chars "nanos", [XN sb]); (chars "secs", [XN sa])])) ->
    exists o, run dstepx (None, None) ls (Some a, o) /\ b = match o with Some x => x | None => 0 end.
  Proof.
    intros Hm Ha Hb Ma H. assert (M : a <= u_max U64) by (change (u_max U64) with 18446744073709551615; lia). assert (M2 : b <= u_max U32) by (change (u_max U32) with 4294967295; lia).
    destruct H as [[-> ->]|[Mb [-> | ->]]].
    - inversion Hm as [|? l1 ? ls1 H1 H2]; subst. inversion H2; subst. destruct H1 as [q1 ->]. exists None. split; [|reflexivity]. econstructor; [|constructor]. exists q1, sa, a. left. auto.
    - inversion Hm as [|? l1 ? ls1 H1 H2]; subst. inversion H2 as [|? l2 ? ls2 H3 H4]; subst. inversion H4; subst. destruct H1 as [q1 ->]. destruct H3 as [q2 ->]. exists (Some b). split; [|reflexivity].
      econstructor; [|econstructor; [|constructor]]; [exists q1, sa, a; left; auto|]. exists q2, sb, b. right. cbn [fst snd]. auto.
    - inversion Hm as [|? l1 ? ls1 H1 H2]; subst. inversion H2 as [|? l2 ? ls2 H3 H4]; subst. inversion H4; subst. destruct H1 as [q1 ->]. destruct H3 as [q2 ->]. exists (Some b). split; [|reflexivity].
      econstructor; [|econstructor; [|constructor]]; [exists q1, sb, b; right; auto|]. exists q2, sa, a. left. cbn [fst snd]. auto.
  Qed.
  Definition dfin (a : dacc) : @pm tst val :=
    match fst a with
    | None => perr L (CannotParse (chars "Duration must have secs field"))
    | Some secs =>
      let ns := match snd a with Some x => x | None => 0 end in
      if 1000000000 <? ns then perr L (OutOfRange (chars "Duration nanos must be at most 1,000,000,000"))
      else if ns <? 1000000000 then pret (VDur secs ns)
      else if secs + 1 <? 2 ^ 64 then pret (VDur (secs + 1) 0)
      else pfail (Panic PDuration)
    end.
  Definition dok (a : dacc) (v : val) : Prop :=
    exists s, fst a = Some s /\ let b := match snd a with Some x => x | None => 0 end in
      (b < 1000000000 /\ v = VDur s b \/ b = 1000000000 /\ s + 1 < 2 ^ 64 /\ v = VDur (s + 1) 0).
  Lemma acc_dur n : both n (fun j => de_dur L j) (fun _ xs v => exists s ns, dur_toks xs s ns /\ v = VDur s ns).
  Proof.
    eapply both_weak.
    - apply (both_loop 123 125 KCurlyOpen KCurlyClose (kd_lcur F) (kd_rcur F)) with (cnd := not_close KCurlyClose) (item := fun _ => ditemx) (I := fun a _ l a' => dstepx a l a') (J := dstepx) (fin := dfin) (ok := dok) (w2 := chars ", or }").
      + split; [reflexivity | discriminate].
      + split; [reflexivity | discriminate].
      + discriminate.
      + intros u xs b. apply not_close_cond.
      + intros j a u _. unfold dur_body, ditemx, pbind. destruct (de_str L u) as [u1 [key|e|p|]]; reflexivity.
      + intro a. apply acc_ditem.
      + intros. reflexivity.
      + intros a l a' (q & s & v & [(-> & _)|(-> & _)]); eexists; eexists; (split; [reflexivity | reflexivity]).
      + reflexivity.
      + intros a u u' v E. unfold dfin, dok in *. destruct (fst a) as [s|]; [|discriminate]. cbv zeta in *. set (b := match snd a with Some x => x | None => 0 end) in *.
        destruct (1000000000 <? b) eqn:E1; [discriminate|]. destruct (b <? 1000000000) eqn:E2; [injection E as <- <-; split; [reflexivity|]; exists s; split; [reflexivity|]; left; split; [apply N.ltb_lt; exact E2 | reflexivity]|].
        destruct (s + 1 <? 2 ^ 64) eqn:E3; [|discriminate]. injection E as <- <-. split; [reflexivity|]. exists s. split; [reflexivity|]. right. apply N.ltb_ge in E1, E2. apply N.ltb_lt in E3. split; [lia | auto].
      + intros a u v (s & Hs & H). unfold dfin. rewrite Hs. cbv zeta in *. set (b := match snd a with Some x => x | None => 0 end) in *. destruct H as [[H ->]|(H & H2 & ->)].
        * replace (1000000000 <? b) with false by (symmetry; apply N.ltb_ge; lia). replace (b <? 1000000000) with true by (symmetry; apply N.ltb_lt; lia). reflexivity.
        * rewrite H. change (1000000000 <? 1000000000) with false. cbn iota. replace (s + 1 <? 2 ^ 64) with true by (symmetry; apply N.ltb_lt; lia). reflexivity.
    - intros nx xs v. split.
      + intros (ls & ys & [o1 o2] & Hr & Hl & -> & s & Hs & Ho). cbn [fst snd] in *. subst o1. destruct (drun_inv ls s o2 Hr) as (ms & Hm & Hlt & sa & sb & Ma & Hms). cbv zeta in Ho. set (b := match o2 with Some x => x | None => 0 end) in *.
        assert (Ho' : exists s0 ns, v = VDur s0 ns /\ (b < 1000000000 /\ s0 = s /\ ns = b \/ b = 1000000000 /\ s0 = s + 1 /\ s + 1 < 2 ^ 64 /\ ns = 0)).
        { destruct Ho as [[H ->]|(H & H2 & ->)]; [exists s, b | exists (s + 1), 0]; auto 8. }
        destruct Ho' as (s0 & ns & -> & Ho'). exists s0, ns. split; [|reflexivity]. exists ms, s, b. split; [exists ls, ys; auto|]. split; [exact Hlt|]. split; [|exact Ho']. exists sa, sb. auto.
      + intros (s & ns & (ms & a & b & (ls & ys & Hm & Hl & ->) & Ha & (sa & sb & Ma & Hms) & Hb) & ->).
        destruct (drun_fwd ms ls a b sa sb Hm Ha ltac:(destruct Hb; lia) Ma Hms) as (o & Hr & Eo). exists ls, ys, (Some a, o). split; [exact Hr|]. split; [exact Hl|]. split; [reflexivity|].
        exists a. split; [reflexivity|]. cbn [snd]. cbv zeta. rewrite <- Eo. destruct Hb as [(H & -> & ->)|(H & -> & H2 & ->)]; [left | right]; auto.
  Qed.

  (** *** Options *)
  Definition shape (xs : list lexeme) : Prop := exists x r, xs = x :: r /\ x <> XP 93 /\ x <> XP 125 /\ x <> XP 41.
  Lemma shape_open xs : shape xs -> exists x r, xs = x :: r /\ x <> XP 41 /\ not_close KBlockClose (Some x) = true /\ not_close KCurlyClose (Some x) = true.
  Proof.
    intros (x & r & -> & N1 & N2 & N3). exists x, r. split; [reflexivity|]. split; [exact N3|]. unfold not_close. cbn [AccBase.kh]. split.
    - destruct (tok_is (kd x) KBlockClose) eqn:E; [|reflexivity]. apply tok_is_eq, kd_rbr in E. contradiction.
    - destruct (tok_is (kd x) KCurlyClose) eqn:E; [|reflexivity]. apply tok_is_eq, kd_rcur in E. contradiction.
  Qed.
  Lemma none_name : a_name (chars "None"). Proof. split; discriminate. Qed.
  Lemma at_none_iff u xs b : atx u xs b -> (at_none L Ron u = true <-> exists r, xs = xnone :: r).
  Proof.
    intro Ha. unfold at_none. rewrite (atx_tok F Ron _ _ _ Ha). split.
    - intro H. apply andb_prop in H as [H1 H2]. apply tok_is_eq in H1. apply str_eqb_eq in H2. destruct xs as [|x xs]; [discriminate|]. cbn [head hd_of AccBase.kh] in H1.
      apply kd_ident in H1. destruct H1 as (w & -> & Hw). cbn [l_id tok_lexer] in H2. rewrite (ib_at F _ _ _ _ Ha Hw) in H2. subst w. exists xs. reflexivity.
    - intros [r ->]. cbn [head hd_of AccBase.kh]. assert (Hk : kd xnone = KIdent) by (apply kd_ident; exists (chars "None"); split; [reflexivity | exact none_name]). rewrite Hk.
      cbn [tok_is andb l_id tok_lexer]. rewrite (ib_at F _ _ _ _ Ha none_name). reflexivity.
  Qed.
  Definition take_none : @pm tst val := fun u => if at_none L Ron u then pbind (l_next L) (fun _ => pret VNone) u else perr L (CannotParse []) u.
  Lemma acc_next_none n : both n (fun _ => take_none) (fun _ xs v => xs = [xnone] /\ v = VNone).
  Proof.
    split.
    - intros u u' a xs0 b Ha E. unfold take_none in E. destruct (at_none L Ron u) eqn:En; [|discriminate]. apply (at_none_iff _ _ _ Ha) in En as [r ->].
      unfold pbind in E. destruct (l_next L u) as [u1 [q|e|p|]] eqn:E1; try discriminate. unfold pret in E. injection E as <- <-. destruct (next_inv F Ron _ _ _ _ _ _ Ha E1) as [A1 G1].
      exists [xnone], r. split; [reflexivity|]. split; [exact A1|]. split; [auto|]. auto.
    - intros nx xs v [-> ->]. exists O. intros j _ rest b u Hn Hg Ha. cbn [app] in Ha. destruct (next_fwd F Ron _ _ _ _ Ha Hg) as (u1 & E1 & A1 & _). exists u1. split; [|exact A1].
      unfold take_none. replace (at_none L Ron u) with true by (symmetry; apply (at_none_iff _ _ _ Ha); eauto). unfold pbind. rewrite E1. reflexivity.
  Qed.
  Lemma acc_opt n (m : nat -> @pm tst val) P : both n m P -> (forall nx xs v, P nx xs v -> shape xs) ->
    both n (fun j => de_opt L Ron (m j)) (fun nx xs v => xs = [xnone] /\ v = VNone \/ ~ (exists r, xs = xnone :: r) /\ exists w, v = VSome w /\ P nx xs w).
  Proof.
    intros H Hs. apply (both_or n _ (fun _ => take_none)
      (fun j u => if at_none L Ron u then perr L (CannotParse []) u else pmap VSome (m j) u) (fun _ xs v => xs = [xnone] /\ v = VNone) (fun nx xs v => ~ (exists r, xs = xnone :: r) /\ exists w, v = VSome w /\ P nx xs w)).
    - apply acc_next_none.
    - pose proof (both_map F Ron n VSome m P H) as [Mi Mf]. split.
      + intros u u' a xs0 b Ha E. destruct (at_none L Ron u) eqn:Et; [discriminate|]. destruct (Mi _ _ _ _ _ Ha E) as (xs & rest & -> & A1 & G1 & w & -> & HP).
        exists xs, rest. split; [reflexivity|]. split; [exact A1|]. split; [exact G1|]. split; [|eauto]. intros [r ->].
        assert (Q : at_none L Ron u = true) by (apply (at_none_iff _ _ _ Ha); exists (r ++ rest); reflexivity). congruence.
      + intros nx xs v (Hn & w & -> & HP). destruct (Mf nx xs (VSome w)) as [N HN]; [exists w; auto|]. exists N. intros j Hj rest b u En Hg Ha. destruct (HN j Hj rest b u En Hg Ha) as (u' & E & A'). exists u'. split; [|exact A'].
        destruct (at_none L Ron u) eqn:Et; [|exact E]. exfalso. apply (at_none_iff _ _ _ Ha) in Et as [r Er]. apply Hn. destruct (Hs _ _ _ HP) as (x & r2 & -> & _). cbn [app] in Er. injection Er as -> _. eauto.
    - intros j u u' a E. unfold de_opt in E. unfold take_none. destruct (at_none L Ron u); auto.
    - intros j nx xs rest b u u' a _ _ E. unfold de_opt. unfold take_none in E. destruct (at_none L Ron u); [exact E | discriminate].
    - intros j nx xs rest b u u' a _ _ E. unfold de_opt. destruct (at_none L Ron u); [discriminate | exact E].
  Qed.
  Lemma dur_shape xs s ns : dur_toks xs s ns -> shape xs.
  Proof. intros (ms & a & b & (ls & ys & _ & _ & ->) & _). exists (XP 123), (ys ++ [XP 125]). split; [reflexivity | split; [discriminate | split; discriminate]]. Qed.
  Lemma acc_time n : both n (fun j => de_time L c Ron j) (fun _ xs v => xs = [xnone] /\ v = VTime 0 0 \/ exists s ns, dur_toks xs s ns /\ s <= time_max c /\ v = VTime (Z.of_N s) ns).
  Proof.
    eapply both_weak.
    - apply (both_pure F Ron n (fun j => de_opt L Ron (de_dur L j)) _ _ (fun w v => match w with VSome (VDur s ns) => s <= time_max c /\ v = VTime (Z.of_N s) ns | _ => v = VTime 0 0 end) (acc_opt n _ _ (acc_dur n) ltac:(intros nx xs v (s & ns & H & _); exact (dur_shape _ _ _ H)))).
      + intros a u u' v E. destruct a as [| | | | | |w| | | | |]; try (unfold pret in E; injection E as <- <-; auto). destruct w; try (unfold pret in E; injection E as <- <-; auto).
        destruct (_ <=? time_max c) eqn:El; [|discriminate]. apply N.leb_le in El. unfold pret in E; injection E as <- <-. auto.
      + intros a u v H. destruct a as [| | | | | |w| | | | |]; try (rewrite H; reflexivity). destruct w; try (rewrite H; reflexivity). destruct H as [H ->]. apply N.leb_le in H. rewrite H. reflexivity.
    - intros nx xs v. split.
      + intros (w & [[-> ->]|(_ & w' & -> & s & ns & Hd & ->)] & Ho); [left; auto|]. right. exists s, ns. destruct Ho. auto.
      + intros [[-> ->]|(s & ns & Hd & Hs & ->)]; [exists VNone; auto|]. exists (VSome (VDur s ns)). split; [|auto]. right. split; [|eauto 6].
        destruct Hd as (ms & a & b & (ls & ys & _ & _ & ->) & _). intros [r Q2]. discriminate Q2.
  Qed.

  (** *** The types, given their parts *)
  Section Step.
    Variables (n : nat) (X : option str -> ty -> list lexeme -> val -> Prop).
    Hypothesis HX : forall t, both n (fun j => DE j t) (fun nx xs v => X (hword nx) t xs v).
    Hypothesis Hsh : forall nx t xs v, X nx t xs v -> shape xs.

    Lemma run_seq k t acc ls acc' : run (fun a l a' => exists v, X None t l v /\ a' = seq_add k v a) acc ls acc' <-> exists ws, Forall2 (X None t) ls ws /\ acc' = seq_of k ws acc.
    Proof.
      split.
      - induction 1 as [a|a l a1 ls a2 (v & H1 & ->) H2 (ws & Hw & ->)]; [exists []; split; [constructor | reflexivity]|]. exists (v :: ws). split; [constructor; assumption | reflexivity].
      - intros (ws & Hw & ->). revert acc. induction Hw as [|l v ls ws H1 H2 IH]; intro acc; [constructor|]. econstructor; [exists v; split; [exact H1 | reflexivity] | apply IH].
    Qed.
    Lemma acc_seq k t : both n (fun j => de_seq L (DE j) j k t) (fun _ xs l => exists ls ws, array_toks ls xs /\ Forall2 (X None t) ls ws /\ l = seq_of k ws []).
    Proof.
      eapply both_weak.
      - apply (both_loop 91 93 KBlockOpen KBlockClose (kd_lbr F) (kd_rbr F)) with (cnd := not_close KBlockClose) (item := fun j a => pmap (fun v => seq_add k v a) (DE j t))
          (I := fun a => r_map (fun v => seq_add k v a) (fun nx xs v => X (hword nx) t xs v)) (J := fun a l a' => exists v, X None t l v /\ a' = seq_add k v a) (fin := fun l => pret l) (ok := fun l l' => l' = l) (w2 := chars ", or ]").
        + split; [reflexivity | discriminate].
        + split; [reflexivity | discriminate].
        + discriminate.
        + intros u xs b. apply not_close_cond.
        + intros j a u _. unfold pmap, pbind. destruct (DE j t u) as [u1 [v|e|p|]]; reflexivity.
        + intro a. apply both_map. apply HX.
        + intros a nx l a' Hn. unfold r_map. rewrite Hn. split; intros (v & H1 & H2); eauto.
        + intros a l a' (v & Hv & _). destruct (shape_open l (Hsh _ _ _ _ Hv)) as (x & r & -> & _ & H & _). eauto.
        + reflexivity.
        + intros a u u' v E. unfold pret in E. injection E as <- <-. auto.
        + intros a u v ->. reflexivity.
      - intros nx xs v. split.
        + intros (ls & ys & a & Hr & Hl & -> & ->). apply run_seq in Hr as (ws & Hw & ->). exists ls, ws. split; [exists ys; auto | auto].
        + intros (ls & ws & (ys & Hl & ->) & Hw & ->). exists ls, ys, (seq_of k ws []). split; [apply run_seq; eauto | auto].
    Qed.
    Notation entry := (fun e : list lexeme * list lexeme => fst e ++ xcolon :: snd e).
    Notation J_map k tk tv := (fun a l a' => exists ek ev x y, l = ek ++ xcolon :: ev /\ X None tk ek x /\ X None tv ev y /\ a' = map_add k x y a).
    Lemma run_map k tk tv acc ls acc' : run (J_map k tk tv) acc ls acc' <->
      exists es ws, ls = map entry es /\ Forall2 (fun e w => X None tk (fst e) (fst w) /\ X None tv (snd e) (snd w)) es ws /\ acc' = map_of k ws acc.
    Proof.
      split.
      - induction 1 as [a|a l a1 ls a2 (ek & ev & x & y & -> & H1 & H2 & ->) H3 (es & ws & -> & Hw & ->)]; [exists [], []; split; [reflexivity|]; split; [constructor | reflexivity]|].
        exists ((ek, ev) :: es), ((x, y) :: ws). split; [reflexivity|]. split; [constructor; auto | reflexivity].
      - intros (es & ws & -> & Hw & ->). revert acc. induction Hw as [|[ek ev] [x y] es ws [H1 H2] H3 IH]; intro acc; [constructor|]. cbn [map fst snd] in *.
        econstructor; [exists ek, ev, x, y; auto | apply IH].
    Qed.
    Definition map_item (k : mapk) (tk tv : ty) (j : nat) (a : list (val * val)) : @pm tst (list (val * val)) :=
      pbind (DE j tk) (fun x => pbind (p_colon L) (fun _ => pmap (fun y => map_add k x y a) (DE j tv))).
    Lemma acc_map k tk tv : both n (fun j => de_map L (DE j) j k tk tv) (fun _ xs l => exists es ws, entries_toks es xs /\
        Forall2 (fun e w => X None tk (fst e) (fst w) /\ X None tv (snd e) (snd w)) es ws /\ l = map_of k ws []).
    Proof.
      eapply both_weak.
      - apply (both_loop 123 125 KCurlyOpen KCurlyClose (kd_lcur F) (kd_rcur F)) with (cnd := not_close KCurlyClose) (item := map_item k tk tv)
          (I := fun a => r_bind (fun nx xs v => X (hword nx) tk xs v) (fun x => r_bind (fun _ xs (_ : unit) => xs = [xcolon]) (fun _ => r_map (fun y => map_add k x y a) (fun nx xs v => X (hword nx) tv xs v))))
          (J := J_map k tk tv) (fin := fun l => pret l) (ok := fun l l' => l' = l) (w2 := chars ", or }").
        + split; [reflexivity | discriminate].
        + split; [reflexivity | discriminate].
        + discriminate.
        + intros u xs b. apply not_close_cond.
        + intros j a u _. unfold map_item, pmap, pbind. destruct (DE j tk u) as [u1 [v|e|p|]]; try reflexivity. destruct (p_colon L u1) as [u2 [[]|e|p|]]; try reflexivity. destruct (DE j tv u2) as [u3 [y|e|p|]]; reflexivity.
        + intro a. unfold map_item. apply (both_bind F Ron n (fun j => DE j tk) (fun j x => pbind (p_colon L) (fun _ => pmap (fun y => map_add k x y a) (DE j tv)))); [apply HX|]. intro x.
          apply (both_bind F Ron n (fun j => p_colon L) (fun j _ => pmap (fun y => map_add k x y a) (DE j tv))); [apply acc_colon|]. intros _. apply both_map. apply HX.
        + intros a nx l a' Hn. split.
          * intros (x1 & x2 & x & -> & H1 & x3 & x4 & [] & -> & -> & y & -> & H2). rewrite Hn in H2. exists x1, x4, x, y. auto.
          * intros (ek & ev & x & y & -> & H1 & H2 & ->). exists ek, (xcolon :: ev), x. split; [reflexivity|]. split; [exact H1|]. exists [xcolon], ev, tt. split; [reflexivity|]. split; [reflexivity|]. exists y. rewrite Hn. auto.
        + intros a l a' (ek & ev & x & y & -> & Hv & _). destruct (shape_open ek (Hsh _ _ _ _ Hv)) as (z & r & -> & _ & _ & H). exists z, (r ++ xcolon :: ev). auto.
        + reflexivity.
        + intros a u u' v E. unfold pret in E. injection E as <- <-. auto.
        + intros a u v ->. reflexivity.
      - intros nx xs v. split.
        + intros (ls & ys & a & Hr & Hl & -> & ->). apply run_map in Hr as (es & ws & -> & Hw & ->). exists es, ws. split; [exists ys; auto | auto].
        + intros (es & ws & (ys & Hl & ->) & Hw & ->). exists (map entry es), ys, (map_of k ws []). split; [apply run_map; exists es, ws; auto | auto].
    Qed.

    (** Tuples *)
    Lemma X_open t l v : X None t l v -> exists x r, l = x :: r /\ x <> XP 41.
    Proof. intro H. destruct (shape_open l (Hsh _ _ _ _ H)) as (x & r & -> & N1 & _). eauto. Qed.
    Lemma acc_item t : both n (fun j => de_item L Ron (DE j) t) (one_rel 41 (X None) t).
    Proof.
      eapply both_weak.
      - apply (both_bind F Ron n (fun j => DE j t) (fun j v => pbind (eat_tcomma L Ron) (fun _ => pret v)) _ (fun v => r_bind (r_comma F Ron KParenClose) (fun _ => r_ret v)) (HX t)). intro v.
        apply (both_bind F Ron n (fun j => eat_tcomma L Ron) (fun _ _ => pret v)); [apply both_comma; [split; [reflexivity | discriminate] | discriminate]|]. intros _. apply both_ret.
      - intros nx xs v. refine (item_rel_iff F 41 KParenClose (kd_rpar F) _ (fun (_ : val) nx xs v => X (hword nx) t xs v) (fun _ l v => X None t l v) _ v nx xs v); [discriminate|].
        intros a nx' l a' ->. reflexivity.
    Qed.
    Lemma acc_block t : both n (fun j => comma_block L Ron (DE j) t) (one_rel 41 (X None) t).
    Proof.
      apply (both_ok_ext n (fun j => de_item L Ron (DE j) t)); [|apply acc_item]. intros j u u' v. unfold de_item, comma_block, pbind.
      destruct (DE j t u) as [u1 [w|e|p|]]; try (split; discriminate).
      - destruct (eat_tcomma L Ron u1) as [u2 [[]|e|p|]]; try (split; discriminate). unfold pret. tauto.
      - destruct (eat_tcomma L Ron u1) as [u2 [[]|e2|p|]]; split; discriminate.
    Qed.
    Lemma each_tuple ts ls vs : each_item (X None) ts ls vs <-> tuple_means (X None) ts ls vs.
    Proof. split; induction 1; constructor; assumption. Qed.
    Lemma acc_fixed (p : nat -> ty -> @pm tst val) ts : (forall t, In t ts -> both n (fun j => p j t) (one_rel 41 (X None) t)) ->
      both n (fun j => de_bracketed L Ron (map (p j) ts)) (fun _ xs vs => exists ls, round_toks ls xs /\ tuple_means (X None) ts ls vs).
    Proof.
      intro Hp. eapply both_weak.
      - apply (both_fixed 40 41 KParenOpen KParenClose (kd_lpar F) (kd_rpar F)) with (J := X None) (p := p) (ts := ts); [split; [reflexivity | discriminate] | split; [reflexivity | discriminate] | exact X_open | exact Hp].
      - intros nx xs vs. split.
        + intros (ls & ys & He & Hl & ->). apply each_tuple in He. exists ls. split; [exists ys; auto | exact He].
        + intros (ls & (ys & Hl & ->) & He). apply each_tuple in He. exists ls, ys. auto.
    Qed.
    Lemma rep_tuple t m : forall ls ws, tuple_means (X None) (repeat t m) ls ws <-> length ls = m /\ Forall2 (X None t) ls ws.
    Proof.
      induction m as [|m IH]; intros ls ws; cbn [repeat].
      - split; [intro H; inversion H; subst; split; [reflexivity | constructor]|]. intros [H1 H2]. destruct ls; [|discriminate]. inversion H2; subst. constructor.
      - split.
        + intro H. inversion H as [|? l v ? ls' ws' H1 H2]; subst. apply IH in H2 as [H2 H3]. split; [cbn; congruence | constructor; assumption].
        + intros [H1 H2]. destruct ls as [|l ls]; [discriminate|]. inversion H2; subst. constructor; [assumption|]. apply IH. split; [cbn in H1; lia | assumption].
    Qed.
    (** Structs *)
    Definition g_name : @pm tst str := fun u => if tok_is (l_tok L u) KIdent then p_name u else perr L (CannotParse []) u.
    Lemma acc_name : both n (fun _ => g_name) (fun _ xs k => a_name k /\ xs = [XW k; xcolon]).
    Proof.
      split.
      - intros u u' k xs0 b Ha E. unfold g_name in E. destruct (tok_is (l_tok L u) KIdent) eqn:Et; [|discriminate]. destruct (name_inv F _ _ _ _ _ Ha Et E) as (xs & Hw & -> & A1 & G1).
        exists [XW k; xcolon], xs. split; [reflexivity|]. split; [exact A1|]. split; auto.
      - intros nx xs k (Hw & ->). exists O. intros j _ rest b u _ Hg Ha. cbn [app] in Ha. destruct (name_fwd F _ _ _ _ Hw Ha Hg) as (u' & E & A'). exists u'. split; [|exact A'].
        unfold g_name. rewrite (atx_tok F Ron _ _ _ Ha). cbn [head hd_of AccBase.kh]. assert (Hk : kd (XW k) = KIdent) by (apply kd_ident; eauto). rewrite Hk. exact E.
    Qed.
    Lemma acc_field f : both n (fun j => de_field (DE j) f) (fun nx xs v => field_means (X (hword nx)) f xs v).
    Proof.
      unfold de_field, field_means. destruct (f_isopt f && f_hasproxy f); [|apply HX]. apply both_map. apply HX.
    Qed.
    Definition mem_item (fs : list field) (j : nat) (acc : list (option val)) : @pm tst (list (option val)) := fun u =>
      if tok_is (l_tok L u) KIdent then
        match find_field (l_id L u) fs 0 with
        | Some (i, f) => pbind (p_next_colon L) (fun _ => pbind (de_field (DE j) f) (fun v => pret (set_nth i (Some v) acc))) u
        | None => perr L (UnexpectedKey (l_id L u)) u
        end
      else perr L (CannotParse []) u.
    Lemma acc_mem fs acc : both n (fun j => mem_item fs j acc) (r_bind (fun _ xs k => a_name k /\ xs = [XW k; xcolon]) (fun k => match find_field k fs 0 with
        | Some (i, f) => r_map (fun v => set_nth i (Some v) acc) (fun nx xs v => field_means (X (hword nx)) f xs v)
        | None => fun _ _ _ => False end)).
    Proof.
      apply (both_ok_ext n (fun j => pbind g_name (fun k => match find_field k fs 0 with
        | Some (i, f) => pmap (fun v => set_nth i (Some v) acc) (de_field (DE j) f)
        | None => perr L (CannotParse []) end))).
      - intros j u u' a. unfold mem_item, g_name, p_name, pmap, pbind. destruct (tok_is (l_tok L u) KIdent); [|split; discriminate].
        destruct (find_field (l_id L u) fs 0) as [[i f]|] eqn:Ef.
        + destruct (p_next_colon L u) as [u1 [[]|e|p|]]; try (split; discriminate). unfold pret at 1. rewrite Ef. reflexivity.
        + destruct (p_next_colon L u) as [u1 [[]|e|p|]]; try (split; discriminate). unfold pret at 1. rewrite Ef. split; discriminate.
      - apply (both_bind F Ron n (fun _ => g_name) (fun j k => match find_field k fs 0 with
          | Some (i, f) => pmap (fun v => set_nth i (Some v) acc) (de_field (DE j) f)
          | None => perr L (CannotParse []) end)); [apply acc_name|]. intro k. destruct (find_field k fs 0) as [[i f]|].
        + apply both_map. apply acc_field.
        + apply both_never; [discriminate | tauto].
    Qed.
    Lemma uw_pure dflt fs : forall acc u u' vs, unwrap_fields L dflt fs acc u = (u', Ok vs) -> u' = u /\ forall u2, unwrap_fields L dflt fs acc u2 = (u2, Ok vs).
    Proof.
      induction fs as [|f fs IH]; intros acc u u' vs E; [injection E as <- <-; split; reflexivity|]. destruct acc as [|o acc]; [injection E as <- <-; split; reflexivity|].
      cbn [unwrap_fields] in *. unfold pbind in E. rewrite unwrap_uw in E. destruct (uw dflt f o) as [v|] eqn:Eu; [|discriminate].
      destruct (unwrap_fields L dflt fs acc u) as [u1 [r|e|p|]] eqn:E1; try discriminate. injection E as <- <-. destruct (IH _ _ _ _ E1) as [-> H]. split; [reflexivity|]. intro u2.
      unfold pbind. rewrite unwrap_uw, Eu, H. reflexivity.
    Qed.
    Lemma run_length fs acc ls acc' : run (mem_step (X None) fs) acc ls acc' -> length acc' = length acc.
    Proof.
      induction 1 as [|a l a1 ls a2 (k & ys & i & f & v & _ & _ & _ & _ & ->) _ IH]; [reflexivity|]. rewrite IH. apply set_nth_length.
    Qed.
    Lemma len_f2 {A B} : forall (l : list A) (l' : list B), length l = length l' -> Forall2 (fun _ _ => True) l l'.
    Proof. induction l as [|a l IH]; intros [|b l'] H; try discriminate; constructor; [exact I | apply IH; cbn in H; lia]. Qed.
    Definition parens {A} (v : A) : @pm tst A := pbind (expect L KParenOpen (chars "(")) (fun _ => pbind (expect L KParenClose (chars ")")) (fun _ => pret v)).
    Lemma acc_parens {A} (v0 : A) k : both k (fun _ => parens v0) (fun _ xs v => xs = in_round [] /\ v = v0).
    Proof.
      eapply both_weak.
      - apply (both_bind F Ron k (fun _ => expect L KParenOpen (chars "(")) (fun _ _ => pbind (expect L KParenClose (chars ")")) (fun _ => pret v0)) (r_tok F Ron KParenOpen) (fun _ => r_bind (r_tok F Ron KParenClose) (fun _ => r_ret v0)));
          [apply both_expect; split; [reflexivity | discriminate]|]. intros _.
        apply (both_bind F Ron k (fun _ => expect L KParenClose (chars ")")) (fun _ _ => pret v0)); [apply both_expect; split; [reflexivity | discriminate] | intros _; apply both_ret].
      - intros nx xs vs. split.
        + intros (x1 & x2 & [] & -> & H1 & x3 & x4 & [] & -> & H2 & -> & ->). apply (r_tok_op F 40 KParenOpen (kd_lpar F)) in H1. apply (r_tok_cl F 41 KParenClose (kd_rpar F)) in H2. subst. auto.
        + intros [-> ->]. exists [XP 40], [XP 41], tt. split; [reflexivity|]. split; [apply (r_tok_op F 40 KParenOpen (kd_lpar F)); reflexivity|].
          exists [XP 41], [], tt. split; [reflexivity|]. split; [apply (r_tok_cl F 41 KParenClose (kd_rpar F)); reflexivity | split; reflexivity].
    Qed.
    Lemma empty_zero de dflt u u' vs : de_named L Ron de 0 dflt [] u <> (u', Ok vs).
    Proof. unfold de_named, pbind. destruct (expect L (k_sopen Ron) (w_sopen Ron) u) as [u1 [[]|e|p|]]; discriminate. Qed.
    Lemma empty_named de j dflt u u' vs : de_named L Ron de (S j) dflt [] u = (u', Ok vs) <-> parens [] u = (u', Ok vs).
    Proof.
      unfold de_named, parens. unfold pbind at 1 4. change (expect L (k_sopen Ron) (w_sopen Ron) u) with (expect L KParenOpen (chars "(") u). destruct (expect L KParenOpen (chars "(") u) as [u1 [[]|e|p|]]; try tauto.
      unfold pbind at 1. cbn [while_ map]. cbn [k_key]. destruct (tok_is (l_tok L u1) KIdent) eqn:Et.
      - apply tok_is_eq in Et. split; intro E; exfalso.
        + unfold named_body, pbind at 2 in E. cbn [find_field] in E. unfold pbind, eat_scomma, eat_comma in E. rewrite Et in E. discriminate E.
        + unfold pbind, expect in E. rewrite Et in E. discriminate E.
      - reflexivity.
    Qed.
    Lemma empty_object dflt xs vs : (exists ms, robject_toks ms xs /\ fields_means (X None) dflt [] ms vs /\ all_named [] ms) <-> xs = in_round [] /\ vs = [].
    Proof.
      split.
      - intros (ms & (ls & ys & Hm & Hl & ->) & (H1 & _ & H3) & _). rewrite (H3 eq_refl) in Hm. inversion Hm; subst. inversion H1; subst. destruct Hl as [-> |[Q _]]; [auto | congruence].
      - intros [-> ->]. exists []. split; [exists [], []; split; [constructor|]; split; [left; reflexivity | reflexivity]|]. split; [split; [constructor|split; [intros k d f []|reflexivity]] | intros k d []].
    Qed.
    Definition name_next (o : option lexeme) : bool := tok_is (kh o) KIdent.
    Lemma acc_named dflt fs : distinct_fields fs -> both n (fun j => de_named L Ron (DE j) j dflt fs) (fun _ xs vs => exists ms, robject_toks ms xs /\ fields_means (X None) dflt fs ms vs /\ all_named fs ms).
    Proof.
      intro Hu. destruct fs as [|f0 fs0] eqn:Efs.
      - clear Efs. destruct (acc_parens (@nil val) n) as [Bi Bf]. split.
        + intros u u' vs xs0 b Ha E. destruct n as [|k]; [exfalso; exact (empty_zero _ _ _ _ _ E)|]. apply empty_named in E. destruct (Bi _ _ _ _ _ Ha E) as (xs & rest & -> & A1 & G1 & -> & ->).
          exists (in_round []), rest. split; [reflexivity|]. split; [exact A1|]. split; [exact G1|]. apply empty_object. auto.
        + intros nx xs vs H. apply empty_object in H. destruct (Bf nx xs vs H) as [N HN]. exists (S N). intros j Hj rest b u Hn Hg Ha. destruct j as [|j]; [lia|].
          destruct (HN (S j) ltac:(lia) rest b u Hn Hg Ha) as (u' & E & A'). exists u'. split; [|exact A']. apply empty_named. exact E.
      - rewrite <- Efs in *. assert (Hne : fs <> []) by (rewrite Efs; discriminate). clear Efs. eapply both_weak.
        + apply (both_loop 40 41 KParenOpen KParenClose (kd_lpar F) (kd_rpar F)) with (cnd := name_next) (item := mem_item fs)
            (I := fun acc => r_bind (fun _ xs k => a_name k /\ xs = [XW k; xcolon]) (fun k => match find_field k fs 0 with
               | Some (i, f) => r_map (fun v => set_nth i (Some v) acc) (fun nx xs v => field_means (X (hword nx)) f xs v)
               | None => fun _ _ _ => False end))
            (J := mem_step (X None) fs) (fin := fun l => unwrap_fields L dflt fs l) (ok := fun a vs => forall u, unwrap_fields L dflt fs a u = (u, Ok vs)) (w2 := chars ", or )").
          * split; [reflexivity | discriminate].
          * split; [reflexivity | discriminate].
          * discriminate.
          * intros u xs b Ha. unfold k_key. rewrite (atx_tok F Ron _ _ _ Ha). reflexivity.
          * intros j acc u Hc. unfold k_key in Hc. unfold named_body. apply pbind_ext; [|reflexivity]. unfold mem_item, key_of. rewrite Hc.
            destruct (find_field (l_id L u) fs 0) as [[i f]|]; [reflexivity|]. destruct fs as [|f1 fs1]; [congruence | reflexivity].
          * intro acc. apply acc_mem.
          * intros acc nx l acc' Hn. split.
            -- intros (x1 & x2 & k & -> & (Hw & ->) & H). destruct (find_field k fs 0) as [[i f]|] eqn:Ef; [|contradiction].
               destruct H as (v & -> & H). rewrite Hn in H. exists k, x2, i, f, v. auto.
            -- intros (k & ys & i & f & v & Hw & -> & Ef & H & ->). exists [XW k; xcolon], ys, k. split; [reflexivity|]. split; [auto|]. rewrite Ef. exists v. rewrite Hn. auto.
          * intros acc l acc' (k & ys & i & f & v & Hw & -> & _). eexists. eexists. split; [reflexivity|]. unfold name_next. cbn [AccBase.kh]. assert (Hk : kd (XW k) = KIdent) by (apply kd_ident; eauto). rewrite Hk. reflexivity.
          * reflexivity.
          * intros a u u' v E. destruct (uw_pure dflt fs a u u' v E) as [-> H]. auto.
          * intros a u v H. apply H.
        + intros nx xs vs. split.
          * intros (ls & ys & acc & Hr & Hl & -> & Ho). pose proof (run_length _ _ _ _ Hr) as Hlen. rewrite map_length in Hlen.
            destruct (proj1 (fields_iff (X None) dflt fs Hu ls vs Hne)) as (ms & Hm & H1 & H2).
            { exists acc. split; [exact Hr|]. split; [exact Hlen|]. eapply unwrap_inv; [apply len_f2; symmetry; exact Hlen | apply (Ho (st0 [] false))]. }
            exists ms. split; [exists ls, ys; auto | auto].
          * intros (ms & (ls & ys & Hm & Hl & ->) & H1 & H2). destruct (proj2 (fields_iff (X None) dflt fs Hu ls vs Hne)) as (acc & Hr & Hlen & Hd); [exists ms; auto|].
            exists ls, ys, acc. split; [exact Hr|]. split; [exact Hl|]. split; [reflexivity|]. intro u. apply unwrap_all; [apply len_f2; symmetry; exact Hlen | exact Hd].
    Qed.

    (** Enums *)
    Definition fv (vs : list variant) (k : str) := find_variant (fun v => str_eqb (variant_key Ron v) k) vs 0.
    Lemma enum_split vs j u : de_enum_ron L Ron (DE j) j vs u =
      pbind p_key (fun k => match fv vs k with Some (i, v) => de_body L Ron (DE j) j i (v_body v) | None => perr L (NoSuchEnum k) end) u.
    Proof.
      unfold de_enum_ron, p_key, pbind. destruct (expect L KIdent (chars "Identifier") u) as [u1 [[]|e|p|]]; try reflexivity.
      fold (fv vs (l_id L u1)). destruct (fv vs (l_id L u1)) as [[i v]|]; reflexivity.
    Qed.
    Definition body_rel (i : N) (b : vbody) : rel val := fun _ ys v =>
      match b with
      | BUnit => ys = [] /\ v = VEnum i []
      | BTuple ts => exists ws, v = VEnum i ws /\ exists ls, round_toks ls ys /\ tuple_means (X None) ts ls ws
      | BStruct fs => exists ws, v = VEnum i ws /\ exists ms, robject_toks ms ys /\ fields_means (X None) false fs ms ws /\ all_named fs ms
      end.
    Lemma acc_body i b : match b with BStruct fs => distinct_fields fs | _ => True end -> both n (fun j => de_body L Ron (DE j) j i b) (body_rel i b).
    Proof.
      intro Hd. destruct b as [|ts|fs]; cbn [de_body].
      - apply both_ret.
      - apply (both_map F Ron n (VEnum i) (fun j => de_bracketed L Ron (map (de_item L Ron (DE j)) ts))). apply (acc_fixed (fun j => de_item L Ron (DE j))). intros t _. apply acc_item.
      - apply (both_map F Ron n (VEnum i) (fun j => de_named L Ron (DE j) j false fs)). apply acc_named. exact Hd.
    Qed.
    Lemma body_open i b nx ys v : b <> BUnit -> body_rel i b nx ys v -> exists r, ys = XP 40 :: r.
    Proof.
      intros Hb H. destruct b as [|ts|fs]; [congruence| |].
      - destruct H as (ws & _ & ls & (zs & _ & ->) & _). exists (zs ++ [XP 41]). reflexivity.
      - destruct H as (ws & _ & ms & (ls & zs & _ & _ & ->) & _). exists (zs ++ [XP 41]). reflexivity.
    Qed.
    Definition enum_rel (vs : list variant) : rel val := fun nx xs v => exists k w i vr ys, a_name w /\ fv vs k = Some (i, vr) /\ xs = XW w :: ys /\ body_rel i (v_body vr) None ys v /\
      k = match v_body vr, hword nx with BUnit, Some w' => w' | _, _ => w end.
    Lemma acc_enum vs : Forall (fun v => match v_body v with BStruct fs => distinct_fields fs | _ => True end) vs -> both n (fun j => de_enum_ron L Ron (DE j) j vs) (enum_rel vs).
    Proof.
      intro Hd. apply (both_ext F Ron n (fun j => pbind p_key (fun k => match fv vs k with Some (i, v) => de_body L Ron (DE j) j i (v_body v) | None => perr L (NoSuchEnum k) end))); [intros j u; symmetry; apply enum_split|].
      eapply both_weak.
      - apply (both_bind F Ron n (fun _ => p_key) (fun j k => match fv vs k with Some (i, v) => de_body L Ron (DE j) j i (v_body v) | None => perr L (NoSuchEnum k) end) key_rel
          (fun k => match fv vs k with Some (i, v) => body_rel i (v_body v) | None => fun _ _ _ => False end)); [apply acc_key|]. intro k. destruct (fv vs k) as [[i vr]|] eqn:Ef; [|apply both_never; [discriminate | tauto]].
        apply acc_body. apply find_variant_some in Ef as (tag & _ & Hn & _). rewrite Forall_forall in Hd. apply Hd. eapply nth_error_In; exact Hn.
      - intros nx xs v. split.
        + intros (x1 & x2 & k & -> & (w & Hw & -> & Hk) & H2). destruct (fv vs k) as [[i vr]|] eqn:Ef; [|contradiction]. exists k, w, i, vr, x2. split; [exact Hw|]. split; [exact Ef|]. split; [reflexivity|]. split; [exact H2|].
          rewrite Hk. destruct (v_body vr) as [|ts|fs] eqn:Eb.
          * destruct H2 as [-> _]. reflexivity.
          * destruct (body_open i (BTuple ts) nx x2 v ltac:(discriminate) H2) as [r ->]. reflexivity.
          * destruct (body_open i (BStruct fs) nx x2 v ltac:(discriminate) H2) as [r ->]. reflexivity.
        + intros (k & w & i & vr & ys & Hw & Ef & -> & H2 & Hk). exists [XW w], ys, k. split; [reflexivity|]. split; [|rewrite Ef; exact H2]. exists w. split; [exact Hw|]. split; [reflexivity|].
          rewrite Hk. destruct (v_body vr) as [|ts|fs] eqn:Eb.
          * destruct H2 as [-> _]. reflexivity.
          * destruct (body_open i (BTuple ts) nx ys v ltac:(discriminate) H2) as [r ->]. reflexivity.
          * destruct (body_open i (BStruct fs) nx ys v ltac:(discriminate) H2) as [r ->]. reflexivity.
    Qed.
  End Step.

  (** *** The whole *)
  Lemma rtakes_shape : forall n nx t xs v, rtakes F c G n nx t xs v -> shape xs.
  Proof.
    assert (Sc : forall x r xs, xs = x :: r -> x <> XP 93 -> x <> XP 125 -> x <> XP 41 -> shape xs) by (intros x r xs -> H1 H2 H3; exists x, r; auto).
    assert (Sw : forall w xs, xs = [XW w] -> shape xs) by (intros w xs H; eapply Sc; [exact H | discriminate | discriminate | discriminate]).
    assert (Sn : forall w xs, xs = [XN w] -> shape xs) by (intros w xs H; eapply Sc; [exact H | discriminate | discriminate | discriminate]).
    assert (Sq : forall ys, shape (in_square ys)) by (intro ys; eapply Sc; [reflexivity | discriminate | discriminate | discriminate]).
    assert (Cu : forall ys, shape (in_curly ys)) by (intro ys; eapply Sc; [reflexivity | discriminate | discriminate | discriminate]).
    assert (Ro : forall ys, shape (in_round ys)) by (intro ys; eapply Sc; [reflexivity | discriminate | discriminate | discriminate]).
    assert (Ar : forall ls xs, array_toks ls xs -> shape xs) by (intros ls xs (ys & _ & ->); apply Sq).
    assert (Rr : forall ls xs, round_toks ls xs -> shape xs) by (intros ls xs (ys & _ & ->); apply Ro).
    assert (Ob : forall ms xs, robject_toks ms xs -> shape xs) by (intros ms xs (ls & ys & _ & _ & ->); apply Ro).
    induction n as [|n IH]; intros nx t xs v H; [contradiction|]. cbn [rtakes] in H. destruct t as [k| | | | | |t'|k t'|k tk tv|m t'|ts|t'| | |p t'|i].
    - destruct H as (s & z & H & _). eapply Sn; exact H.
    - destruct H as (s & z & H & _). eapply Sn; exact H.
    - destruct H as (s & z & H & _). eapply Sn; exact H.
    - destruct H as [[H _]|[[H _]|(s & m & H & _)]]; [eapply Sw; exact H | eapply Sw; exact H | eapply Sn; exact H].
    - destruct H as (s & z & H & _). eapply Sc; [exact H | discriminate | discriminate | discriminate].
    - destruct H as [-> _]. apply Ro.
    - destruct H as [[H _]|(_ & w & _ & H)]; [eapply Sw; exact H | exact (IH _ _ _ _ H)].
    - destruct H as (ls & ws & H & _). exact (Ar _ _ H).
    - destruct H as (es & ws & (ys & _ & ->) & _). apply Cu.
    - destruct H as (ls & ws & H & _). exact (Rr _ _ H).
    - destruct H as (_ & ls & ws & H & _). exact (Rr _ _ H).
    - exact (IH _ _ _ _ H).
    - destruct H as (s & ns & H & _). exact (dur_shape _ _ _ H).
    - destruct H as [[H _]|(s & ns & H & _)]; [eapply Sw; exact H | exact (dur_shape _ _ _ H)].
    - contradiction.
    - destruct (nth_error G i) as [[dflt cn fs|tr fs|vs|p t']|]; [| | |contradiction|contradiction].
      + destruct H as (ms & vs & H & _). exact (Ob _ _ H).
      + destruct H as (_ & _ & ls & ws & H & _). exact (Rr _ _ H).
      + destruct H as (tag & vr & _ & H). destruct (v_body vr).
        * destruct H as (w & _ & H & _). eapply Sw; exact H.
        * destruct H as (ls & ws & ys & _ & H & _). eapply Sc; [exact H | discriminate | discriminate | discriminate].
        * destruct H as (ms & ws & ys & _ & H & _). eapply Sc; [exact H | discriminate | discriminate | discriminate].
  Qed.

  Hypothesis HG : Forall SpecRon.distinct_ron G.
  Lemma fv_iff vs k i vr : NoDup (map (key_of_variant Ron) vs) ->
    (fv vs k = Some (i, vr) <-> exists tag, i = N.of_nat tag /\ nth_error vs tag = Some vr /\ key_of_variant Ron vr = k).
  Proof.
    intro Hn. split.
    - intro H. apply find_variant_some in H as (tag & -> & Hi & Hp). apply str_eqb_eq in Hp. exists tag. split; [lia|]. auto.
    - intros (tag & -> & Hi & Hk). unfold fv. replace (N.of_nat tag) with (0 + N.of_nat tag) by lia. apply (find_variant_nodup Ron); [exact Hn | exact Hi | | ].
      + apply str_eqb_eq. exact Hk.
      + intros v Hv. apply str_eqb_eq in Hv. rewrite Hk, <- Hv. reflexivity.
  Qed.
  Theorem acc_all : forall n t, both n (fun j => DE j t) (fun nx xs v => rtakes F c G n (hword nx) t xs v).
  Proof.
    induction n as [|n IH]; intro t.
    - split; [intros u u' a xs0 b _ E; discriminate E | intros nx xs a []].
    - apply both_shift. pose proof (fun nx t xs v => rtakes_shape n nx t xs v) as Sh. cbn [rtakes]. set (X := rtakes F c G n) in *. fold X in IH.
      destruct t as [k| | | | | |t'|k t'|k tk tv|m t'|ts|t'| | |p t'|i].
      + apply acc_int.
      + eapply both_weak; [apply (both_map F Ron n (fun b => VF (f32_of_f64 F b)) (fun _ => de_f64 L F)); apply acc_f64|]. intros nx xs v. split; [intros (b & -> & s & -> & H); eauto | intros (s & b & -> & -> & H); exists b; eauto].
      + eapply both_weak; [apply (both_map F Ron n VF (fun _ => de_f64 L F)); apply acc_f64|]. intros nx xs v. split; [intros (b & -> & s & -> & H); eauto | intros (s & b & -> & -> & H); exists b; eauto].
      + apply acc_bool.
      + eapply both_weak; [apply (both_map F Ron n VStr (fun _ => de_str L)); apply acc_str|]. intros nx xs v. split; [intros (s & -> & b & ->); eauto | intros (b & s & -> & ->); exists s; eauto].
      + apply (both_ext F Ron n (fun _ => parens VUnit)); [intros j u; reflexivity|]. apply acc_parens.
      + apply (acc_opt n (fun j => DE j t') (fun nx xs v => X (hword nx) t' xs v)); [apply IH | intros nx xs v; apply Sh].
      + eapply both_weak; [apply (both_map F Ron n VSeq (fun j => de_seq L (DE j) j k t')); apply (acc_seq n X IH Sh)|]. intros nx xs v. split; [intros (l & -> & ls & ws & H1 & H2 & ->); eauto | intros (ls & ws & H1 & H2 & ->); eexists; split; [reflexivity | eauto]].
      + eapply both_weak; [apply (both_map F Ron n VMap (fun j => de_map L (DE j) j k tk tv)); apply (acc_map n X IH Sh)|]. intros nx xs v. split; [intros (l & -> & ls & ws & H1 & H2 & ->); eauto | intros (ls & ws & H1 & H2 & ->); eexists; split; [reflexivity | eauto]].
      + assert (E : forall j, repeat (de_item L Ron (DE j) t') m = map (de_item L Ron (DE j)) (repeat t' m)) by (intro j; clear; induction m; cbn; congruence).
        apply (both_ext F Ron n (fun j => pmap VSeq (de_bracketed L Ron (map (de_item L Ron (DE j)) (repeat t' m))))); [intros j u; cbn [de_text]; rewrite E; reflexivity|].
        eapply both_weak; [apply (both_map F Ron n VSeq); apply (acc_fixed n X Sh (fun j => de_item L Ron (DE j))); intros t _; apply acc_item; exact IH|].
        intros nx xs v. split.
        * intros (ws & -> & ls & H1 & H2). apply (rep_tuple n X IH Sh) in H2 as [H2 H3]. exists ls, ws. auto.
        * intros (ls & ws & H1 & H2 & H3 & ->). exists ws. split; [reflexivity|]. exists ls. split; [exact H1|]. apply (rep_tuple n X IH Sh). auto.
      + destruct (tuple_arity (length ts)) eqn:Ea.
        * apply (both_ext F Ron n (fun j => pmap VSeq (de_bracketed L Ron (map (comma_block L Ron (DE j)) ts)))); [intros j u; cbn [de_text]; rewrite Ea; reflexivity|].
          eapply both_weak; [apply (both_map F Ron n VSeq); apply (acc_fixed n X Sh (fun j => comma_block L Ron (DE j))); intros t _; apply acc_block; exact IH|].
          assert (Hl : (2 <= length ts <= 4)%nat) by (unfold tuple_arity in Ea; apply andb_prop in Ea as [E1 E2]; apply Nat.leb_le in E1, E2; lia).
          intros nx xs v. split; [intros (ws & -> & ls & H1 & H2); split; [exact Hl|]; exists ls, ws; auto | intros (_ & ls & ws & H1 & H2 & ->); exists ws; split; [reflexivity|]; exists ls; auto].
        * apply both_never; [intros j u u' a; cbn [de_text]; rewrite Ea; discriminate|]. intros nx xs v [Hl _]. unfold tuple_arity in Ea. apply andb_false_iff in Ea. destruct Ea as [Ea|Ea]; apply Nat.leb_gt in Ea; lia.
      + apply IH.
      + apply acc_dur.
      + apply acc_time.
      + apply both_never; [intros j u u' a; discriminate | tauto].
      + destruct (nth_error G i) as [d|] eqn:Ei; [|apply both_never; [intros j u u' a; cbn [de_text]; rewrite Ei; discriminate | tauto]].
        assert (Hd : SpecRon.distinct_ron d) by (rewrite Forall_forall in HG; apply HG; eapply nth_error_In; exact Ei).
        destruct d as [dflt cn fs|tr fs|vs|p t'].
        * apply (both_ext F Ron n (fun j => pmap VSeq (de_named L Ron (DE j) j dflt fs))); [intros j u; cbn [de_text]; rewrite Ei; reflexivity|].
          eapply both_weak; [apply (both_map F Ron n VSeq); apply (acc_named n X IH); exact Hd|]. intros nx xs v. split; [intros (ws & -> & ms & H1 & H2 & H3); exists ms, ws; auto | intros (ms & ws & H1 & -> & H2 & H3); exists ws; split; [reflexivity|]; exists ms; auto].
        * destruct (existsb f_hasproxy fs) eqn:Ep; [apply both_never; [intros j u u' a; cbn [de_text]; rewrite Ei, Ep; discriminate | intros nx xs v [Q _]; discriminate]|].
          destruct fs as [|f fs]; [apply both_never; [intros j u u' a; cbn [de_text]; rewrite Ei; discriminate | intros nx xs v (_ & Q & _); congruence]|].
          apply (both_ext F Ron n (fun j => pmap VSeq (de_bracketed L Ron (map (de_item L Ron (DE j)) (map f_ty (f :: fs)))))); [intros j u; cbn [de_text]; rewrite Ei, Ep; rewrite map_map; reflexivity|].
          eapply both_weak; [apply (both_map F Ron n VSeq); apply (acc_fixed n X Sh (fun j => de_item L Ron (DE j))); intros t _; apply acc_item; exact IH|].
          intros nx xs v. split.
          -- intros (ws & -> & ls & H1 & H2). split; [reflexivity|]. split; [discriminate|]. exists ls, ws. auto.
          -- intros (_ & _ & ls & ws & H1 & H2 & ->). exists ws. split; [reflexivity|]. exists ls. auto.
        * destruct Hd as [Hn Hb]. apply (both_ext F Ron n (fun j => de_enum_ron L Ron (DE j) j vs)); [intros j u; cbn [de_text]; rewrite Ei; reflexivity|].
          eapply both_weak; [apply (acc_enum n X IH Sh vs Hb)|]. intros nx xs v. split.
          -- intros (k & w & j & vr & ys & Hw & Ef & -> & H & Hk). apply fv_iff in Ef as (tag & -> & Ht & Hk2); [|exact Hn]. exists tag, vr. split; [exact Ht|]. unfold body_rel in H. destruct (v_body vr) as [|ts|fs].
             ++ destruct H as [-> ->]. exists w. split; [exact Hw|]. split; [reflexivity|]. split; [reflexivity|]. rewrite Hk2. exact Hk.
             ++ destruct H as (ws & -> & ls & H1 & H2). assert (Ew : key_of_variant Ron vr = w) by congruence. rewrite Ew. exists ls, ws, ys. auto.
             ++ destruct H as (ws & -> & ms & H1 & H2 & H3). assert (Ew : key_of_variant Ron vr = w) by congruence. rewrite Ew. exists ms, ws, ys. auto 8.
          -- intros (tag & vr & Ht & H). destruct (v_body vr) as [|ts|fs] eqn:Eb.
             ++ destruct H as (w & Hw & -> & -> & Hk). exists (key_of_variant Ron vr), w, (N.of_nat tag), vr, []. split; [exact Hw|]. split; [apply fv_iff; [exact Hn|]; exists tag; auto|]. split; [reflexivity|]. rewrite Eb. split; [split; reflexivity | exact Hk].
             ++ destruct H as (ls & ws & ys & Hw & -> & H1 & H2 & ->). exists (key_of_variant Ron vr), (key_of_variant Ron vr), (N.of_nat tag), vr, ys. split; [exact Hw|]. split; [apply fv_iff; [exact Hn|]; exists tag; auto|]. split; [reflexivity|]. rewrite Eb. split; [|reflexivity]. exists ws. split; [reflexivity|]. exists ls. auto.
             ++ destruct H as (ms & ws & ys & Hw & -> & H1 & H2 & H3 & ->). exists (key_of_variant Ron vr), (key_of_variant Ron vr), (N.of_nat tag), vr, ys. split; [exact Hw|]. split; [apply fv_iff; [exact Hn|]; exists tag; auto|]. split; [reflexivity|]. rewrite Eb. split; [|reflexivity]. exists ws. split; [reflexivity|]. exists ms. auto.
        * apply both_never; [intros j u u' a; cbn [de_text]; rewrite Ei; discriminate | tauto].
  Qed.
End De.
