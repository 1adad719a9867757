(** What the readers take, exactly: for each reader the sequences of tokens it uses up
    and the value it gives, in both directions; the building blocks. *)
From Verif Require Import Base Utf8 Types BinModel Text TextModel TextSim TextToks TextLex TextRead SpecText SpecGram TextFuel TextLocal TextRun TextEmbed TextObj SpecTok TokLex.
Local Open Scope N_scope.

Definition hd_of (xs : list lexeme) (nx : option lexeme) : option lexeme := match xs with [] => nx | x :: _ => Some x end.
Definition head (xs : list lexeme) : option lexeme := hd_of xs None.
Definition hstr (o : option lexeme) : option str := match o with Some (XS _ s) => Some s | _ => None end.
Lemma hd_app xs ys nx : hd_of (xs ++ ys) nx = hd_of xs (hd_of ys nx).
Proof. destruct xs; reflexivity. Qed.
Lemma head_app xs ys : head (xs ++ ys) = hd_of xs (head ys).
Proof. apply hd_app. Qed.
Definition goes (xs : list lexeme) (b : bool) : Prop := xs <> [] \/ b = false.
Lemma goes_app xs ys b : goes ys b -> goes (xs ++ ys) b.
Proof. intro H. destruct xs; [exact H | left; discriminate]. Qed.

(** Relations: following token, tokens used up, value. *)
Definition rel (A : Type) := option lexeme -> list lexeme -> A -> Prop.

Section Acc.
  Variables (F : flt) (fm : fmt).
  Notation L := tok_lexer.
  Definition good (x : lexeme) : Prop := exists r, token_before fm F x r.
  Notation tof := (tok_of F fm).
  Definition atx (u : tst) (xs : list lexeme) (b : bool) : Prop := at2 fm u (map tof xs) b /\ Forall good xs.
  (** The kind of the token [x], and of the one at the head. *)
  Definition kd (x : lexeme) : tok := ltok_kind (tof x).
  Definition kh (o : option lexeme) : tok := match o with Some x => kd x | None => KEof end.
  Lemma atx_tok u xs b : atx u xs b -> l_tok L u = kh (head xs).
  Proof.
    intros [H _]. destruct xs as [|x xs]; [exact (tok_nil fm _ _ H)|]. exact (at2_tok fm _ _ _ _ H).
  Qed.
  Lemma goes_go xs b : goes xs b <-> go_on (map tof xs) b.
  Proof. unfold goes, go_on. destruct xs; cbn [map]; intuition congruence. Qed.

  (** Advancing. *)
  Lemma next_inv u u' a x xs b : atx u (x :: xs) b -> l_next L u = (u', Ok a) -> atx u' xs b /\ goes xs b.
  Proof.
    intros [[(T1 & T2 & T3) Hr] Hg] E. cbn [l_next tok_lexer] in E. cbn [map] in *.
    pose proof (TextLocal.tok_next_ok _ _ _ _ _ _ T1 T2 E) as Hgo.
    destruct (next_raw u _ _ b T1 T2 Hgo) as (u1 & E1 & A1 & _). rewrite E in E1. injection E1 as <- _.
    split; [|apply goes_go; exact Hgo]. split; [|inversion Hg; assumption]. split; [exact A1 | apply real_cons in Hr; tauto].
  Qed.
  Lemma next_fwd u x xs b : atx u (x :: xs) b -> goes xs b -> exists u', l_next L u = (u', Ok tt) /\ atx u' xs b /\ (hstr (head xs) = None -> t_sb u' = t_sb u).
  Proof.
    intros [[(T1 & T2 & T3) Hr] Hg] Hgo. apply goes_go in Hgo. cbn [map] in *.
    destruct (next_raw u _ _ b T1 T2 Hgo) as (u1 & E1 & A1 & S1 & _). exists u1. cbn [l_next tok_lexer]. split; [exact E1|].
    split; [split; [split; [exact A1 | apply real_cons in Hr; tauto]|inversion Hg; assumption]|].
    intro Hs. destruct xs as [|y xs]; [exact S1|]. cbn [map] in S1. destruct y as [p|w|s|q s]; cbn [head hd_of hstr] in Hs; try discriminate.
    - cbn [tok_of] in S1. destruct (punct fm p); exact S1.
    - cbn [tok_of] in S1. unfold id_tok in S1. destruct (str_eqb w _); [exact S1|]. destruct (str_eqb w _); [exact S1|].
      clear -S1. destruct fm; [destruct (str_eqb w _); exact S1 | exact S1].
    - cbn [tok_of] in S1. destruct (scan_num s) as [[b0 r0] f0]. destruct (num_tok F b0 f0); exact S1.
  Qed.

  (** *** The two directions *)
  Definition inv {A} (m : @pm tst A) (P : rel A) : Prop := forall u u' a xs0 b, atx u xs0 b -> m u = (u', Ok a) ->
    exists xs rest, xs0 = xs ++ rest /\ atx u' rest b /\ (xs <> [] -> goes rest b) /\ P (head rest) xs a.
  Definition fwd {A} (m : nat -> @pm tst A) (P : rel A) : Prop := forall nx xs a, P nx xs a ->
    exists N, forall n, (N <= n)%nat -> forall rest b u, head rest = nx -> goes rest b -> atx u (xs ++ rest) b ->
      exists u', m n u = (u', Ok a) /\ atx u' rest b.
  Definition both {A} (n : nat) (m : nat -> @pm tst A) (P : rel A) : Prop := inv (m n) P /\ fwd m P.

  Lemma both_weak {A} n (m : nat -> @pm tst A) (P Q : rel A) : both n m P -> (forall nx xs a, P nx xs a <-> Q nx xs a) -> both n m Q.
  Proof.
    intros [Hi Hf] H. split.
    - intros u u' a xs0 b Ha E. destruct (Hi u u' a xs0 b Ha E) as (xs & rest & H1 & H2 & H3 & H4). exists xs, rest.
      do 3 (split; [assumption|]). apply H; exact H4.
    - intros nx xs a HQ. apply H in HQ. exact (Hf nx xs a HQ).
  Qed.
  Lemma both_ext {A} n (m m' : nat -> @pm tst A) P : (forall j u, m j u = m' j u) -> both n m P -> both n m' P.
  Proof.
    intros H [Hi Hf]. split.
    - intros u u' a xs0 b Ha E. rewrite <- H in E. exact (Hi u u' a xs0 b Ha E).
    - intros nx xs a HP. destruct (Hf nx xs a HP) as [N HN]. exists N. intros j Hj rest b u. rewrite <- H. apply HN; exact Hj.
  Qed.
  Lemma both_shift {A} n (m : nat -> @pm tst A) P : both n (fun j => m (S j)) P -> both (S n) m P.
  Proof.
    intros [Hi Hf]. split; [exact Hi|]. intros nx xs a HP. destruct (Hf nx xs a HP) as [N HN]. exists (S N).
    intros j Hj. destruct j as [|j]; [lia|]. apply HN. lia.
  Qed.
  Lemma both_never {A} n (m : nat -> @pm tst A) P : (forall j u u' a, m j u <> (u', Ok a)) -> (forall nx xs a, ~ P nx xs a) -> both n m P.
  Proof. intros H1 H2. split; [intros u u' a xs0 b _ E; exfalso; exact (H1 _ _ _ _ E) | intros nx xs a HP; exfalso; exact (H2 _ _ _ HP)]. Qed.

  Definition r_ret {A} (a : A) : rel A := fun _ xs v => xs = [] /\ v = a.
  Lemma both_ret {A} n (a : A) : both n (fun _ => pret a) (r_ret a).
  Proof.
    split.
    - intros u u' v xs0 b Ha E. unfold pret in E. injection E as <- <-. exists [], xs0. split; [reflexivity|]. split; [exact Ha|]. split; [congruence|]. split; reflexivity.
    - intros nx xs v [-> ->]. exists O. intros j _ rest b u _ _ Ha. exists u. split; [reflexivity | exact Ha].
  Qed.
  Definition r_bind {A B} (P : rel A) (Q : A -> rel B) : rel B := fun nx xs v =>
    exists xs1 xs2 a, xs = xs1 ++ xs2 /\ P (hd_of xs2 nx) xs1 a /\ Q a nx xs2 v.
  Lemma both_bind {A B} n (m : nat -> @pm tst A) (f : nat -> A -> @pm tst B) P Q : both n m P -> (forall a, both n (fun j => f j a) (Q a)) ->
    both n (fun j => pbind (m j) (f j)) (r_bind P Q).
  Proof.
    intros [Mi Mf] Hf. split.
    - intros u u' v xs0 b Ha E. unfold pbind in E. destruct (m n u) as [u1 [a|e|p|]] eqn:Em; try discriminate.
      destruct (Mi _ _ _ _ _ Ha Em) as (xs1 & r1 & -> & A1 & G1 & H1). destruct (proj1 (Hf a) _ _ _ _ _ A1 E) as (xs2 & r2 & -> & A2 & G2 & H2).
      exists (xs1 ++ xs2), r2. split; [rewrite app_assoc; reflexivity|]. split; [exact A2|]. split.
      + intro Hne. destruct xs2 as [|y xs2]; [|apply G2; discriminate]. rewrite app_nil_r in Hne. exact (G1 Hne).
      + exists xs1, xs2, a. split; [reflexivity|]. rewrite <- head_app. auto.
    - intros nx xs v (xs1 & xs2 & a & -> & HP & HQ). destruct (Mf _ _ _ HP) as [N1 H1]. destruct (proj2 (Hf a) _ _ _ HQ) as [N2 H2].
      exists (Nat.max N1 N2). intros j Hj rest b u Hn Hg Ha. rewrite <- app_assoc in Ha.
      destruct (H1 j ltac:(lia) (xs2 ++ rest) b u) as (u1 & E1 & A1); [rewrite head_app, Hn; reflexivity | apply goes_app; exact Hg | exact Ha|].
      destruct (H2 j ltac:(lia) rest b u1 Hn Hg A1) as (u2 & E2 & A2). exists u2. unfold pbind. rewrite E1. auto.
  Qed.
  Definition r_map {A B} (g : A -> B) (P : rel A) : rel B := fun nx xs v => exists a, v = g a /\ P nx xs a.
  Lemma both_map {A B} n (g : A -> B) (m : nat -> @pm tst A) P : both n m P -> both n (fun j => pmap g (m j)) (r_map g P).
  Proof.
    intro H. eapply both_weak; [apply (both_bind n m (fun _ a => pret (g a)) P (fun a => r_ret (g a))); [exact H | intro; apply both_ret]|].
    intros nx xs v. split.
    - intros (xs1 & xs2 & a & -> & H1 & -> & ->). rewrite app_nil_r. exists a. auto.
    - intros (a & -> & H1). exists xs, [], a. rewrite app_nil_r. split; [reflexivity|]. split; [exact H1 | split; reflexivity].
  Qed.
  (** A step that uses nothing up. *)
  Definition r_pure {A B} (P : rel A) (ok : A -> B -> Prop) : rel B := fun nx xs v => exists a, P nx xs a /\ ok a v.
  Lemma both_pure {A B} n (m : nat -> @pm tst A) (f : A -> @pm tst B) P (ok : A -> B -> Prop) : both n m P ->
    (forall a u u' v, f a u = (u', Ok v) -> u' = u /\ ok a v) -> (forall a u v, ok a v -> f a u = (u, Ok v)) ->
    both n (fun j => pbind (m j) f) (r_pure P ok).
  Proof.
    intros H H1 H2. eapply both_weak; [apply (both_bind n m (fun _ => f) P (fun a _ xs v => xs = [] /\ ok a v)); [exact H|]|].
    - intro a. split.
      + intros u u' v xs0 b Ha E. destruct (H1 _ _ _ _ E) as [-> Ho]. exists [], xs0. split; [reflexivity|]. split; [exact Ha|]. split; [congruence|]. auto.
      + intros nx xs v [-> Ho]. exists O. intros j _ rest b u _ _ Ha. exists u. split; [apply H2; exact Ho | exact Ha].
    - intros nx xs v. split.
      + intros (xs1 & xs2 & a & -> & HP & -> & Ho). rewrite app_nil_r. exists a. auto.
      + intros (a & HP & Ho). exists xs, [], a. rewrite app_nil_r. auto.
  Qed.

  (** *** One token *)
  Lemma both_tok {A} n (m : @pm tst A) (ok : lexeme -> A -> Prop) :
    (forall u x xs b u' a, atx u (x :: xs) b -> m u = (u', Ok a) -> goes xs b /\ atx u' xs b /\ ok x a) ->
    (forall u b u' a, atx u [] b -> m u <> (u', Ok a)) ->
    (forall u x xs b a, atx u (x :: xs) b -> goes xs b -> ok x a -> exists u', m u = (u', Ok a) /\ atx u' xs b) ->
    both n (fun _ => m) (fun _ xs a => exists x, xs = [x] /\ ok x a).
  Proof.
    intros H1 H2 H3. split.
    - intros u u' a xs0 b Ha E. destruct xs0 as [|x xs]; [exfalso; exact (H2 _ _ _ _ Ha E)|]. destruct (H1 _ _ _ _ _ _ Ha E) as (Hg & A' & Ho).
      exists [x], xs. split; [reflexivity|]. split; [exact A'|]. split; [auto|]. exists x. auto.
    - intros nx xs a (x & -> & Ho). exists O. intros j _ rest b u _ Hg Ha. exact (H3 u x rest b a Ha Hg Ho).
  Qed.
  Lemma tok_is_eq a k : tok_is a k = true -> a = k.
  Proof. destruct a, k; try discriminate; reflexivity. Qed.
  Definition simple (k : tok) : Prop := tok_is k k = true /\ k <> KEof.
  Definition r_tok (k : tok) : rel unit := fun _ xs _ => exists x, xs = [x] /\ kd x = k.
  Lemma both_expect n k w : simple k -> both n (fun _ => expect L k w) (r_tok k).
  Proof.
    intros [Hk He]. apply (both_tok n _ (fun x (_ : unit) => kd x = k)).
    - intros u x xs b u' a Ha E. unfold expect in E. rewrite (atx_tok _ _ _ Ha) in E. cbn [head hd_of kh] in E.
      destruct (tok_is (kd x) k) eqn:Et; [|discriminate]. apply tok_is_eq in Et. destruct (next_inv _ _ _ _ _ _ Ha E). auto.
    - intros u b u' a Ha E. unfold expect in E. rewrite (atx_tok _ _ _ Ha) in E. cbn [head hd_of kh] in E.
      destruct (tok_is KEof k) eqn:Et; [|discriminate]. apply tok_is_eq in Et. congruence.
    - intros u x xs b [] Ha Hg Ho. unfold expect. rewrite (atx_tok _ _ _ Ha). cbn [head hd_of kh]. rewrite Ho, Hk.
      destruct (next_fwd _ _ _ _ Ha Hg) as (u' & E & A' & _). eauto.
  Qed.
  Definition r_comma (close : tok) : rel unit := fun nx xs _ => (exists x, xs = [x] /\ kd x = KComma) \/ xs = [] /\ kh nx = close.
  Lemma both_comma n close w : simple close -> close <> KComma -> both n (fun _ => eat_comma L close w) (r_comma close).
  Proof.
    intros [Hk He] Hc. split.
    - intros u u' a xs0 b Ha E. unfold eat_comma in E. pose proof (atx_tok _ _ _ Ha) as Et. rewrite Et in E.
      destruct (tok_is (kh (head xs0)) KComma) eqn:E1.
      + apply tok_is_eq in E1. destruct xs0 as [|x xs]; [discriminate|]. destruct (next_inv _ _ _ _ _ _ Ha E) as [A' Hg].
        exists [x], xs. split; [reflexivity|]. split; [exact A'|]. split; [auto|]. left. exists x. auto.
      + destruct (tok_is (kh (head xs0)) close) eqn:E2; [|discriminate]. apply tok_is_eq in E2. injection E as <- _.
        exists [], xs0. split; [reflexivity|]. split; [exact Ha|]. split; [congruence|]. right. auto.
    - intros nx xs [] HP. exists O. intros j _ rest b u Hn Hg Ha. unfold eat_comma. rewrite (atx_tok _ _ _ Ha). destruct HP as [(x & -> & Hx)|[-> Hx]].
      + cbn [app head hd_of kh]. rewrite Hx. cbn [tok_is]. destruct (next_fwd _ _ _ _ Ha Hg) as (u' & E & A' & _). eauto.
      + cbn [app] in *. rewrite Hn, Hx. exists u. split; [|exact Ha]. destruct (tok_is close KComma) eqn:E; [apply tok_is_eq in E; contradiction|]. rewrite Hk. reflexivity.
  Qed.

  (** *** Loops *)
  Section While.
    Context {A : Type}.
    Variables (cnd : option lexeme -> bool) (B : A -> rel A).
    Inductive iter : A -> rel A :=
    | it_stop a nx : cnd nx = false -> iter a nx [] a
    | it_step a nx xs1 xs2 a' a2 : cnd (hd_of (xs1 ++ xs2) nx) = true -> B a (hd_of xs2 nx) xs1 a' -> iter a' nx xs2 a2 -> iter a nx (xs1 ++ xs2) a2.
    Variables (cond : tst -> bool) (body : nat -> A -> @pm tst A).
    Hypothesis Hcond : forall u xs b, atx u xs b -> cond u = cnd (head xs).
    Lemma both_while n a0 : (forall a, both n (fun j => body j a) (B a)) -> both n (fun j => while_ j cond (body j) a0) (iter a0).
    Proof.
      intro Hb. split.
      - generalize n at 1 as k. intro k. revert a0. induction k as [|k IH]; intros a0 u u' v xs0 b Ha E; [discriminate|].
        cbn [while_] in E. rewrite (Hcond _ _ _ Ha) in E. destruct (cnd (head xs0)) eqn:Ec.
        + unfold pbind in E. destruct (body n a0 u) as [u1 [a1|e|p|]] eqn:Em; try discriminate.
          destruct (proj1 (Hb a0) _ _ _ _ _ Ha Em) as (xs1 & r1 & -> & A1 & G1 & H1). destruct (IH a1 _ _ _ _ _ A1 E) as (xs2 & r2 & -> & A2 & G2 & H2).
          exists (xs1 ++ xs2), r2. split; [rewrite app_assoc; reflexivity|]. split; [exact A2|]. split.
          * intro Hne. destruct xs2 as [|y xs2]; [|apply G2; discriminate]. rewrite app_nil_r in Hne. exact (G1 Hne).
          * eapply it_step; [|rewrite <- head_app; exact H1 | exact H2]. rewrite <- head_app, <- app_assoc. exact Ec.
        + injection E as <- <-. exists [], xs0. split; [reflexivity|]. split; [exact Ha|]. split; [congruence|]. constructor. exact Ec.
      - intros nx xs v H.
        enough (Q : exists N, forall k j, (N <= j)%nat -> (N <= k)%nat -> forall rest b u, head rest = nx -> goes rest b -> atx u (xs ++ rest) b ->
          exists u', while_ k cond (body j) a0 u = (u', Ok v) /\ atx u' rest b).
        { destruct Q as [N Q]. exists N. intros j Hj. apply (Q j j Hj Hj). }
        induction H as [a nx Hc|a nx xs1 xs2 a1 a2 Hc H1 H2 [N2 IH]].
        + exists 1%nat. intros k j Hj Hk rest b u Hn Hg Ha. destruct k as [|k]; [lia|]. cbn [while_]. rewrite (Hcond _ _ _ Ha). cbn [app]. rewrite Hn, Hc. eauto.
        + destruct (proj2 (Hb a) _ _ _ H1) as [N1 IH1]. exists (S (Nat.max N1 N2)). intros k j Hj Hk rest b u Hn Hg Ha. destruct k as [|k]; [lia|].
          cbn [while_]. rewrite (Hcond _ _ _ Ha), head_app, Hn, Hc. rewrite <- app_assoc in Ha.
          destruct (IH1 j ltac:(lia) (xs2 ++ rest) b u) as (u1 & E1 & A1); [rewrite head_app, Hn; reflexivity | apply goes_app; exact Hg | exact Ha|].
          destruct (IH k j ltac:(lia) ltac:(lia) rest b u1 Hn Hg A1) as (u2 & E2 & A2). exists u2. unfold pbind. rewrite E1. auto.
    Qed.
  End While.
End Acc.
