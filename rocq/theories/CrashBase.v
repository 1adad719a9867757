(** Where the JSON readers break down, exactly: the building blocks, in both
    directions (compare AccBase.v, which does this for acceptance). *)
From Verif Require Import Base Utf8 Types BinModel Text TextModel TextSim TextToks TextLex TextRead SpecText SpecGram TextFuel TextLocal TextRun TextEmbed TextObj SpecTok TokLex SpecDoc Doc SpecAcc AccBase AccDoc SpecCrash.
Local Open Scope N_scope.

(** Relations: following token, tokens read so far, how it breaks down. *)
Definition crel := option lexeme -> list lexeme -> crash -> Prop.
Definition fate {A} (k : crash) : res terr A := match panic_of k with Some p => Panic p | None => NoFuel end.
Definition tail_ok (k : crash) (rest : list lexeme) (b : bool) : Prop :=
  match k with
  | BadValue => True
  | NoValue | Unclosed => rest = [] /\ b = false
  | TooLong | TooLate => goes rest b
  end.
Lemma tail_goes k rest b : k <> BadValue -> tail_ok k rest b -> goes rest b.
Proof. destruct k; cbn [tail_ok]; intros Hk H; [congruence | destruct H; right; assumption | destruct H; right; assumption | exact H | exact H]. Qed.

Section Crash.
  Variable F : flt.
  Notation L := tok_lexer.
  Notation atx := (atx F Json).
  Notation inv := (inv F Json).
  Notation fwd := (fwd F Json).

  Definition calm {A} (m : @pm tst A) : Prop := forall u, match snd (m u) with Ok _ | Err _ => True | _ => False end.
  Definition cinv {A} (K : nat) (m : @pm tst A) (C : crel) : Prop := forall u xs0 b, atx u xs0 b -> goes xs0 b -> (length xs0 <= K)%nat ->
    match snd (m u) with
    | Ok _ | Err _ => True
    | r => exists xs rest k, xs0 = xs ++ rest /\ C (head rest) xs k /\ tail_ok k rest b /\ r = fate k
    end.
  Definition cfwd {A} (m : nat -> @pm tst A) (C : crel) : Prop := forall nx xs k, C nx xs k ->
    exists N, forall n, (N <= n)%nat -> forall rest b u, head rest = nx -> tail_ok k rest b -> atx u (xs ++ rest) b -> snd (m n u) = fate k.

  Lemma cinv_calm {A} K (m : @pm tst A) C : calm m -> cinv K m C.
  Proof. intros H u xs0 b _ _ _. specialize (H u). destruct (snd (m u)); auto; contradiction. Qed.
  Lemma cinv_le {A} K K' (m : @pm tst A) C : (K' <= K)%nat -> cinv K m C -> cinv K' m C.
  Proof. intros HK H u xs0 b Ha Hg Hl. apply H; [exact Ha | exact Hg | lia]. Qed.
  Lemma cinv_weak {A} K (m : @pm tst A) (C D : crel) : cinv K m C -> (forall nx xs k, C nx xs k -> D nx xs k) -> cinv K m D.
  Proof.
    intros H HC u xs0 b Ha Hg Hl. specialize (H u xs0 b Ha Hg Hl). destruct (snd (m u)); auto; destruct H as (xs & rest & k & H1 & H2 & H3); exists xs, rest, k; auto.
  Qed.
  Lemma cinv_ext {A} K (m m' : @pm tst A) C : (forall u, snd (m u) = snd (m' u)) -> cinv K m C -> cinv K m' C.
  Proof. intros E H u xs0 b Ha Hg Hl. rewrite <- E. exact (H u xs0 b Ha Hg Hl). Qed.
  Lemma cfwd_weak {A} (m : nat -> @pm tst A) (C D : crel) : cfwd m C -> (forall nx xs k, D nx xs k -> C nx xs k) -> cfwd m D.
  Proof. intros H HC nx xs k HD. exact (H nx xs k (HC _ _ _ HD)). Qed.
  Lemma cfwd_ext {A} (m m' : nat -> @pm tst A) C : (forall n u, snd (m n u) = snd (m' n u)) -> cfwd m C -> cfwd m' C.
  Proof. intros E H nx xs k HC. destruct (H nx xs k HC) as [N HN]. exists N. intros n Hn rest b u. rewrite <- E. apply HN; exact Hn. Qed.
  Lemma cfwd_shift {A} (m : nat -> @pm tst A) C : cfwd (fun j => m (S j)) C -> cfwd m C.
  Proof. intros H nx xs k HC. destruct (H nx xs k HC) as [N HN]. exists (S N). intros [|n] Hn; [lia|]. apply HN. lia. Qed.

  (** *** Sequences *)
  Lemma fate_bind {A B} k (m : @pm tst A) (f : A -> @pm tst B) u : snd (m u) = fate k -> snd (pbind m f u) = fate k.
  Proof. unfold pbind, fate. destruct (m u) as [u1 [a|e|p|]]; cbn [snd]; destruct (panic_of k); congruence. Qed.
  Lemma cinv_first {A B} K (m : @pm tst A) (f : A -> @pm tst B) C : cinv K m C -> (forall a, calm (f a)) -> cinv K (pbind m f) C.
  Proof.
    intros H Hf u xs0 b Ha Hg Hl. specialize (H u xs0 b Ha Hg Hl). unfold pbind. destruct (m u) as [u1 [a|e|p|]]; cbn [snd] in *.
    - specialize (Hf a u1). destruct (snd (f a u1)); auto; contradiction.
    - exact I.
    - destruct H as (xs & rest & k & H1 & H2 & H3 & H4). exists xs, rest, k. do 3 (split; [assumption|]). unfold fate in *. destruct (panic_of k); congruence.
    - destruct H as (xs & rest & k & H1 & H2 & H3 & H4). exists xs, rest, k. do 3 (split; [assumption|]). unfold fate in *. destruct (panic_of k); congruence.
  Qed.
  Lemma cfwd_first {A B} (m : nat -> @pm tst A) (f : nat -> A -> @pm tst B) C : cfwd m C -> cfwd (fun n => pbind (m n) (f n)) C.
  Proof. intros H nx xs k HC. destruct (H nx xs k HC) as [N HN]. exists N. intros n Hn rest b u Hh Ht Ha. apply fate_bind. exact (HN n Hn rest b u Hh Ht Ha). Qed.
  Lemma calm_ret {A} (a : A) : calm (pret a). Proof. intro u. exact I. Qed.
  Lemma calm_err {A} e : calm (perr (A := A) L e). Proof. intro u. exact I. Qed.
  Lemma calm_bind {A B} (m : @pm tst A) (f : A -> @pm tst B) : calm m -> (forall a, calm (f a)) -> calm (pbind m f).
  Proof. intros H Hf u. specialize (H u). unfold pbind. destruct (m u) as [u1 [a|e|p|]]; cbn [snd] in *; auto. apply Hf. Qed.
  Lemma calm_map {A B} (g : A -> B) (m : @pm tst A) : calm m -> calm (pmap g m).
  Proof. intro H. apply calm_bind; [exact H | intro; apply calm_ret]. Qed.
  Lemma cinv_map {A B} K (g : A -> B) (m : @pm tst A) C : cinv K m C -> cinv K (pmap g m) C.
  Proof. intro H. apply cinv_first; [exact H | intro; apply calm_ret]. Qed.
  Lemma cfwd_map {A B} (g : A -> B) (m : nat -> @pm tst A) C : cfwd m C -> cfwd (fun n => pmap g (m n)) C.
  Proof. intro H. apply (cfwd_first m (fun _ a => pret (g a))). exact H. Qed.
  Definition c_then {A} (P : rel A) (D : A -> crel) : crel := fun nx xs k => exists xs1 xs2 a, xs = xs1 ++ xs2 /\ P (hd_of xs2 nx) xs1 a /\ D a nx xs2 k.
  Lemma cinv_bind {A B} K k1 (m : @pm tst A) (f : A -> @pm tst B) C P D : inv m P -> (forall nx xs a, P nx xs a -> (k1 <= length xs)%nat) -> cinv K m C ->
    (forall a, (k1 <= K)%nat -> cinv (K - k1) (f a) (D a)) -> cinv K (pbind m f) (fun nx xs k => C nx xs k \/ c_then P D nx xs k).
  Proof.
    intros Hi Hc Hm Hf u xs0 b Ha Hg Hl. specialize (Hm u xs0 b Ha Hg Hl). unfold pbind. destruct (m u) as [u1 [a|e|p|]] eqn:Em; cbn [snd] in *.
    - destruct (Hi _ _ _ _ _ Ha Em) as (xs1 & r1 & -> & A1 & G1 & H1). specialize (Hc _ _ _ H1). rewrite app_length in Hl.
      assert (G2 : goes r1 b) by (destruct xs1 as [|x xs1]; [exact Hg | apply G1; discriminate]).
      specialize (Hf a ltac:(lia) u1 r1 b A1 G2 ltac:(lia)). destruct (snd (f a u1)); auto; destruct Hf as (xs2 & rest & k & -> & H2 & H3 & H4); exists (xs1 ++ xs2), rest, k;
        (split; [apply app_assoc|]; split; [right; exists xs1, xs2, a; split; [reflexivity|]; rewrite <- head_app; auto | auto]).
    - exact I.
    - destruct Hm as (xs & rest & k & H1 & H2 & H3 & H4). exists xs, rest, k. split; [exact H1|]. split; [left; exact H2|]. split; [exact H3|]. unfold fate in *. destruct (panic_of k); congruence.
    - destruct Hm as (xs & rest & k & H1 & H2 & H3 & H4). exists xs, rest, k. split; [exact H1|]. split; [left; exact H2|]. split; [exact H3|]. unfold fate in *. destruct (panic_of k); congruence.
  Qed.
  Lemma cinv_then {A B} K k1 (m : @pm tst A) (f : A -> @pm tst B) P D : inv m P -> (forall nx xs a, P nx xs a -> (k1 <= length xs)%nat) -> calm m ->
    (forall a, (k1 <= K)%nat -> cinv (K - k1) (f a) (D a)) -> cinv K (pbind m f) (c_then P D).
  Proof.
    intros Hi Hc Hm Hf. eapply cinv_weak; [apply (cinv_bind K k1 m f (fun _ _ _ => False) P D Hi Hc (cinv_calm K m _ Hm) Hf)|]. intros nx xs k [[]|H]. exact H.
  Qed.
  Lemma cfwd_then {A B} (m : nat -> @pm tst A) (f : nat -> A -> @pm tst B) P D : fwd m P -> (forall a, cfwd (fun n => f n a) (D a)) -> (forall a nx, ~ D a nx [] BadValue) ->
    cfwd (fun n => pbind (m n) (f n)) (c_then P D).
  Proof.
    intros Hm Hf Hb nx xs k (xs1 & xs2 & a & -> & H1 & H2). destruct (Hm _ _ _ H1) as [N1 M1]. destruct (Hf a _ _ _ H2) as [N2 M2]. exists (Nat.max N1 N2). intros n Hn rest b u Hh Ht Ha.
    rewrite <- app_assoc in Ha. destruct (M1 n ltac:(lia) (xs2 ++ rest) b u) as (u1 & E1 & A1); [rewrite head_app, Hh; reflexivity | | exact Ha|].
    - destruct xs2 as [|x xs2]; [|left; discriminate]. cbn [app]. apply (tail_goes k); [|exact Ht]. intros ->. exact (Hb _ _ H2).
    - unfold pbind. rewrite E1. exact (M2 n ltac:(lia) rest b u1 Hh Ht A1).
  Qed.
  (** A panic after the value. *)
  Lemma cinv_pure {A} K (m : @pm tst A) (Q : crash -> Prop) : (forall u, match snd (m u) with Ok _ | Err _ => True | r => exists k, Q k /\ (k = TooLong \/ k = TooLate) /\ r = fate k end) ->
    cinv K m (fun _ xs k => xs = [] /\ Q k).
  Proof.
    intros H u xs0 b Ha Hg Hl. specialize (H u). destruct (snd (m u)); auto; destruct H as (k & H1 & H2 & H3); exists [], xs0, k; (split; [reflexivity|]; split; [auto|]; split; [|exact H3]; destruct H2 as [-> | ->]; exact Hg).
  Qed.
  Lemma cfwd_pure {A} (m : nat -> @pm tst A) (Q : crash -> Prop) : (forall k n u, Q k -> snd (m n u) = fate k) -> cfwd m (fun _ xs k => xs = [] /\ Q k).
  Proof. intros H nx xs k [-> HQ]. exists O. intros n _ rest b u _ _ _. apply H. exact HQ. Qed.

  (** *** Loops *)
  Section While.
    Context {A : Type}.
    Variables (cnd : option lexeme -> bool) (B : A -> rel A) (C : A -> crel).
    Inductive citer : A -> crel :=
    | ci_here a nx xs k : cnd (hd_of xs nx) = true -> C a nx xs k -> citer a nx xs k
    | ci_step a nx xs1 xs2 a' k : cnd (hd_of (xs1 ++ xs2) nx) = true -> B a (hd_of xs2 nx) xs1 a' -> citer a' nx xs2 k -> citer a nx (xs1 ++ xs2) k.
    Variable cond : tst -> bool.
    Hypothesis Hcond : forall u xs b, atx u xs b -> cond u = cnd (head xs).
    Lemma cinv_while (body : A -> @pm tst A) : (forall a, inv (body a) (B a)) -> (forall a nx xs a', B a nx xs a' -> (1 <= length xs)%nat) ->
      forall n K a0, (forall a, cinv K (body a) (C a)) -> (K < n)%nat -> cinv K (while_ n cond body a0) (citer a0).
    Proof.
      intros Hi Hc. induction n as [|n IH]; intros K a0 Hb HK; [lia|]. intros u xs0 b Ha Hg Hl. cbn [while_]. rewrite (Hcond _ _ _ Ha). destruct (cnd (head xs0)) eqn:Ec; [|exact I].
      pose proof (Hb a0 u xs0 b Ha Hg Hl) as H0. unfold pbind. destruct (body a0 u) as [u1 [a|e|p|]] eqn:Em; cbn [snd] in *.
      - destruct (Hi _ _ _ _ _ _ Ha Em) as (xs1 & r1 & -> & A1 & G1 & H1). pose proof (Hc _ _ _ _ H1) as Hlen. rewrite app_length in Hl.
        assert (G2 : goes r1 b) by (apply G1; destruct xs1; [cbn in Hlen; lia | discriminate]).
        destruct (Nat.eq_dec K 0) as [E0|E0]; [lia|].
        assert (HC' : forall a, cinv (K - 1) (body a) (C a)) by (intro a'; apply (cinv_le K); [lia | apply Hb]).
        pose proof (IH (K - 1)%nat a HC' ltac:(lia) u1 r1 b A1 G2 ltac:(lia)) as H2.
        destruct (snd (while_ n cond body a u1)); auto; destruct H2 as (xs2 & rest & k & -> & H2 & H3 & H4); exists (xs1 ++ xs2), rest, k;
          (split; [apply app_assoc|]; split; [apply (ci_step _ _ _ _ a); [rewrite <- head_app, <- app_assoc; exact Ec | rewrite <- head_app; exact H1 | exact H2] | auto]).
      - exact I.
      - destruct H0 as (xs & rest & k & -> & H2 & H3 & H4). exists xs, rest, k. split; [reflexivity|]. split; [constructor; [rewrite <- head_app; exact Ec | exact H2] | auto].
      - destruct H0 as (xs & rest & k & -> & H2 & H3 & H4). exists xs, rest, k. split; [reflexivity|]. split; [constructor; [rewrite <- head_app; exact Ec | exact H2] | auto].
    Qed.
    Lemma citer_bad : (forall a nx, ~ C a nx [] BadValue) -> forall a nx xs k, citer a nx xs k -> xs = [] -> k <> BadValue.
    Proof.
      intros Hb a nx xs k H. induction H as [a nx xs k _ H|a nx xs1 xs2 a' k _ _ _ IH]; intro E; [subst xs; intros ->; exact (Hb _ _ H)|]. apply app_eq_nil in E. apply IH. tauto.
    Qed.
    Lemma cfwd_while (body : nat -> A -> @pm tst A) : (forall a, fwd (fun j => body j a) (B a)) -> (forall a, cfwd (fun j => body j a) (C a)) -> (forall a nx, ~ C a nx [] BadValue) ->
      forall a0, cfwd (fun j => while_ j cond (body j) a0) (citer a0).
    Proof.
      intros Hf Hb Hbad a0 nx xs k H.
      enough (Q : exists N, forall i j, (N <= j)%nat -> (N <= i)%nat -> forall rest b u, head rest = nx -> tail_ok k rest b -> atx u (xs ++ rest) b -> snd (while_ i cond (body j) a0 u) = fate k).
      { destruct Q as [N Q]. exists N. intros j Hj. exact (Q j j Hj Hj). }
      induction H as [a nx xs k Hc H|a nx xs1 xs2 a1 k Hc H1 H2 [N2 IH]].
      - destruct (Hb a _ _ _ H) as [N HN]. exists (S N). intros i j Hj Hi rest b u Hh Ht Ha. destruct i as [|i]; [lia|]. cbn [while_]. rewrite (Hcond _ _ _ Ha), head_app, Hh, Hc.
        apply fate_bind. exact (HN j ltac:(lia) rest b u Hh Ht Ha).
      - destruct (Hf a _ _ _ H1) as [N1 IH1]. exists (S (Nat.max N1 N2)). intros i j Hj Hi rest b u Hh Ht Ha. destruct i as [|i]; [lia|].
        cbn [while_]. rewrite (Hcond _ _ _ Ha), head_app, Hh, Hc. rewrite <- app_assoc in Ha.
        destruct (IH1 j ltac:(lia) (xs2 ++ rest) b u) as (u1 & E1 & A1); [rewrite head_app, Hh; reflexivity | | exact Ha|].
        + destruct xs2 as [|x xs2]; [|left; discriminate]. cbn [app]. apply (tail_goes k); [|exact Ht]. exact (citer_bad Hbad _ _ _ _ H2 eq_refl).
        + unfold pbind. rewrite E1. exact (IH i j ltac:(lia) ltac:(lia) rest b u1 Hh Ht A1).
    Qed.
  End While.

  (** *** Calm readers *)
  Lemma calm_next : calm (l_next L).
  Proof. intro u. cbn [l_next tok_lexer]. unfold tok_next. destruct (t_toks u) as [|a [|a2 l]]; destruct (t_bad u); exact I. Qed.
  Lemma calm_expect k w : calm (expect L k w).
  Proof. intro u. unfold expect. destruct (tok_is (l_tok L u) k); [apply calm_next | exact I]. Qed.
  Lemma calm_comma k w : calm (eat_comma L k w).
  Proof. intro u. unfold eat_comma. destruct (tok_is (l_tok L u) KComma); [apply calm_next|]. destruct (tok_is (l_tok L u) k); exact I. Qed.
End Crash.
