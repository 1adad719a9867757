(** Proofs for C83: a newer version of a program reads what the old one read. *)
From Verif Require Import Base Utf8 Types BinModel Text TextModel SpecText SpecGram SpecTok SpecDoc SpecAcc SpecRonAcc SpecNewer.
Local Open Scope N_scope.

(** ** What is true from some fuel on *)
Definition ev (P : nat -> Prop) : Prop := exists N, forall n, (N <= n)%nat -> P n.
Lemma ev_all (P : nat -> Prop) : (forall n, P n) -> ev P.
Proof. intro H. exists 0%nat. auto. Qed.
Lemma ev_imp (P Q : nat -> Prop) : (forall n, P n -> Q n) -> ev P -> ev Q.
Proof. intros H [N HN]. exists N. auto. Qed.
Lemma ev_step (P Q : nat -> Prop) : (forall n, P n -> Q (S n)) -> ev P -> ev Q.
Proof. intros H [N HN]. exists (S N). intros [|n] Hn; [lia|]. apply H, HN. lia. Qed.
Lemma ev_and (P Q : nat -> Prop) : ev P -> ev Q -> ev (fun n => P n /\ Q n).
Proof. intros [N HN] [M HM]. exists (N + M)%nat. intros n Hn. split; [apply HN | apply HM]; lia. Qed.
Lemma ev_f2 {A B} (R : nat -> A -> B -> Prop) l l' : Forall2 (fun x y => ev (fun n => R n x y)) l l' -> ev (fun n => Forall2 (R n) l l').
Proof.
  induction 1 as [|x y l l' H Hl IH]; [apply ev_all; constructor|].
  apply (ev_imp (fun n => R n x y /\ Forall2 (R n) l l')); [intros n [H1 H2]; constructor; assumption | apply ev_and; assumption].
Qed.
Lemma ev_in {A} (P : nat -> A -> Prop) l : (forall x, In x l -> ev (fun n => P n x)) -> ev (fun n => forall x, In x l -> P n x).
Proof.
  induction l as [|x l IH]; intro H; [apply ev_all; intros n y []|].
  apply (ev_imp (fun n => P n x /\ forall y, In y l -> P n y)); [intros n [H1 H2] y [<-|Hy]; auto|].
  apply ev_and; [apply H; left; reflexivity | apply IH; intros y Hy; apply H; right; exact Hy].
Qed.

(** ** Brackets *)
Fixpoint walk (b z : Z) (xs : list lexeme) (e : Z) : Prop :=
  match xs with [] => z = e | x :: r => (b <= z + weight x)%Z /\ walk b (z + weight x) r e end.
Lemma walk_app b xs ys : forall z m e, walk b z xs m -> walk b m ys e -> walk b z (xs ++ ys) e.
Proof. induction xs as [|x xs IH]; cbn [walk app]; intros z m e H1 H2; [subst; exact H2|]. destruct H1 as [H1 H3]. split; [exact H1 | exact (IH _ _ _ H3 H2)]. Qed.
Lemma walk_shift d b xs : forall z e, walk b z xs e -> walk (b + d) (z + d) xs (e + d).
Proof.
  induction xs as [|x xs IH]; cbn [walk]; intros z e H; [lia|]. destruct H as [H1 H2]. split; [lia|].
  replace (z + d + weight x)%Z with (z + weight x + d)%Z by lia. apply IH, H2.
Qed.
Lemma walk_total b xs : forall z e, walk b z xs e -> (z + total xs = e)%Z.
Proof. induction xs as [|x xs IH]; cbn [walk total]; intros z e H; [lia|]. destruct H as [_ H]. apply IH in H. lia. Qed.
Lemma walk_prefix b xs : forall z e p q, walk b z xs e -> (b <= z)%Z -> xs = p ++ q -> (b <= z + total p)%Z.
Proof.
  induction xs as [|x xs IH]; intros z e p q H Hz E.
  - destruct p; [cbn [total]; lia | discriminate].
  - destruct p as [|y p]; [cbn [total]; lia|]. injection E as <- E. destruct H as [H1 H2]. cbn [total]. specialize (IH _ _ p q H2 H1 E). lia.
Qed.
Lemma walk_of b xs : forall z e, (forall p q, xs = p ++ q -> (b <= z + total p)%Z) -> (z + total xs = e)%Z -> walk b z xs e.
Proof.
  induction xs as [|x xs IH]; intros z e H E; cbn [walk total] in *; [lia|]. split.
  - specialize (H [x] xs eq_refl). cbn [total] in H. lia.
  - apply IH; [|lia]. intros p q ->. specialize (H (x :: p) q eq_refl). cbn [total] in H. lia.
Qed.
Definition bal (xs : list lexeme) : Prop := walk 0 0 xs 0.
Lemma bal_app xs ys : bal xs -> bal ys -> bal (xs ++ ys).
Proof. apply walk_app. Qed.
Lemma bal_one x : weight x = 0%Z -> bal [x].
Proof. intro H. unfold bal. cbn [walk]. rewrite H. cbn. lia. Qed.
Lemma ignored_bal xs : ignored xs -> bal xs.
Proof.
  intros [(x & -> & Hx)|(x & r & E & Hx & Ht & Hp)].
  - apply bal_one. destruct x; try reflexivity. destruct (Hx _ eq_refl).
  - apply walk_of; [|lia]. intros p q Epq. destruct p as [|y p]; [cbn; lia|]. destruct q as [|y' q].
    + rewrite app_nil_r in Epq. rewrite <- Epq, Ht. lia.
    + specialize (Hp _ _ Epq ltac:(discriminate) ltac:(discriminate)). lia.
Qed.
Lemma bracket_ignored o cl ys : (o = 91 \/ o = 123) -> (cl = 93 \/ cl = 125) -> bal ys -> ignored (between o cl ys).
Proof.
  intros Ho Hc H. right. exists (XP o), (ys ++ [XP cl]). split; [reflexivity|]. split; [destruct Ho as [-> | ->]; auto|].
  assert (Wo : weight (XP o) = 1%Z) by (destruct Ho as [-> | ->]; reflexivity). assert (Wc : weight (XP cl) = (-1)%Z) by (destruct Hc as [-> | ->]; reflexivity).
  assert (Ta : forall a b, (total (a ++ b) = total a + total b)%Z) by (induction a as [|x a IH]; intro b; cbn [app total]; [lia | rewrite IH; lia]).
  pose proof (walk_total _ _ _ _ H) as T. split.
  - unfold between. cbn [total]. rewrite Ta. cbn [total]. lia.
  - intros p q E Hp Hq. destruct p as [|x p]; [congruence|]. unfold between in E. injection E as <- E.
    destruct (exists_last Hq) as (q' & y & ->). rewrite app_assoc in E. apply app_inj_tail in E as [E _].
    cbn [total]. pose proof (walk_prefix _ _ _ _ p q' H ltac:(lia) E). lia.
Qed.
Lemma bracket_bal o cl ys : (o = 91 \/ o = 123) -> (cl = 93 \/ cl = 125) -> bal ys -> bal (between o cl ys).
Proof. intros. apply ignored_bal, bracket_ignored; assumption. Qed.
Lemma commas_bal ls : Forall bal ls -> bal (commas ls).
Proof.
  induction 1 as [|x ls Hx Hl IH]; [reflexivity|]. destruct ls as [|y ls]; [exact Hx|].
  change (commas (x :: y :: ls)) with (x ++ xcomma :: commas (y :: ls)). apply bal_app; [exact Hx|].
  change (xcomma :: commas (y :: ls)) with ([xcomma] ++ commas (y :: ls)). apply bal_app; [apply bal_one; reflexivity | exact IH].
Qed.
Lemma listed_bal ls ys : Forall bal ls -> listed ls ys -> bal ys.
Proof. intros H [->|[_ ->]]; [apply commas_bal, H | apply bal_app; [apply commas_bal, H | apply bal_one; reflexivity]]. Qed.
Lemma array_ignored ls xs : Forall bal ls -> array_toks ls xs -> ignored xs.
Proof. intros H (ys & Hl & ->). apply bracket_ignored; auto. exact (listed_bal _ _ H Hl). Qed.
Lemma member_bal m xs : bal (snd m) -> member_toks m xs -> bal xs.
Proof.
  intros H [b ->]. change (XS b (fst m) :: xcolon :: snd m) with ([XS b (fst m)] ++ [xcolon] ++ snd m).
  apply bal_app; [apply bal_one; reflexivity|]. apply bal_app; [apply bal_one; reflexivity | exact H].
Qed.
Lemma object_ignored ms xs : (forall k d, In (k, d) ms -> bal d) -> object_toks ms xs -> ignored xs.
Proof.
  intros H (ls & ys & Hm & Hl & ->). apply bracket_ignored; auto. apply (listed_bal ls); [|exact Hl].
  clear Hl. induction Hm as [|m l ms ls Hx Hm IH]; constructor.
  - destruct m as [k d]. apply (member_bal (k, d)); [apply (H k); left; reflexivity | exact Hx].
  - apply IH. intros k d Hin. apply (H k). right. exact Hin.
Qed.
Lemma wrapped_ignored b k ys : bal ys -> ignored (in_curly (XS b k :: xcolon :: ys)).
Proof. intro H. apply bracket_ignored; auto. apply (member_bal (k, ys)); [exact H | exists b; reflexivity]. Qed.

(** Every member is either one of a field or skipped. *)
Lemma named_dec fs k : (exists f, In f fs /\ f_skip f = false /\ key_of_field f = k) \/ (forall f, In f fs -> f_skip f = false -> key_of_field f <> k).
Proof.
  induction fs as [|f fs IH]; [right; intros f []|]. destruct IH as [(g & Hg & Hs & Hk)|IH]; [left; exists g; cbn; auto|].
  destruct (f_skip f) eqn:Es; [right; intros g [<-|Hg] Hs; [congruence | auto]|].
  destruct (list_eq_dec N.eq_dec (key_of_field f) k) as [E|E]; [left; exists f; cbn; auto|]. right. intros g [<-|Hg] Hs; auto.
Qed.
Section Ignored.
  Variables (F : flt) (c : cfg) (G : env).
  Lemma field_bal (T : ty -> list lexeme -> val -> Prop) f d w : (forall t xs v, T t xs v -> ignored xs) -> field_means T f d w -> ignored d.
  Proof. unfold field_means. intros H. destruct (f_isopt f && f_hasproxy f); [intros (x & _ & Hx) | intro Hx]; exact (H _ _ _ Hx). Qed.
  Lemma members_bal (T : ty -> list lexeme -> val -> Prop) dflt fs ms vs : (forall t xs v, T t xs v -> ignored xs) -> fields_means T dflt fs ms vs -> others_ignored fs ms ->
    forall k d, In (k, d) ms -> ignored d.
  Proof.
    intros H (_ & Hm & _) Ho k d Hin. destruct (named_dec fs k) as [(f & Hf & Hs & Hk)|Hn].
    - destruct (Hm k d f Hin Hf Hs Hk) as [w Hw]. exact (field_bal T f d w H Hw).
    - exact (Ho k d Hin Hn).
  Qed.
  Lemma tuple_bal (T : ty -> list lexeme -> val -> Prop) ts ls ws : (forall t xs v, T t xs v -> ignored xs) -> tuple_means T ts ls ws -> Forall bal ls.
  Proof. intros H. induction 1; constructor; [eapply ignored_bal, H; eassumption | assumption]. Qed.
  Lemma f2_bal (P : list lexeme -> val -> Prop) ls ws : (forall xs v, P xs v -> ignored xs) -> Forall2 P ls ws -> Forall bal ls.
  Proof. intros H. induction 1; constructor; [eapply ignored_bal, H; eassumption | assumption]. Qed.
  Lemma one_ignored x : (forall p, x <> XP p) -> ignored [x].
  Proof. intro H. left. exists x. auto. Qed.

  Lemma dur_ignored xs s ns : dur_toks xs s ns -> ignored xs.
  Proof.
    intros (ms & a & b & Ho & _ & (sa & sb & _ & H) & _). apply (object_ignored ms); [|exact Ho]. intros k d Hin.
    assert (B : forall z, bal [XN z]) by (intro z; apply bal_one; reflexivity).
    destruct H as [[-> _]|[_ [->| ->]]]; cbn in Hin; repeat (destruct Hin as [Hin|Hin]; [injection Hin as _ <-; apply B|]); contradiction.
  Qed.
  Lemma takes_ignored n : forall nx t xs v, takes F c G n nx t xs v -> ignored xs.
  Proof.
    induction n as [|n IH]; intros nx t xs v H; [contradiction|]. cbn [takes] in H.
    assert (IH0 : forall t xs v, takes F c G n None t xs v -> ignored xs) by (intros; eapply IH; eassumption).
    destruct t as [k| | | | | |t'|k t'|k tk tv|m t'|ts|t'| | |p t'|i].
    - destruct H as (s & z & -> & _). apply one_ignored; discriminate.
    - destruct H as (s & z & -> & _). apply one_ignored; discriminate.
    - destruct H as (s & z & -> & _). apply one_ignored; discriminate.
    - destruct H as [[-> _]|[-> _]]; apply one_ignored; discriminate.
    - destruct H as (b & s & -> & _). apply one_ignored; discriminate.
    - destruct H as [-> _]. apply one_ignored; discriminate.
    - destruct H as [[-> _]|(_ & w & _ & H)]; [apply one_ignored; discriminate | exact (IH _ _ _ _ H)].
    - destruct H as (ls & ws & Ha & Hf & _). exact (array_ignored _ _ (f2_bal _ _ _ (IH0 t') Hf) Ha).
    - destruct H as (es & ws & (ys & Hl & ->) & Hf & _). apply bracket_ignored; auto. refine (listed_bal _ _ _ Hl).
      clear Hl. induction Hf as [|e w es ws [H1 H2] Hf IHf]; constructor; [|exact IHf]. apply bal_app; [exact (ignored_bal _ (IH0 _ _ _ H1))|].
      change (xcolon :: snd e) with ([xcolon] ++ snd e). apply bal_app; [apply bal_one; reflexivity | exact (ignored_bal _ (IH0 _ _ _ H2))].
    - destruct H as (ls & ws & Ha & _ & Hf & _). exact (array_ignored _ _ (f2_bal _ _ _ (IH0 t') Hf) Ha).
    - destruct H as (_ & ls & ws & Ha & Hf & _). exact (array_ignored _ _ (tuple_bal _ _ _ _ IH0 Hf) Ha).
    - exact (IH _ _ _ _ H).
    - destruct H as (s & ns & H & _). revert H. apply dur_ignored.
    - destruct H as [[-> _]|(s & ns & H & _)]; [apply one_ignored; discriminate|]. revert H. apply dur_ignored.
    - destruct H as (w & H & _). exact (IH _ _ _ _ H).
    - destruct (nth_error G i) as [d|]; [|contradiction]. destruct d as [dflt nul fs|tr fs|vs|p t'].
      + destruct H as (ms & ws & Ho & _ & Hf & Hi). apply (object_ignored ms); [|exact Ho]. intros k d Hin. apply ignored_bal. exact (members_bal _ _ _ _ _ IH0 Hf Hi k d Hin).
      + destruct H as [_ H]. destruct fs as [|f [|f2 fs]].
        * destruct H as [-> _]. apply bracket_ignored; auto. reflexivity.
        * destruct tr; [destruct H as (w & H & _); exact (IH _ _ _ _ H)|]. destruct H as (l & w & -> & H & _). apply bracket_ignored; auto. exact (ignored_bal _ (IH0 _ _ _ H)).
        * assert (H' : exists ls ws, array_toks ls xs /\ tuple_means (takes F c G n None) (map f_ty (f :: f2 :: fs)) ls ws /\ v = VSeq ws) by (destruct tr; exact H).
          destruct H' as (ls & ws & Ha & Hf & _). exact (array_ignored _ _ (tuple_bal _ _ _ _ IH0 Hf) Ha).
      + destruct H as (tag & vr & _ & H). destruct (v_body vr) as [|ts|fs].
        * destruct H as (b & s & -> & _). apply one_ignored; discriminate.
        * destruct H as (b & ls & ws & ys & -> & Ha & Hf & _). apply wrapped_ignored, ignored_bal. exact (array_ignored _ _ (tuple_bal _ _ _ _ IH0 Hf) Ha).
        * destruct H as (b & ms & ws & ys & -> & Ho & Hf & Hi & _). apply wrapped_ignored, ignored_bal. apply (object_ignored ms); [|exact Ho]. intros k d Hin. apply ignored_bal. exact (members_bal _ _ _ _ _ IH0 Hf Hi k d Hin).
      + destruct H as (w & H & _). exact (IH _ _ _ _ H).
  Qed.
End Ignored.

(** ** Scalars *)
Section Scalars.
  Variables (F : flt) (c : cfg) (so : bool) (fm : fmt) (fresh : str -> Prop).
  Lemma int_wider_ok k k' z : int_wider so k k' -> int_ok c k z -> int_ok c k' z.
  Proof.
    intros [->|(N1 & N2 & N3 & N4 & H)] Hz; [exact Hz|]. unfold int_ok in *.
    destruct k; try congruence; destruct k'; try congruence; cbn in H |- *; cbn in Hz; try (destruct H as (_ & ? & ?)); try discriminate; try lia.
  Qed.
  Lemma int_wider_lit k k' s z xs : int_wider so k k' -> plain_toks so fm fresh xs -> In (XN s) xs -> int_lit c k s z -> int_lit c k' s z.
  Proof.
    intros W [_ P] Hin H. unfold int_lit, int_means in *. destruct H as (K1 & K2 & Hz & sg & d & Hl & H). pose proof (int_wider_ok _ _ _ W Hz) as Hz'.
    destruct W as [->|(N1 & N2 & N3 & N4 & W)]; [repeat split; try tauto; [apply Hz | apply Hz | exists sg, d; auto]|].
    split; [exact N3|]. split; [exact N4|]. split; [exact Hz'|]. exists sg, d. split; [exact Hl|].
    destruct (ik_signed k) eqn:Ek.
    - destruct W as (So & W1 & _). rewrite W1. specialize (P So s sg d Hin Hl). destruct H as [H|[H _]]; [left; exact H | lia].
    - destruct H as [-> [H|[H _]]]; [|congruence]. destruct (ik_signed k'); auto.
  Qed.
  Lemma num_lit k s z xs : k <> Usize -> (ik_signed k = true -> so = true) -> plain_toks so fm fresh xs -> In (XN s) xs -> int_lit c k s z -> double_lit F s (f64_of_z F z).
  Proof.
    intros N1 So [_ P] Hin (K1 & K2 & Hz & sg & d & Hl & H). left. exists sg, d. split; [exact Hl|]. f_equal.
    destruct (ik_signed k) eqn:Ek.
    - specialize (P (So eq_refl) s sg d Hin Hl). destruct H as [H|[H _]]; [auto | lia].
    - destruct H as [-> [H|[H _]]]; [auto | congruence].
  Qed.
  Lemma plain_incl xs ys : incl ys xs -> plain_toks so fm fresh xs -> plain_toks so fm fresh ys.
  Proof. intros I [A B]. split; [intros E b k Hin; apply (A E b k), I, Hin | intros So s sg d Hin; exact (B So s sg d (I _ Hin))]. Qed.
End Scalars.

(** ** Tokens of the parts *)
Lemma commas_incl l ls : In l ls -> incl l (commas ls).
Proof.
  induction ls as [|x ls IH]; [intros []|]. destruct ls as [|y ls]; [intros [->|[]]; exact (incl_refl _)|].
  change (commas (x :: y :: ls)) with (x ++ xcomma :: commas (y :: ls)). intros [->|H] a Ha; apply in_or_app; [left; exact Ha | right; right; exact (IH H a Ha)].
Qed.
Lemma listed_incl l ls ys : In l ls -> listed ls ys -> incl l ys.
Proof. intros H [->|[_ ->]]; [apply commas_incl, H | apply incl_appl, commas_incl, H]. Qed.
Lemma between_incl o cl ys : incl ys (between o cl ys).
Proof. intros a Ha. right. apply in_or_app. left. exact Ha. Qed.
Lemma array_incl l ls xs : In l ls -> array_toks ls xs -> incl l xs.
Proof. intros H (ys & Hl & ->). intros a Ha. apply between_incl. exact (listed_incl _ _ _ H Hl a Ha). Qed.
Lemma object_parts ms xs k d : In (k, d) ms -> object_toks ms xs -> incl d xs /\ exists b, In (XS b k) xs.
Proof.
  intros H (ls & ys & Hm & Hl & ->).
  assert (E : exists l b, In l ls /\ l = XS b k :: xcolon :: d).
  { clear Hl. induction Hm as [|m l ms ls Hx Hm IH]; [contradiction|]. destruct H as [->|H].
    - destruct Hx as [b E]. exists l, b. split; [left; reflexivity | exact E].
    - destruct (IH H) as (l0 & b & Hin & E). exists l0, b. split; [right; exact Hin | exact E]. }
  destruct E as (l & b & Hin & ->). pose proof (listed_incl _ _ _ Hin Hl) as I. split.
  - intros a Ha. apply between_incl, I. right. right. exact Ha.
  - exists b. apply between_incl, I. left. reflexivity.
Qed.
Lemma wrap_incl b k ys : incl ys (in_curly (XS b k :: xcolon :: ys)).
Proof. intros a Ha. apply between_incl. right. right. exact Ha. Qed.

(** ** Collections *)
Lemma order_seq k ws : in_order k -> seq_of k ws [] = ws.
Proof.
  intro H. assert (E : forall acc, seq_of k ws acc = acc ++ ws); [|apply (E [])].
  induction ws as [|w ws IH]; intro acc; [rewrite app_nil_r; reflexivity|]. unfold seq_of in *. cbn [fold_left]. rewrite IH.
  destruct H as [->| ->]; cbn [seq_add]; rewrite <- app_assoc; reflexivity.
Qed.
Definition same_key (B : val -> val -> Prop) (e e' : val * val) : Prop := fst e = fst e' /\ B (snd e) (snd e').
Lemma map_add_same (B : val -> val -> Prop) k x v v' l l' : B v v' -> Forall2 (same_key B) l l' -> Forall2 (same_key B) (map_add k x v l) (map_add k x v' l').
Proof.
  intros Hv H. destruct k; cbn [map_add].
  - induction H as [|[a y] [a' y'] l l' [Ha Hy] Hl IH]; cbn; [repeat constructor; assumption|]. cbn in Ha, Hy. subst a'.
    destruct (val_eqb x a); constructor; try assumption; split; auto.
  - induction H as [|[a y] [a' y'] l l' [Ha Hy] Hl IH]; cbn; [repeat constructor; assumption|]. cbn in Ha, Hy. subst a'.
    destruct (val_cmp x a); repeat constructor; try assumption; auto.
Qed.
Lemma map_of_same (B : val -> val -> Prop) k ws ws' : Forall2 (same_key B) ws ws' -> Forall2 (same_key B) (map_of k ws []) (map_of k ws' []).
Proof.
  assert (E : forall acc acc', Forall2 (same_key B) acc acc' -> Forall2 (same_key B) ws ws' -> Forall2 (same_key B) (map_of k ws acc) (map_of k ws' acc')).
  { intros acc acc' Ha H. revert acc acc' Ha. induction H as [|[x v] [x' v'] ws ws' [Hx Hv] Hw IH]; intros acc acc' Ha; [exact Ha|].
    cbn in Hx, Hv. subst x'. unfold map_of in *. cbn [fold_left fst snd]. apply IH. apply map_add_same; assumption. }
  apply E. constructor.
Qed.

Section Main.
  Variables (F : flt) (c : cfg) (so : bool) (fresh : str -> Prop) (G G' : env).
  Hypothesis HN : env_newer so Json G fresh G'.
  Notation B := (becomes F Json fresh G G').
  Notation newer := (ty_newer so Json G).
  Notation T' := (takes F c G').
  Notation plain := (plain_toks so Json fresh).

  (** What is read as a value of the old type is read as a value of the new one. *)
  Definition carries (n : nat) : Prop := forall t t' nx xs v, newer t t' -> plain xs -> takes F c G n nx t xs v ->
    exists v', ev (fun m => T' m nx t' xs v') /\ B t t' v v'.

  Lemma f2_new n t t' ls ws : carries n -> newer t t' -> (forall l, In l ls -> plain l) -> Forall2 (takes F c G n None t) ls ws ->
    exists ws', ev (fun m => Forall2 (T' m None t') ls ws') /\ Forall2 (B t t') ws ws'.
  Proof.
    intros IH Hn Hp H. assert (E : exists ws', Forall2 (fun l w' => ev (fun m => T' m None t' l w')) ls ws' /\ Forall2 (B t t') ws ws').
    { induction H as [|l w ls ws H Hs IHs]; [exists []; split; constructor|].
      destruct (IH _ _ _ _ _ Hn (Hp l (or_introl eq_refl)) H) as (w' & E & Hb). destruct IHs as (ws' & E' & Hb'); [intros x Hx; apply Hp; right; exact Hx|].
      exists (w' :: ws'). split; constructor; assumption. }
    destruct E as (ws' & E & Hb). exists ws'. split; [apply ev_f2, E | exact Hb].
  Qed.
  Lemma tuple_new n ts ts' ls ws : carries n -> Forall2 newer ts ts' -> (forall l, In l ls -> plain l) -> tuple_means (takes F c G n None) ts ls ws ->
    exists ws', ev (fun m => tuple_means (T' m None) ts' ls ws') /\ each B ts ts' ws ws'.
  Proof.
    intros IH Hn Hp H. revert ts' Hn. induction H as [|t l w ts ls ws H Hs IHs]; intros ts' Hn.
    - inversion Hn; subst. exists []. split; [apply ev_all; constructor | constructor].
    - inversion Hn as [|? t' ? ts0' Ht Hts]; subst. destruct (IH _ _ _ _ _ Ht (Hp l (or_introl eq_refl)) H) as (w' & E & Hb).
      destruct (IHs (fun x Hx => Hp x (or_intror Hx)) ts0' Hts) as (ws' & E' & Hb'). exists (w' :: ws'). split; [|constructor; assumption].
      apply (ev_imp (fun m => T' m None t' l w' /\ tuple_means (T' m None) ts0' ls ws')); [intros m [H1 H2]; constructor; assumption | apply ev_and; assumption].
  Qed.
  (** Keys and elements of sets. *)
  Lemma key_new n t t' nx xs v : key_wider so t t' -> plain xs -> takes F c G n nx t xs v -> ev (fun m => T' m nx t' xs v).
  Proof.
    intros Hk Hp H. destruct n as [|n]; [contradiction|]. exists 1%nat. intros [|m] Hm; [lia|].
    destruct t; cbn [key_wider] in Hk; try contradiction; destruct t'; try contradiction; cbn [takes] in *; try exact H.
    destruct H as (s & z & -> & -> & H). exists s, z. split; [reflexivity|]. split; [reflexivity|]. apply (int_wider_lit c so Json fresh k k0 s z [XN s]); auto. left. reflexivity.
  Qed.
  Lemma keys_new n t t' ls ws : key_wider so t t' -> (forall l, In l ls -> plain l) -> Forall2 (takes F c G n None t) ls ws -> ev (fun m => Forall2 (T' m None t') ls ws).
  Proof.
    intros Hk Hp H. apply ev_f2. induction H as [|l w ls ws H Hs IH]; constructor.
    - exact (key_new n t t' None l w Hk (Hp l (or_introl eq_refl)) H).
    - apply IH. intros x Hx. apply Hp. right. exact Hx.
  Qed.

  (** Fields. *)
  Lemma fields_new n dflt dflt' fs fs' ms vs : carries n -> fields_newer so Json G fresh dflt dflt' fs fs' ->
    (forall k d, In (k, d) ms -> plain d) -> (forall k d, In (k, d) ms -> ~ fresh k) ->
    fields_means (takes F c G n None) dflt fs ms vs -> others_ignored fs ms ->
    exists vs', ev (fun m => fields_means (T' m None) dflt' fs' ms vs') /\ others_ignored fs' ms /\ Forall2 (field_becomes B (field_new Json fresh fs) dflt dflt' fs vs) fs' vs'.
  Proof.
    intros IH [He Hf] Hp Hr (H1 & H2 & H3) Ho.
    assert (Old : forall f, In f fs -> exists v, In (f, v) (combine fs vs) /\ field_from (takes F c G n None) dflt ms f v).
    { clear -H1. induction H1 as [|f v fs vs H Hs IHs]; [intros f []|]. intros g [->|Hg]; [exists v; split; [left; reflexivity | exact H]|].
      destruct (IHs g Hg) as (w & Hin & Hw). exists w. split; [right; exact Hin | exact Hw]. }
    assert (Nin : forall k, fresh k -> ~ In k (map fst ms)).
    { intros k Hk Hin. apply in_map_iff in Hin as ([k0 d] & E & Hin). cbn in E. subst k0. exact (Hr k d Hin Hk). }
    assert (V : exists vs', Forall2 (fun f' v' => ev (fun m => field_from (T' m None) dflt' ms f' v')) fs' vs' /\ Forall2 (field_becomes B (field_new Json fresh fs) dflt dflt' fs vs) fs' vs').
    { clear He. induction Hf as [|f' fs' Hf' Hfs IHfs]; [exists []; split; constructor|]. destruct IHfs as (vs' & E1 & E2).
      assert (X : exists v', ev (fun m => field_from (T' m None) dflt' ms f' v') /\ field_becomes B (field_new Json fresh fs) dflt dflt' fs vs f' v').
      { destruct (f_skip f') eqn:Es.
        - exists (omitted_value f'). split; [|apply fb_skip; exact Es]. apply ev_all. intro m. unfold field_from. rewrite Es. reflexivity.
        - destruct (Hf' eq_refl) as [(f & Hin & Sk & Key & Px & Px' & Ht & Ab)|[Fr Ab]].
          + destruct (Old f Hin) as (v & Hc & Hv). unfold field_from in Hv. rewrite Sk in Hv. destruct Hv as [(d & Hl & Hd)|[Hm Ha]].
            * unfold field_means in Hd. rewrite Px in Hd. assert (Hd' : In (key_of_field f, d) ms) by (destruct Hl as (a & b & -> & _); apply in_or_app; right; left; reflexivity).
              destruct (IH _ _ _ _ _ Ht (Hp _ _ Hd') Hd) as (v' & E & Hb). exists v'. split; [|apply (fb_kept _ _ _ _ _ _ _ f v v' Es Hc Sk Key Hb)].
              revert E. apply ev_imp. intros m E. unfold field_from. rewrite Es. left. exists d. rewrite <- Key. split; [exact Hl|]. unfold field_means. rewrite Px'. exact E.
            * destruct (absent_value dflt' f') as [v'|] eqn:Ea'; [|exfalso; apply Ab; [congruence | reflexivity]].
              exists v'. split; [|apply (fb_absent _ _ _ _ _ _ _ f v v' Es Hc Sk Key Ha Ea')]. apply ev_all. intro m. unfold field_from. rewrite Es. right. rewrite <- Key. auto.
          + destruct (absent_value dflt' f') as [v'|] eqn:Ea'; [|congruence]. exists v'. split; [|apply fb_new; assumption].
            apply ev_all. intro m. unfold field_from. rewrite Es. right. auto. }
      destruct X as (v' & X1 & X2). exists (v' :: vs'). split; constructor; assumption. }
    destruct V as (vs' & V1 & V2). exists vs'. split; [|split; [|exact V2]].
    - apply (ev_imp (fun m => Forall2 (field_from (T' m None) dflt' ms) fs' vs' /\ forall kd, In kd ms -> forall f, In f fs' -> f_skip f = false -> key_of_field f = fst kd -> exists w, field_means (T' m None) f (snd kd) w)).
      + intros m [E1 E2]. split; [exact E1|]. split; [intros k d f Hin; exact (E2 (k, d) Hin f)|]. intro E. apply H3, He, E.
      + apply ev_and; [apply ev_f2, V1|]. apply ev_in. intros [k d] Hin. cbn [fst snd]. apply ev_in. intros f' Hf'.
        destruct (f_skip f') eqn:Es; [apply ev_all; discriminate|].
        destruct (list_eq_dec N.eq_dec (key_of_field f') k) as [Ek|Ek]; [|apply ev_all; intros m _ E; contradiction].
        rewrite Forall_forall in Hf. destruct (Hf f' Hf' Es) as [(f & Hinf & Sk & Key & Px & Px' & Ht & Ab)|[Fr Ab]].
        * destruct (H2 k d f Hin Hinf Sk (eq_trans Key Ek)) as [w Hw]. unfold field_means in Hw. rewrite Px in Hw.
          destruct (IH _ _ _ _ _ Ht (Hp _ _ Hin) Hw) as (w' & E & _). revert E. apply ev_imp. intros m E _ _. exists w'. unfold field_means. rewrite Px'. exact E.
        * exfalso. subst k. exact (Hr _ _ Hin Fr).
    - intros k d Hin Hn. apply (members_bal (takes F c G n None) dflt fs ms vs) with (k := k); try assumption.
      + intros t xs v Hv. exact (takes_ignored F c G n None t xs v Hv).
      + split; [exact H1|]. split; [exact H2 | exact H3].
  Qed.

  Lemma null_taken n nx t xs v : no_null Json G t = true -> takes F c G n nx t xs v -> xs <> [XW (chars "null")].
  Proof.
    intros Hn H. destruct n as [|n]; [contradiction|]. cbn [takes] in H.
    assert (Ob : forall ms ys, object_toks ms ys -> ys <> [XW (chars "null")]) by (intros ms ys (ls & zs & _ & _ & ->); discriminate).
    assert (Ar : forall ls ys, array_toks ls ys -> ys <> [XW (chars "null")]) by (intros ls ys (zs & _ & ->); discriminate).
    destruct t; cbn [no_null] in Hn; try discriminate.
    - destruct H as (s & z & -> & _). discriminate.
    - destruct H as (s & z & -> & _). discriminate.
    - destruct H as (s & z & -> & _). discriminate.
    - destruct H as [[-> _]|[-> _]]; discriminate.
    - destruct H as (b & s & -> & _). discriminate.
    - destruct H as (ls & ws & Ha & _). exact (Ar _ _ Ha).
    - destruct H as (es & ws & (ys & _ & ->) & _). discriminate.
    - destruct H as (ls & ws & Ha & _). exact (Ar _ _ Ha).
    - destruct H as (_ & ls & ws & Ha & _). exact (Ar _ _ Ha).
    - destruct H as (s & ns & (ms & a & b & Ho & _) & _). exact (Ob _ _ Ho).
    - destruct (nth_error G n0) as [d|]; [|contradiction]. destruct d as [dflt nul fs|[|] fs|vs|]; try discriminate.
      + destruct H as (ms & ws & Ho & _). exact (Ob _ _ Ho).
      + destruct H as [_ H]. destruct fs as [|f [|f2 fs]]; [destruct H as [-> _]; discriminate | destruct H as (l & w & -> & _); discriminate|].
        destruct H as (ls & ws & Ha & _). exact (Ar _ _ Ha).
      + destruct H as (tag & vr & _ & H). destruct (v_body vr).
        * destruct H as (b & s & -> & _). discriminate.
        * destruct H as (b & ls & ws & ys & -> & _). discriminate.
        * destruct H as (b & ms & ws & ys & -> & _). discriminate.
  Qed.

  Lemma plain_in xs l : incl l xs -> plain xs -> plain l.
  Proof. apply plain_incl. Qed.

  Theorem carries_all n : carries n.
  Proof.
    induction n as [|n IH]; intros t t' nx xs v Ht Hp H; [contradiction|]. revert H.
    induction Ht as [k k' W|k N1 So| | | | | | | |t t' Hn Ht IHt|t t' Ht IHt|t t' Ht IHt|t t' Ht IHt|t t' Ht IHt|k k' t t' K K' Ht IHt|m t t' Ht IHt|m k t t' KJ K Ht IHt|k t t' K|k tk tk' t t' K Ht IHt|ts ts' Ht|p t t' Ht IHt|i]; intro H.
    - cbn [takes] in H. destruct H as (s & z & -> & -> & H). exists (VZ z). split; [|constructor]. exists 1%nat. intros [|m] Hm; [lia|]. cbn [takes].
      exists s, z. split; [reflexivity|]. split; [reflexivity|]. apply (int_wider_lit c so Json fresh k k' s z [XN s]); auto. left. reflexivity.
    - cbn [takes] in H. destruct H as (s & z & -> & -> & H). exists (VF (f64_of_z F z)). split; [|constructor]. exists 1%nat. intros [|m] Hm; [lia|]. cbn [takes].
      exists s, (f64_of_z F z). split; [reflexivity|]. split; [reflexivity|]. apply (num_lit F c so Json fresh k s z [XN s]); auto. left. reflexivity.
    - cbn [takes] in H. destruct H as (s & b & -> & -> & H). eexists. split; [|constructor]. exists 1%nat. intros [|m] Hm; [lia|]. cbn [takes]. eauto.
    - cbn [takes] in H. destruct H as (s & b & -> & -> & H). eexists. split; [|constructor]. exists 1%nat. intros [|m] Hm; [lia|]. cbn [takes]. eauto.
    - cbn [takes] in H. exists v. split; [exists 1%nat; intros [|m] Hm; [lia | exact H] | destruct H as [[_ ->]|[_ ->]]; constructor].
    - cbn [takes] in H. destruct H as (b & s & -> & ->). eexists. split; [|constructor]. exists 1%nat. intros [|m] Hm; [lia|]. cbn [takes]. eauto.
    - cbn [takes] in H. exists v. split; [exists 1%nat; intros [|m] Hm; [lia | exact H] | destruct H as [_ ->]; constructor].
    - cbn [takes] in H. destruct H as (s & ns & H & ->). eexists. split; [|constructor]. exists 1%nat. intros [|m] Hm; [lia|]. cbn [takes]. eauto.
    - cbn [takes] in H. exists v. split; [exists 1%nat; intros [|m] Hm; [lia | exact H]|]. destruct H as [[_ ->]|(s & ns & _ & _ & ->)]; constructor.
    - (* T as Option<T> *) destruct (IHt H) as (v' & E & Hb). exists (VSome v'). split; [|apply bc_some; assumption].
      revert E. apply ev_step. intros m E. cbn [takes]. right. split; [exact (null_taken _ _ _ _ _ Hn H) | eauto].
    - cbn [takes] in H. destruct H as [[-> ->]|(Nn & w & -> & H)].
      + exists VNone. split; [|constructor]. exists 1%nat. intros [|m] Hm; [lia|]. cbn [takes]. left. auto.
      + destruct (IH _ _ _ _ _ Ht Hp H) as (v' & E & Hb). exists (VSome v'). split; [|constructor; exact Hb]. revert E. apply ev_step. intros m E. cbn [takes]. right. eauto.
    - cbn [takes] in H. destruct (IH _ _ _ _ _ Ht Hp H) as (v' & E & Hb). exists v'. split; [|constructor; exact Hb]. revert E. apply ev_step. intros m E. exact E.
    - destruct (IHt H) as (v' & E & Hb). exists v'. split; [|apply bc_boxed; exact Hb]. revert E. apply ev_step. intros m E. exact E.
    - cbn [takes] in H. destruct (IH _ _ _ _ _ Ht Hp H) as (v' & E & Hb). exists v'. split; [exact E | apply bc_unboxed; exact Hb].
    - cbn [takes] in H. destruct H as (ls & ws & Ha & Hf & ->). destruct (f2_new n t t' ls ws IH Ht) as (ws' & E & Hb); [intros l Hl; exact (plain_in _ _ (array_incl _ _ _ Hl Ha) Hp) | exact Hf|].
      exists (VSeq ws'). rewrite (order_seq k ws K). split; [|apply bc_seq; assumption]. revert E. apply ev_step. intros m E. cbn [takes]. exists ls, ws'. rewrite (order_seq k' ws' K'). auto.
    - cbn [takes] in H. destruct H as (ls & ws & Ha & Hl & Hf & ->). destruct (f2_new n t t' ls ws IH Ht) as (ws' & E & Hb); [intros l Hl'; exact (plain_in _ _ (array_incl _ _ _ Hl' Ha) Hp) | exact Hf|].
      exists (VSeq ws'). split; [|apply bc_arr; assumption]. revert E. apply ev_step. intros m' E. cbn [takes]. exists ls, ws'. auto.
    - cbn [takes] in H. destruct H as (ls & ws & Ha & Hl & Hf & ->). destruct (f2_new n t t' ls ws IH Ht) as (ws' & E & Hb); [intros l Hl'; exact (plain_in _ _ (array_incl _ _ _ Hl' Ha) Hp) | exact Hf|].
      exists (VSeq ws'). split; [|apply bc_list; assumption]. revert E. apply ev_step. intros m' E. cbn [takes]. exists ls, ws'. rewrite (order_seq k ws' K). auto.
    - cbn [takes] in H. destruct H as (ls & ws & Ha & Hf & ->). exists (VSeq (seq_of k ws [])). split; [|apply bc_set].
      assert (E : ev (fun m => Forall2 (T' m None t') ls ws)) by (apply (keys_new n t); [exact K | intros l Hl; exact (plain_in _ _ (array_incl _ _ _ Hl Ha) Hp) | exact Hf]).
      revert E. apply ev_step. intros m E. cbn [takes]. exists ls, ws. auto.
    - cbn [takes] in H. destruct H as (es & ws & (ys & Hl & ->) & Hf & ->).
      assert (Pe : forall e, In e es -> plain (fst e) /\ plain (snd e)).
      { intros e He. assert (I : incl (fst e ++ xcolon :: snd e) (in_curly ys)).
        { intros a Ha. apply between_incl. refine (listed_incl _ _ _ _ Hl a Ha). apply in_map_iff. exists e. auto. }
        split; (refine (plain_in _ _ _ Hp); intros a Ha; apply I, in_or_app); [left; exact Ha | right; right; exact Ha]. }
      assert (V : exists ws', ev (fun m => Forall2 (fun e w => T' m None tk' (fst e) (fst w) /\ T' m None t' (snd e) (snd w)) es ws') /\ Forall2 (same_key (B t t')) ws ws').
      { assert (V : exists ws', Forall2 (fun e w => ev (fun m => T' m None tk' (fst e) (fst w) /\ T' m None t' (snd e) (snd w))) es ws' /\ Forall2 (same_key (B t t')) ws ws').
        { clear Hl IHt. induction Hf as [|e [x y] es ws [H1 H2] Hf IHf]; [exists []; split; constructor|]. cbn [fst snd] in *.
          destruct (Pe e (or_introl eq_refl)) as [P1 P2]. destruct (IHf (fun e He => Pe e (or_intror He))) as (ws' & E1 & E2).
          pose proof (key_new n tk tk' None _ _ K P1 H1) as Ek. destruct (IH _ _ _ _ _ Ht P2 H2) as (y' & Ey & Hb).
          exists ((x, y') :: ws'). split; constructor; auto; [cbn [fst snd]; apply ev_and; assumption | split; [reflexivity | exact Hb]]. }
        destruct V as (ws' & V1 & V2). exists ws'. split; [apply ev_f2, V1 | exact V2]. }
      destruct V as (ws' & E & Hb). exists (VMap (map_of k ws' [])). split; [|apply bc_map; exact (map_of_same _ k _ _ Hb)].
      revert E. apply ev_step. intros m E. cbn [takes]. exists es, ws'. split; [exists ys; auto | auto].
    - cbn [takes] in H. destruct H as (Hlen & ls & ws & Ha & Hf & ->). destruct (tuple_new n ts ts' ls ws IH Ht) as (ws' & E & Hb); [intros l Hl'; exact (plain_in _ _ (array_incl _ _ _ Hl' Ha) Hp) | exact Hf|].
      exists (VSeq ws'). split; [|apply bc_tup; exact Hb]. revert E. apply ev_step. intros m E. cbn [takes].
      assert (El : length ts' = length ts) by (clear -Ht; induction Ht; cbn; congruence). rewrite El. split; [exact Hlen|]. exists ls, ws'. auto.
    - cbn [takes] in H. destruct H as (w & H & ->). destruct (IH _ _ _ _ _ Ht Hp H) as (w' & E & Hb). exists (p_from p w'). split; [|apply bc_proxy; exact Hb].
      revert E. apply ev_step. intros m E. cbn [takes]. eauto.
    - cbn [takes] in H. destruct (nth_error G i) as [d|] eqn:Ei; [|contradiction]. destruct (HN i d Ei) as (d' & Ei' & Hd).
      destruct d as [dflt nul fs|tr fs|vs|p t]; destruct d' as [dflt' nul' fs'|tr' fs'|vs'|p' t']; cbn [decl_newer] in Hd; try contradiction.
      + destruct H as (ms & vs & Ho & -> & Hf & Hi).
        destruct (fields_new n dflt dflt' fs fs' ms vs IH Hd) as (vs' & E & Hi' & Hb); try assumption.
        * intros k d Hin. exact (plain_in _ _ (proj1 (object_parts _ _ _ _ Hin Ho)) Hp).
        * intros k d Hin. destruct (proj2 (object_parts _ _ _ _ Hin Ho)) as [b Hb]. exact (proj1 Hp eq_refl b k Hb).
        * exists (VSeq vs'). split; [|eapply bc_struct; eassumption]. revert E. apply ev_step. intros m E. cbn [takes]. rewrite Ei'. exists ms, vs'. auto.
      + destruct Hd as (<- & Px & Hf). destruct H as [_ H].
        assert (Hts : Forall2 newer (map f_ty fs) (map f_ty fs')) by (clear -Hf; induction Hf; constructor; assumption).
        destruct Hf as [|f f' fs fs' Hf1 Hf].
        * destruct H as [-> ->]. exists (VSeq []). split; [|apply (bc_tuple F Json fresh G G' i tr [] [] [] [] Ei Ei'); constructor]. exists 1%nat. intros [|m] Hm; [lia|]. cbn [takes]. rewrite Ei'. auto.
        * destruct Hf as [|f2 f2' fs fs' Hf2 Hf].
          -- destruct tr.
             ++ destruct H as (w & H & ->). destruct (IH _ _ _ _ _ Hf1 Hp H) as (w' & E & Hb). exists (VSeq [w']). split; [|exact (bc_tuple F Json fresh G G' i true [f] [f'] _ _ Ei Ei' (each_cons _ _ _ _ _ _ _ _ _ Hb (each_nil _)))].
                revert E. apply ev_step. intros m E. cbn [takes]. rewrite Ei'. split; [exact Px | exists w'; auto].
             ++ destruct H as (l & w & -> & H & ->). destruct (IH _ _ _ _ _ Hf1 (plain_in _ _ (between_incl _ _ _) Hp) H) as (w' & E & Hb). exists (VSeq [w']). split; [|exact (bc_tuple F Json fresh G G' i false [f] [f'] _ _ Ei Ei' (each_cons _ _ _ _ _ _ _ _ _ Hb (each_nil _)))].
                revert E. apply ev_step. intros m E. cbn [takes]. rewrite Ei'. split; [exact Px | exists l, w'; auto].
          -- assert (H' : exists ls ws, array_toks ls xs /\ tuple_means (takes F c G n None) (map f_ty (f :: f2 :: fs)) ls ws /\ v = VSeq ws) by (destruct tr; exact H).
             destruct H' as (ls & ws & Ha & Ht & ->). destruct (tuple_new n _ _ ls ws IH Hts) as (ws' & E & Hb); [intros l Hl'; exact (plain_in _ _ (array_incl _ _ _ Hl' Ha) Hp) | exact Ht|].
             exists (VSeq ws'). split; [|apply (bc_tuple F Json fresh G G' i tr _ _ _ _ Ei Ei'); exact Hb]. revert E. apply ev_step. intros m E. cbn [takes]. rewrite Ei'. split; [exact Px|].
             destruct tr; exists ls, ws'; auto.
      + destruct H as (tag & vr & Hv & H). rewrite Forall_forall in Hd. destruct (Hd vr (nth_error_In _ _ Hv)) as (vr' & Hin & Key & Hbd).
        apply In_nth_error in Hin as [tag' Hv']. destruct (v_body vr) as [|ts|fs] eqn:Eb; destruct (v_body vr') as [|ts'|fs'] eqn:Eb'; cbn [body_newer] in Hbd; try contradiction.
        * destruct H as (b & s & -> & -> & Hk). exists (VEnum (N.of_nat tag') []). split; [|eapply bc_unit_variant; eassumption].
          exists 1%nat. intros [|m] Hm; [lia|]. cbn [takes]. rewrite Ei'. exists tag', vr'. split; [exact Hv'|]. rewrite Eb'. exists b, s. rewrite <- Key. auto.
        * destruct H as (b & ls & ws & ys & -> & Ha & Ht & ->).
          destruct (tuple_new n _ _ ls ws IH Hbd) as (ws' & E & Hb); [intros l Hl'; refine (plain_in _ _ _ Hp); exact (incl_tran (array_incl _ _ _ Hl' Ha) (wrap_incl _ _ _)) | exact Ht|].
          exists (VEnum (N.of_nat tag') ws'). split; [|eapply bc_tuple_variant; eassumption]. revert E. apply ev_step. intros m E. cbn [takes]. rewrite Ei'.
          exists tag', vr'. split; [exact Hv'|]. rewrite Eb'. exists b, ls, ws', ys. rewrite <- Key. auto.
        * destruct H as (b & ms & ws & ys & -> & Ho & Hf & Hi & ->).
          destruct (fields_new n false false fs fs' ms ws IH Hbd) as (ws' & E & Hi' & Hb); try assumption.
          -- intros k d Hk. refine (plain_in _ _ _ Hp). exact (incl_tran (proj1 (object_parts _ _ _ _ Hk Ho)) (wrap_incl _ _ _)).
          -- intros k d Hk. destruct (proj2 (object_parts _ _ _ _ Hk Ho)) as [b' Hb']. apply (proj1 Hp eq_refl b' k). exact (wrap_incl _ _ _ _ Hb').
          -- exists (VEnum (N.of_nat tag') ws'). split; [|eapply bc_struct_variant; eassumption]. revert E. apply ev_step. intros m E. cbn [takes]. rewrite Ei'.
             exists tag', vr'. split; [exact Hv'|]. rewrite Eb'. exists b, ms, ws', ys. rewrite <- Key. auto.
      + destruct Hd as [<- Ht]. destruct H as (w & H & ->). destruct (IH _ _ _ _ _ Ht Hp H) as (w' & E & Hb). exists (p_from p w'). split; [|eapply bc_dproxy; eassumption].
        revert E. apply ev_step. intros m E. cbn [takes]. rewrite Ei'. eauto.
  Qed.
End Main.
