(** The size of what is read from bytes, for SpecMem.v. *)
From Verif Require Import Base Utf8 Types TyAll BinModel BinRead BinLocal BinMore SpecMem PropsBin.
Local Open Scope N_scope.

(** ** Adding to collections *)
Definition tot (m : val -> N) (l : list val) : N := fold_right (fun w n => m w + n) 0 l.
Definition tot2 (m : val -> N) (l : list (val * val)) : N := fold_right (fun e n => m (fst e) + m (snd e) + n) 0 l.
Lemma tot_cons m x l : tot m (x :: l) = m x + tot m l.
Proof. reflexivity. Qed.
Lemma tot2_cons m x y l : tot2 m ((x, y) :: l) = m x + m y + tot2 m l.
Proof. reflexivity. Qed.
Lemma tot_app m l1 l2 : tot m (l1 ++ l2) = tot m l1 + tot m l2.
Proof. induction l1 as [|x l1 IH]; cbn; [reflexivity|]. fold (tot m (l1 ++ l2)) (tot m l1). rewrite IH. lia. Qed.
Lemma tot_add m k x l : tot m (seq_add k x l) <= tot m l + m x.
Proof.
  destruct k; cbn [seq_add].
  - rewrite tot_app. cbn. lia.
  - rewrite tot_app. cbn. lia.
  - induction l as [|y l IH]; cbn [hset_insert]; [rewrite tot_cons; lia|]. destruct (val_eqb x y); rewrite ?tot_cons in *; lia.
  - induction l as [|y l IH]; cbn [bset_insert]; [rewrite tot_cons; lia|]. destruct (val_cmp x y); rewrite ?tot_cons in *; lia.
Qed.
Lemma tot2_add m k x y l : tot2 m (map_add k x y l) <= tot2 m l + (m x + m y).
Proof.
  destruct k; cbn [map_add].
  - induction l as [|[x' y'] l IH]; cbn [hmap_insert]; [rewrite tot2_cons; lia|]. destruct (val_eqb x x'); rewrite ?tot2_cons in *; lia.
  - induction l as [|[x' y'] l IH]; cbn [bmap_insert]; [rewrite tot2_cons; lia|]. destruct (val_cmp x x'); rewrite ?tot2_cons in *; lia.
Qed.
Lemma tot_seq_of m k l : forall acc, tot m (seq_of k l acc) <= tot m acc + tot m l.
Proof.
  induction l as [|x l IH]; intro acc; [unfold seq_of, tot; cbn [fold_left fold_right]; lia|]. unfold seq_of in *. cbn [fold_left]. specialize (IH (seq_add k x acc)).
  pose proof (tot_add m k x acc). cbn [tot fold_right]. fold (tot m l). lia.
Qed.
Lemma tot2_map_of m k l : forall acc, tot2 m (map_of k l acc) <= tot2 m acc + tot2 m l.
Proof.
  induction l as [|[x y] l IH]; intro acc; [unfold map_of, tot2; cbn [fold_left fold_right]; lia|]. unfold map_of in *. cbn [fold_left fst snd]. specialize (IH (map_add k x y acc)).
  pose proof (tot2_add m k x y acc). cbn [tot2 fold_right fst snd]. fold (tot2 m l). lia.
Qed.
Lemma utf8_len l s : utf8_dec l = Some s -> lenN s <= lenN l.
Proof.
  unfold lenN. remember (length l) as k eqn:Ek. assert (Hk : (length l <= k)%nat) by lia. rewrite Ek. clear Ek. revert l s Hk.
  induction k as [|k IH]; intros l s Hk Hd; [destruct l; [|cbn in Hk; lia]; injection Hd as <-; cbn; lia|].
  assert (Hstep : forall x r, option_map (cons x) (utf8_dec r) = Some s -> (length r <= k)%nat -> (length s <= S (length r))%nat).
  { intros x r Ho Hl. destruct (utf8_dec r) as [s'|] eqn:Er; [|discriminate]. injection Ho as <-. specialize (IH r s' Hl Er). cbn [length]. lia. }
  destruct l as [|b0 r0]; [injection Hd as <-; cbn; lia|]. cbn [utf8_dec] in Hd. cbn [length] in *.
  destruct (b0 <? 0x80); [apply Hstep in Hd; lia|]. destruct (b0 <? 0xC0); [discriminate|].
  destruct r0 as [|b1 r1]; [discriminate|]. destruct (negb (contb b1)); [discriminate|]. cbn [length] in *. cbv zeta in Hd.
  destruct (b0 <? 0xE0); [destruct (_ <? 0x80); [discriminate|]; apply Hstep in Hd; lia|].
  destruct r1 as [|b2 r2]; [discriminate|]. destruct (negb (contb b2)); [discriminate|]. cbn [length] in *.
  destruct (b0 <? 0xF0); [destruct (_ || _); [discriminate|]; apply Hstep in Hd; lia|].
  destruct r2 as [|b3 r3]; [discriminate|]. destruct (negb (contb b3)); [discriminate|]. cbn [length] in *.
  destruct (b0 <? 0xF8); [|discriminate]. destruct (_ || _); [discriminate|]; apply Hstep in Hd; lia.
Qed.

(** ** What a read costs *)
Section Cost.
  Variable c : cfg.
  Hypothesis Hc : cfg_ok c.
  Variable K : Z.
  Hypothesis HK : (0 <= K)%Z.

  (** The weight of the result is paid for by the bytes read, at [K] a byte. *)
  Definition Costs {A} (w : A -> Z) (m : list N -> bm A) : Prop :=
    forall d o o' a, slice_fits c (lenN d) -> o <= lenN d -> m d o = (o', Ok a) ->
      o <= o' /\ o' <= lenN d /\ (w a <= K * Z.of_N (o' - o))%Z.
  Lemma cost_ret {A} (w : A -> Z) (a : A) : (w a <= 0)%Z -> Costs w (fun _ => bret a).
  Proof. intros Hw d o o' a' Hf Ho H. injection H as <- <-. rewrite N.sub_diag. lia. Qed.
  Lemma cost_fail {A} (w : A -> Z) (r : res berr A) : (forall a, r <> Ok a) -> Costs w (fun _ => bfail r).
  Proof. intros Hr d o o' a Hf Ho H. unfold bfail in H. inversion H; subst. exfalso. eapply Hr; eauto. Qed.
  Lemma cost_bind {A B} (w1 : A -> Z) (w : B -> Z) (m : list N -> bm A) (f : list N -> A -> bm B) :
    Costs w1 m -> (forall a, Costs (fun b => w b - w1 a)%Z (fun d => f d a)) -> Costs w (fun d => bbind (m d) (f d)).
  Proof.
    intros Hm Hk d o o' b Hf Ho H. unfold bbind in H. destruct (m d o) as [o1 [a|e|p|]] eqn:E; try discriminate.
    destruct (Hm _ _ _ _ Hf Ho E) as (L1 & L2 & L3). destruct (Hk a _ _ _ _ Hf L2 H) as (L4 & L5 & L6).
    split; [lia|]. split; [lia|]. replace (Z.of_N (o' - o)) with (Z.of_N (o1 - o) + Z.of_N (o' - o1))%Z by lia. rewrite Z.mul_add_distr_l. lia.
  Qed.
  Lemma cost_weaken {A} (w1 w : A -> Z) (m : list N -> bm A) : Costs w1 m -> (forall a, (w a <= w1 a)%Z) -> Costs w m.
  Proof. intros Hm Hw d o o' a Hf Ho H. destruct (Hm _ _ _ _ Hf Ho H) as (L1 & L2 & L3). specialize (Hw a). lia. Qed.
  Lemma cost_map {A B} (g : A -> B) (w : B -> Z) (m : list N -> bm A) : Costs (fun a => w (g a)) m -> Costs w (fun d => bmap g (m d)).
  Proof. intro H. apply (cost_bind (fun a => w (g a)) w m (fun _ a => bret (g a)) H). intro a. apply cost_ret. lia. Qed.
  Lemma cost_ext {A} (w : A -> Z) (m1 m2 : list N -> bm A) : (forall d o, m2 d o = m1 d o) -> Costs w m1 -> Costs w m2.
  Proof. intros E H d o o' a Hf Ho Hr. rewrite E in Hr. exact (H _ _ _ _ Hf Ho Hr). Qed.
  Lemma cost_fixed w : w <= 16 -> Costs (fun _ => K * Z.of_N w)%Z (fun d => rd_fixed c d w).
  Proof.
    intros Hw d o o' a Hf Ho H. assert (Hu := slice_fits_usize c _ Hc Hf). unfold rd_fixed in H. rewrite usize_add_ok in H by lia.
    destruct (N.ltb_spec (lenN d) (o + w)); [discriminate|]. destruct (N.ltb_spec (o + w) o); [discriminate|]. injection H as <- _.
    replace (o + w - o) with w by lia. lia.
  Qed.
  Lemma cost_usize : Costs (fun _ => K * 8)%Z (fun d => rd_usize c d).
  Proof.
    intros d o o' a Hf Ho H. assert (Hu := slice_fits_usize c _ Hc Hf). unfold rd_usize in H. rewrite usize_add_ok in H by lia.
    destruct (N.leb_spec o (o + 8)); [|lia]. destruct (N.leb_spec (o + 8) (lenN d)); [|discriminate]. cbn [andb] in H. injection H as <- _.
    replace (o + 8 - o) with 8 by lia. lia.
  Qed.
  Lemma cost_str : Costs (fun s => K * (8 + Z.of_N (lenN s)))%Z (fun d => rd_str c d).
  Proof.
    intros d o o' s Hf Ho H. destruct (Local_str c Hc d o o' s Hf Ho H) as (L1 & L2 & _). split; [exact L1|]. split; [exact L2|].
    unfold rd_str, bbind in H. destruct (rd_usize c d o) as [o1 [len|e|p|]] eqn:E; try discriminate.
    destruct (cost_usize _ _ _ _ Hf Ho E) as (L3 & L4 & _). pose proof (rd_usize_bound c _ _ _ _ E) as Hlen.
    assert (E1 : o1 = o + 8).
    { assert (Hu := slice_fits_usize c _ Hc Hf). unfold rd_usize in E. rewrite usize_add_ok in E by lia. destruct (_ && _); [|discriminate]. injection E as <- _. reflexivity. }
    destruct (usize_add c o1 len) as [e|e|p|] eqn:Ea; try discriminate.
    destruct (N.ltb_spec (lenN d) e); [discriminate|]. destruct (N.ltb_spec e o1); [discriminate|].
    assert (Hu := slice_fits_usize c _ Hc Hf). apply usize_add_cases in Ea as [->|[? _]]; [|lia|lia|assumption].
    destruct (utf8_dec (slice o1 len d)) as [s'|] eqn:Eu; [|discriminate]. injection H as <- ->.
    apply utf8_len in Eu. rewrite slice_length in Eu by lia.
    assert (Z.of_N (o1 + len - o) = 8 + Z.of_N len)%Z by lia. apply Z.mul_le_mono_nonneg_l; lia.
  Qed.
  Lemma cost_capacity t len : Costs (fun _ => 0)%Z (fun _ => with_capacity c t len).
  Proof. unfold with_capacity. destruct (len <=? alloc_max c t); [apply cost_ret; lia | apply cost_fail; discriminate]. Qed.
  Lemma cost_iter {A} (w : A -> Z) (step : list N -> A -> bm A) k :
    (forall a, Costs (fun b => w b - w a)%Z (fun d => step d a)) ->
    forall a, Costs (fun b => w b - w a)%Z (fun d o => iter_nat_m (fun o a => step d a o) k o a).
  Proof.
    intro Hs. induction k as [|k IH]; intro a.
    - cbn [iter_nat_m]. apply (cost_ret (fun b => w b - w a)%Z a). lia.
    - eapply cost_ext; [|apply (cost_bind (fun b => w b - w a)%Z (fun b => w b - w a)%Z (fun d => step d a) (fun d a' o => iter_nat_m (fun o a => step d a o) k o a') (Hs a))].
      + intros d o. cbn [iter_nat_m]. unfold seq2, bbind. destruct (step d a o) as [o' [a'|e|p|]]; reflexivity.
      + intro a'. eapply cost_weaken; [apply IH|]. intro b. cbv beta. lia.
  Qed.
  Lemma cost_dur (w : val -> Z) : (forall s ns, w (VDur s ns) <= K * 12)%Z -> Costs w (fun d => rd_dur c d).
  Proof.
    intro Hw. unfold rd_dur. apply (cost_bind (fun _ => K * Z.of_N 8)%Z _ (fun d => rd_fixed c d 8) (fun d bs => bbind _ (fun bn => let ns := of_le bn in _))); [apply cost_fixed; lia|]. intro bs.
    apply (cost_bind (fun _ => K * Z.of_N 4)%Z _ (fun d => rd_fixed c d 4) (fun d bn => let ns := of_le bn in _)); [apply cost_fixed; lia|].
    intro bn. cbv beta zeta. destruct (1000000000 <? of_le bn).
    - intros d o o' a _ _ H. discriminate.
    - unfold duration_new. destruct (of_le bn <? 1000000000); [apply cost_ret|destruct (_ <? 2 ^ 64); [apply cost_ret | apply cost_fail; discriminate]].
      + specialize (Hw (of_le bs) (of_le bn)). lia.
      + match goal with |- (w (VDur ?a ?b) - _ - _ <= _)%Z => specialize (Hw a b) end. lia.
  Qed.
  Lemma cost_time (w : val -> Z) : (forall s ns, w (VTime s ns) <= K)%Z -> Costs w (fun d => rd_time c d).
  Proof.
    intro Hw. unfold rd_time. apply (cost_bind (fun _ => K * Z.of_N 1)%Z _ (fun d => rd_fixed c d 1) (fun d b => _)); [apply cost_fixed; lia|].
    intro b. cbv beta. destruct (of_le b =? 1); [|apply cost_ret; specialize (Hw 0%Z 0); lia].
    apply (cost_bind (fun _ => 0)%Z _ (fun d => rd_dur c d) (fun d v => _)); [apply cost_dur; lia|].
    intro v. cbv beta. destruct v; try (apply cost_fail; discriminate). destruct (secs <=? time_max c); [apply cost_ret; specialize (Hw (Z.of_N secs) nanos); lia | apply cost_fail; discriminate].
  Qed.

  (** *** Lists of values; [u] is what one value weighs. *)
  Section Lists.
    Variable de : list N -> ty -> bm val.
    Variable m : val -> N.
    Notation w := (fun v => Z.of_N (m v)).
    Notation ws := (fun l => Z.of_N (tot m l)).
    Lemma cost_items k t len : Costs w (fun d => de d t) -> Costs ws (fun d => de_items (de d) k t len).
    Proof.
      intro H. unfold de_items. eapply cost_ext; [intros d o; rewrite iter_N_nat; reflexivity|].
      eapply cost_weaken; [apply (cost_iter ws (fun d acc => bbind (de d t) (fun v => bret (seq_add k v acc))))|].
      - intro acc. apply (cost_map (fun v => seq_add k v acc)). eapply cost_weaken; [exact H|]. intro v. pose proof (tot_add m k v acc). cbv beta. lia.
      - intro b. cbv beta. cbn. lia.
    Qed.
    Lemma cost_entries k tk tv len wk wv : Costs (fun v => Z.of_N (m v) + wk)%Z (fun d => de d tk) -> Costs (fun v => Z.of_N (m v) + wv)%Z (fun d => de d tv) ->
      (0 <= wk + wv)%Z ->
      Costs (fun l => Z.of_N (tot2 m l)) (fun d => de_entries (de d) k tk tv len).
    Proof.
      intros H1 H2 Hw. unfold de_entries. eapply cost_ext; [intros d o; rewrite iter_N_nat; reflexivity|].
      eapply cost_weaken; [apply (cost_iter (fun l => Z.of_N (tot2 m l)) (fun d acc => bbind (de d tk) (fun x => bbind (de d tv) (fun y => bret (map_add k x y acc)))))|].
      - intro acc. apply (cost_bind (fun v => Z.of_N (m v) + wk)%Z _ (fun d => de d tk) (fun d x => _) H1). intro x. cbv beta.
        apply (cost_map (fun y => map_add k x y acc)). eapply cost_weaken; [exact H2|]. intro y. pose proof (tot2_add m k x y acc). cbv beta. lia.
      - intro b. cbn. lia.
    Qed.
    Lemma cost_rep n t e : Costs (fun v => Z.of_N (m v) - e)%Z (fun d => de d t) -> Costs (fun l => Z.of_N (tot m l) - Z.of_nat n * e)%Z (fun d => de_rep (de d) n t).
    Proof.
      intro H. induction n as [|n IH]; cbn [de_rep]; [apply cost_ret; cbn; lia|].
      apply (cost_bind (fun v => Z.of_N (m v) - e)%Z _ (fun d => de d t) (fun d v => _) H). intro v.
      apply (cost_map (cons v)). eapply cost_weaken; [exact IH|]. intro l. cbv beta. cbn [tot fold_right]. fold (tot m l). lia.
    Qed.
    Definition sumz (es : list Z) : Z := fold_right Z.add 0%Z es.
    Lemma cost_tys ts es : Forall2 (fun t e => Costs (fun v => Z.of_N (m v) - e)%Z (fun d => de d t)) ts es -> Costs (fun l => Z.of_N (tot m l) - sumz es)%Z (fun d => de_tys (de d) ts).
    Proof.
      induction 1 as [|t e ts es H Hs IH]; cbn [de_tys]; [apply cost_ret; cbn; lia|].
      apply (cost_bind (fun v => Z.of_N (m v) - e)%Z _ (fun d => de d t) (fun d v => _) H). intro v.
      apply (cost_map (cons v)). eapply cost_weaken; [exact IH|]. intro l. cbv beta. cbn [tot fold_right sumz]. fold (tot m l) (sumz es). lia.
    Qed.
    Lemma cost_fields hs fs es :
      Forall2 (fun f e => if hs && f_skip f then (Z.of_N (m (f_tydefault f)) <= e)%Z else Costs (fun v => Z.of_N (m v) - e)%Z (fun d => de d (f_ty f))) fs es ->
      Costs (fun l => Z.of_N (tot m l) - sumz es)%Z (fun d => de_fields (de d) hs fs).
    Proof.
      induction 1 as [|f e fs es H Hs IH]; cbn [de_fields]; [apply cost_ret; cbn; lia|].
      apply (cost_bind (fun v => Z.of_N (m v) - e)%Z _ (fun d => if hs && f_skip f then bret (f_tydefault f) else de d (f_ty f)) (fun d v => _)).
      - destruct (hs && f_skip f); [apply cost_ret; lia | exact H].
      - intro v. apply (cost_map (cons v)). eapply cost_weaken; [exact IH|]. intro l. cbv beta. cbn [tot fold_right sumz]. fold (tot m l) (sumz es). lia.
    Qed.
  End Lists.
End Cost.
