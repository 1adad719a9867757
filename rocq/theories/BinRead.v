(** Basic facts about the binary primitives: little endian, fixed-width reads,
    and the compositional notion "reads exactly these bytes". *)
From Verif Require Import Base Utf8 Types BinModel.
Local Open Scope N_scope.
Ltac Zify.zify_post_hook ::= Z.div_mod_to_equations.

Definition bytes_ok (l : list N) : Prop := Forall (fun b => b < 256) l.

(** ** Little endian *)
Lemma le_bytes_length w n : length (le_bytes w n) = w.
Proof. revert n; induction w as [|w IH]; intro n; simpl; [reflexivity|]. rewrite IH. reflexivity. Qed.

Lemma lenN_le w n : lenN (le_bytes w n) = N.of_nat w.
Proof. unfold lenN. rewrite le_bytes_length. reflexivity. Qed.

Lemma le_bytes_ok w n : bytes_ok (le_bytes w n).
Proof.
  revert n; induction w as [|w IH]; intro n; simpl; constructor; [|apply IH].
  apply N.mod_lt. lia.
Qed.

Lemma of_le_le_bytes w n : n < 256 ^ N.of_nat w -> of_le (le_bytes w n) = n.
Proof.
  revert n; induction w as [|w IH]; intros n H.
  - simpl in *. lia.
  - cbn [le_bytes of_le]. rewrite IH.
    + rewrite N.add_comm. symmetry. rewrite N.mul_comm at 1. rewrite (N.mul_comm _ 256). apply N.div_mod. lia.
    + replace (N.of_nat (S w)) with (N.succ (N.of_nat w)) in H by lia.
      rewrite N.pow_succ_r' in H. apply N.div_lt_upper_bound; lia.
Qed.

Lemma of_le_bound l : bytes_ok l -> of_le l < 256 ^ lenN l.
Proof.
  induction 1 as [|b l Hb Hl IH]; [simpl; lia|].
  cbn [of_le]. rewrite lenN_cons, N.add_1_l, N.pow_succ_r'. lia.
Qed.

Lemma le_bytes_of_le l : bytes_ok l -> le_bytes (length l) (of_le l) = l.
Proof.
  induction 1 as [|b l Hb Hl IH]; [reflexivity|].
  cbn [length le_bytes of_le].
  replace ((b + 256 * of_le l) mod 256) with b by lia.
  replace ((b + 256 * of_le l) / 256) with (of_le l) by lia.
  rewrite IH. reflexivity.
Qed.

Lemma pow_256 w : 256 ^ N.of_nat w = 2 ^ (8 * N.of_nat w).
Proof. rewrite N.pow_mul_r. reflexivity. Qed.

Lemma zpow_N a b : (Z.of_N a ^ Z.of_N b)%Z = Z.of_N (a ^ b).
Proof. rewrite N2Z.inj_pow. reflexivity. Qed.

(** Two's complement round trip. *)
Lemma to_bits_lt w z : to_bits w z < 256 ^ N.of_nat w.
Proof.
  unfold to_bits. rewrite pow_256.
  apply N2Z.inj_lt. rewrite N2Z.inj_pow, N2Z.inj_mul, nat_N_Z.
  rewrite Z2N.id; [|apply Z.mod_pos_bound; lia]. apply Z.mod_pos_bound. lia.
Qed.

Lemma of_bits_to_bits c k z :
  k <> Usize -> int_ok c k z -> of_bits k (to_bits (ik_bytes k) z) = z.
Proof.
  intros Hk H. unfold of_bits, to_bits, int_ok, ik_min, ik_sup in *.
  rewrite Z2N.id by (apply Z.mod_pos_bound; lia).
  destruct k; try congruence; cbn [ik_signed ik_bytes andb Z.of_nat Pos.of_succ_nat Pos.succ Z.mul Z.sub] in *;
    match goal with
    | |- context [(?a <=? ?b)%Z] => destruct (Z.leb_spec a b)
    | _ => idtac
    end; lia.
Qed.

Lemma to_bits_of_bits c k n :
  k <> Usize -> n < 256 ^ N.of_nat (ik_bytes k) ->
  int_ok c k (of_bits k n) /\ to_bits (ik_bytes k) (of_bits k n) = n.
Proof.
  intros Hk H. unfold of_bits, to_bits, int_ok, ik_min, ik_sup in *.
  destruct k; try congruence; cbn [ik_signed ik_bytes andb Z.of_nat Pos.of_succ_nat Pos.succ Z.mul Z.sub N.of_nat] in *;
    match goal with
    | |- context [(?a <=? ?b)%Z] => destruct (Z.leb_spec a b)
    | _ => idtac
    end;
   match type of H with _ < ?x => let y := eval vm_compute in x in change x with y in H end;
   lia.
Qed.

(** ** "Writes exactly these bytes" and "reads exactly these bytes" *)
Definition Writes (w : list N -> sres) (bs : list N) : Prop :=
  forall out, w out = Ok (out ++ bs).

(** [Reads c m bs a]: wherever the bytes [bs] stand in an input, reading with
    [m] at their start gives [a] and moves the offset just behind them; and if
    the input ends inside [bs], the outcome is an error. *)
Definition Reads (c : cfg) {A} (m : list N -> bm A) (bs : list N) (a : A) : Prop :=
  (forall pre post, slice_fits c (lenN (pre ++ bs ++ post)) ->
     m (pre ++ bs ++ post) (lenN pre) = (lenN pre + lenN bs, Ok a)) /\
  (forall pre p q, bs = p ++ q -> q <> [] -> slice_fits c (lenN (pre ++ bs)) ->
     exists o e, m (pre ++ p) (lenN pre) = (o, Err e)).

Lemma Writes_bind w1 w2 b1 b2 :
  Writes w1 b1 -> Writes w2 b2 -> Writes (fun o => rbind (w1 o) w2) (b1 ++ b2).
Proof. intros H1 H2 out. rewrite H1. simpl. rewrite H2, app_assoc. reflexivity. Qed.
Lemma Writes_emit b : Writes (emit b) b.
Proof. intro; reflexivity. Qed.
Lemma Writes_ok : Writes (fun o => Ok o) [].
Proof. intro; rewrite app_nil_r; reflexivity. Qed.

Lemma Reads_ret c {A} (a : A) : Reads c (fun _ => bret a) [] a.
Proof.
  split.
  - intros pre post _. unfold bret. rewrite lenN_nil, N.add_0_r. reflexivity.
  - intros pre p q H Hq. symmetry in H. apply app_eq_nil in H as [_ ->]. congruence.
Qed.

Lemma app_split {A} (b1 b2 p q : list A) :
  b1 ++ b2 = p ++ q ->
  (exists q1, b1 = p ++ q1 /\ q1 <> []) \/ (exists p2, p = b1 ++ p2 /\ b2 = p2 ++ q).
Proof.
  revert p; induction b1 as [|x b1 IH]; intros p H; simpl in *.
  - right. exists p. auto.
  - destruct p as [|y p]; simpl in *.
    + left. exists (x :: b1). split; [reflexivity|discriminate].
    + inversion H; subst. destruct (IH p H2) as [(q1 & -> & Hq)|(p2 & -> & ->)].
      * left. exists q1. auto.
      * right. exists p2. auto.
Qed.

Lemma slice_fits_le c a b : a <= b -> slice_fits c b -> slice_fits c a.
Proof. unfold slice_fits. lia. Qed.

Lemma Reads_bind c {A B} (m : list N -> bm A) (f : list N -> A -> bm B) b1 b2 a b :
  Reads c m b1 a -> Reads c (fun d => f d a) b2 b ->
  Reads c (fun d => bbind (m d) (f d)) (b1 ++ b2) b.
Proof.
  intros [H1 H1'] [H2 H2']. split.
  - intros pre post Hf. unfold bbind.
    rewrite <- app_assoc in *. rewrite H1 by assumption.
    specialize (H2 (pre ++ b1) post). rewrite <- app_assoc in H2.
    rewrite (lenN_app pre b1) in H2. rewrite H2 by assumption.
    rewrite (lenN_app b1 b2), N.add_assoc. reflexivity.
  - intros pre p q He Hq Hf. unfold bbind.
    apply app_split in He as [(q1 & -> & Hq1)|(p2 & -> & ->)].
    + destruct (H1' pre p q1 eq_refl Hq1) as (o & e & ->); eauto.
      eapply slice_fits_le; [|exact Hf]. rewrite ?lenN_app. lia.
    + specialize (H1 pre p2). rewrite H1.
      * destruct (H2' (pre ++ b1) p2 q eq_refl Hq) as (o & e & He).
        { rewrite <- app_assoc. assumption. }
        rewrite (lenN_app pre b1), <- app_assoc in He. eauto.
      * eapply slice_fits_le; [|exact Hf]. rewrite ?lenN_app. lia.
Qed.

Lemma Reads_map c {A B} (g : A -> B) (m : list N -> bm A) bs a :
  Reads c m bs a -> Reads c (fun d => bmap g (m d)) bs (g a).
Proof.
  intro H. rewrite <- (app_nil_r bs).
  apply (Reads_bind c m (fun _ x => bret (g x)) bs [] a (g a) H). apply Reads_ret.
Qed.

Lemma Reads_ext c {A} (m1 m2 : list N -> bm A) bs a :
  (forall d o, m1 d o = m2 d o) -> Reads c m1 bs a -> Reads c m2 bs a.
Proof.
  intros E [H1 H2]. split.
  - intros. rewrite <- E. auto.
  - intros pre p q A1 A2 A3. destruct (H2 pre p q A1 A2 A3) as (o & e & H). rewrite E in H. eauto.
Qed.

Lemma Reads_ext_r c {A} (m1 m2 : list N -> bm A) bs a :
  (forall d o, m2 d o = m1 d o) -> Reads c m1 bs a -> Reads c m2 bs a.
Proof. intros E. apply Reads_ext. intros; symmetry; apply E. Qed.

Lemma usize_add_ok {E} c a b : a + b < usize_mod c -> @usize_add E c a b = Ok (a + b).
Proof. intro H. unfold usize_add. destruct (N.ltb_spec (a + b) (usize_mod c)); [reflexivity|lia]. Qed.

Lemma slice_fits_usize c n : cfg_ok c -> slice_fits c n -> n + 16 < usize_mod c /\ n < usize_mod c.
Proof.
  unfold cfg_ok, slice_fits, usize_mod. intros [E|E]; rewrite E; simpl.
  - intro. change (2 ^ 32) with 4294967296. change (2^31) with 2147483648 in *. lia.
  - intro. change (2 ^ 64) with 18446744073709551616. change (2^63) with 9223372036854775808 in *. lia.
Qed.

Lemma lenN_zero {A} (l : list A) : lenN l = 0 -> l = [].
Proof. destruct l; [reflexivity|]. rewrite lenN_cons. lia. Qed.

Lemma Reads_fixed c w bs :
  cfg_ok c -> w <= 16 -> lenN bs = w -> Reads c (fun d => rd_fixed c d w) bs bs.
Proof.
  intros Hc Hw Hl. split.
  - intros pre post Hf. assert (Hf' := slice_fits_usize c _ Hc Hf).
    unfold rd_fixed. rewrite ?lenN_app in *.
    rewrite usize_add_ok by lia.
    rewrite ?lenN_app.
    destruct (N.ltb_spec (lenN pre + (lenN bs + lenN post)) (lenN pre + w)); [lia|].
    destruct (N.ltb_spec (lenN pre + w) (lenN pre)); [lia|].
    subst w. rewrite slice_mid. reflexivity.
  - intros pre p q -> Hq Hf. assert (Hf' := slice_fits_usize c _ Hc Hf).
    rewrite ?lenN_app in *. unfold rd_fixed.
    rewrite usize_add_ok by lia. rewrite ?lenN_app.
    destruct (N.ltb_spec (lenN pre + lenN p) (lenN pre + w)); [eauto|].
    exfalso. apply Hq. apply lenN_zero. lia.
Qed.

Lemma Reads_usize c n :
  cfg_ok c -> n < usize_mod c -> Reads c (fun d => rd_usize c d) (le_bytes 8 n) n.
Proof.
  intros Hc Hn. assert (Hn' : n < 256 ^ N.of_nat 8).
  { unfold cfg_ok, usize_mod in *. change (256 ^ N.of_nat 8) with (2 ^ 64).
    destruct Hc as [E|E]; rewrite E in Hn; [|assumption].
    eapply N.lt_trans; [exact Hn|]. reflexivity. }
  split.
  - intros pre post Hf. assert (Hf' := slice_fits_usize c _ Hc Hf).
    rewrite ?lenN_app in *. rewrite lenN_le in *. unfold rd_usize.
    change (N.of_nat 8) with 8 in *.
    rewrite usize_add_ok by lia. rewrite ?lenN_app, lenN_le. change (N.of_nat 8) with 8.
    destruct (N.leb_spec (lenN pre) (lenN pre + 8)); [|lia].
    destruct (N.leb_spec (lenN pre + 8) (lenN pre + (8 + lenN post))); [|lia].
    cbn [andb]. replace 8 with (lenN (le_bytes 8 n)) at 2 by (rewrite lenN_le; reflexivity).
    rewrite slice_mid, of_le_le_bytes by assumption.
    rewrite N.mod_small by assumption. reflexivity.
  - intros pre p q E Hq Hf. assert (Hf' := slice_fits_usize c _ Hc Hf).
    assert (El : lenN (p ++ q) = 8) by (rewrite <- E, lenN_le; reflexivity).
    rewrite E in Hf'. rewrite ?lenN_app in *. unfold rd_usize.
    rewrite usize_add_ok by lia. rewrite ?lenN_app.
    assert (lenN q <> 0) by (intro; apply Hq; apply lenN_zero; assumption).
    destruct (N.leb_spec (lenN pre + 8) (lenN pre + lenN p)); [lia|].
    rewrite andb_false_r. eauto.
Qed.

Lemma ser_usize_writes c n : cfg_ok c -> n < usize_mod c -> Writes (ser_usize n) (le_bytes 8 n).
Proof.
  intros Hc Hn out. unfold ser_usize, emit. rewrite N.mod_small; [reflexivity|].
  unfold cfg_ok, usize_mod in *. destruct Hc as [E|E]; rewrite E in Hn; [|assumption].
  eapply N.lt_trans; [exact Hn|]. reflexivity.
Qed.

Lemma Reads_str c s :
  cfg_ok c -> Forall scalar s -> lenN (utf8_enc s) < usize_mod c ->
  Reads c (fun d => rd_str c d) (le_bytes 8 (lenN (utf8_enc s)) ++ utf8_enc s) s.
Proof.
  intros Hc Hs Hl. unfold rd_str.
  apply (Reads_bind c (fun d => rd_usize c d) (fun d len o => _) _ _ (lenN (utf8_enc s)) s).
  { apply Reads_usize; assumption. }
  split.
  - intros pre post Hf. assert (Hf' := slice_fits_usize c _ Hc Hf).
    rewrite ?lenN_app in *. rewrite usize_add_ok by lia. rewrite ?lenN_app.
    destruct (N.ltb_spec (lenN pre + (lenN (utf8_enc s) + lenN post)) (lenN pre + lenN (utf8_enc s))); [lia|].
    destruct (N.ltb_spec (lenN pre + lenN (utf8_enc s)) (lenN pre)); [lia|].
    rewrite slice_mid, utf8_dec_enc by assumption. reflexivity.
  - intros pre p q E Hq Hf. assert (Hf' := slice_fits_usize c _ Hc Hf).
    assert (lenN q <> 0) by (intro; apply Hq; apply lenN_zero; assumption).
    rewrite E in *. rewrite ?lenN_app in *. rewrite usize_add_ok by lia.
    destruct (N.ltb_spec (lenN pre + lenN p) (lenN pre + (lenN p + lenN q))); [eauto|lia].
Qed.
