(** C86: reading binary data is linear work. *)
From Verif Require Import Base Utf8 Types BinModel BinRead BinLocal BinFuel BinRoundtrip PropsBin PropsBinAcc SpecBinAcc WorkBin SpecWorkBin WorkBinCost.
Local Open Scope N_scope.

(** The counting reader has the same outcome as the model. *)
Theorem C86_counted c G d n t o k : let (s, r) := w_bin c G d n t (o, k) in de_bin c G d n t o = (fst s, r).
Proof. assert (H := counted c G d n t (o, k)). destruct (w_bin c G d n t (o, k)) as [s r]. cbn [fst snd] in H. symmetry. exact H. Qed.

(** There is a number, for the declarations and the type alone, such that reading at
    any offset of any input on any machine, to a value, an error or a panic, makes at
    most that many calls for each byte passed over, and one more. *)
Theorem C86_linear G t : guarded G -> all_pay G -> pays G t ->
  exists K, forall c d n o, cfg_ok c -> slice_fits c (lenN d) -> o <= lenN d ->
    let (s, r) := w_bin c G d n t (o, 0) in
    o <= fst s /\ fst s <= lenN d /\ snd s <= K * (1 + (fst s - o)).
Proof.
  intros Hg Ha Hp. destruct (bound_exists G t Hg) as (wn & K & HG & Hl). exists (weight wn t + 2 * K). intros c d n o Hc Hd Ho.
  destruct (cost_bin c G d Hc Hd wn K HG Ha n t Hp Hl (o, 0) Ho) as (H1 & H2 & H3). destruct (w_bin c G d n t (o, 0)) as [s r]. cbn [fst snd] in *.
  repeat split; [exact H1|exact H2|]. etransitivity; [exact H3|]. set (x := fst s - o).
  rewrite N.add_0_l, N.mul_add_distr_r, N.mul_add_distr_l, N.mul_1_r. rewrite <- N.add_assoc. apply N.add_le_mono_l.
  etransitivity; [|apply N.le_add_l]. replace (2 * K * (1 + x)) with (K * (2 * (1 + x))) by lia. apply N.mul_le_mono_l. lia.
Qed.
(** So a whole read is at most proportional to the length of the input. *)
Theorem C86_whole G t : guarded G -> all_pay G -> pays G t ->
  exists K, forall c d n, cfg_ok c -> slice_fits c (lenN d) -> snd (fst (w_bin c G d n t (0, 0))) <= K * (1 + lenN d).
Proof.
  intros Hg Ha Hp. destruct (C86_linear G t Hg Ha Hp) as [K H]. exists K. intros c d n Hc Hd. specialize (H c d n 0 Hc Hd ltac:(lia)).
  destruct (w_bin c G d n t (0, 0)) as [s r]. cbn [fst snd]. destruct H as (_ & H2 & H3). etransitivity; [exact H3|]. apply N.mul_le_mono_l. lia.
Qed.

(** The condition on collections is needed: 8 bytes can ask for any number of units. *)
Theorem C86_zero_refuted c m : cfg_ok c -> m < usize_mod c ->
  exists v, w_bin c [] (le_bytes 8 m) 2 (TSeq SList TUnit) (0, 0) = ((8, 1 + m), Ok v).
Proof.
  intros Hc Hm. assert (B : m < 256 ^ N.of_nat 8).
  { destruct Hc as [E|E]; unfold usize_mod in Hm; rewrite E in Hm; change (256 ^ N.of_nat 8) with (2 ^ 64); [|exact Hm]. etransitivity; [exact Hm|]. reflexivity. }
  assert (L : lenN (le_bytes 8 m) = 8) by apply lenN_le.
  assert (R : rd_usize c (le_bytes 8 m) 0 = (8, Ok m)).
  { unfold rd_usize. rewrite usize_add_ok by (destruct Hc as [E|E]; unfold usize_mod; rewrite E; reflexivity).
    rewrite L. cbn [N.add]. change ((0 <=? 8) && (8 <=? 8)) with true. cbv match.
    assert (S : slice 0 8 (le_bytes 8 m) = le_bytes 8 m).
    { assert (X := slice_mid [] (le_bytes 8 m) []). rewrite app_nil_r, L in X. exact X. }
    rewrite S, of_le_le_bytes by exact B. rewrite N.mod_small by exact Hm. reflexivity. }
  assert (I : forall k o j acc, exists l, iter_nat_m (fun o0 acc0 => wbind (w_bin c [] (le_bytes 8 m) 1 TUnit) (fun v => wret (seq_add SList v acc0)) o0) k (o, j) acc
     = ((o, j + N.of_nat k), Ok l)).
  { induction k as [|k IH]; intros o j acc; [exists acc; cbn; rewrite N.add_0_r; reflexivity|]. cbn [iter_nat_m]. unfold seq2.
    change (wbind (w_bin c [] (le_bytes 8 m) 1 TUnit) (fun v => wret (seq_add SList v acc)) (o, j)) with ((o, j + 1), Ok (E := berr) (seq_add SList VUnit acc)).
    cbv match. destruct (IH o (j + 1) (seq_add SList VUnit acc)) as [l Hl]. exists l. rewrite Hl. f_equal. f_equal. lia. }
  destruct (I (N.to_nat m) 8 1 []) as [l Hl]. exists (VSeq l).
  cbn [w_bin]. unfold tick at 1. cbn [fst snd]. unfold wbind at 1. unfold plain at 1. cbn [fst snd]. rewrite R. cbn [fst snd].
  unfold wbind at 1, plain at 1, bret. cbn [fst snd]. unfold wmap, wbind at 1, w_items. rewrite iter_N_nat.
  change (0 + 1) with 1. cbn [w_bin] in Hl. rewrite Hl, N2Nat.id. reflexivity.
Qed.

Print Assumptions C86_counted.
Print Assumptions C86_linear.
Print Assumptions C86_whole.
Print Assumptions C86_zero_refuted.

(** ** Concrete cases *)
Example C86_ex_hyps : guarded Gex /\ all_pay Gex /\ pays Gex (TNamed 1).
Proof.
  split; [|split].
  - exists (fun i => i). intros i x j E Hj. destruct i as [|[|i]]; cbn in E; [injection E as <-; destruct Hj| |destruct i; discriminate E].
    injection E as <-. cbn in Hj. destruct Hj as [<-|[]]. lia.
  - intros x t Hx Ht. destruct Hx as [<-|[<-|[]]]; cbn in Ht; repeat (destruct Ht as [<-|Ht]); try destruct Ht;
      repeat first [constructor | left; constructor].
  - constructor.
Qed.
(** The 45 bytes of the example value take 17 calls. *)
Example C86_ex : w_bin c64 Gex bex 9 (TNamed 1) (0, 0) = ((lenN bex, 17), Ok vex).
Proof. vm_compute. reflexivity. Qed.
