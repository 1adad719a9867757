(** C77: every outcome of a binary read, exactly. *)
From Verif Require Import Base Utf8 Types BinModel BinRead BinFuel SpecBin BinRoundtrip PropsBin SpecBinAcc BinAcc.
Local Open Scope N_scope.

Lemma bin_back c G t d pre rest n o' r : cfg_ok c -> slice_fits c (lenN d) -> bytes_ok d -> d = pre ++ rest ->
  de_bin c G d n t (lenN pre) = (o', r) ->
  match r with
  | Ok v => exists bs post, rest = bs ++ post /\ o' = lenN pre + lenN bs /\ spells c G t v bs
  | Err e => stops c G t (lenN pre) rest o' (Fails e)
  | Panic p => stops c G t (lenN pre) rest o' (Panics p)
  | NoFuel => True
  end.
Proof.
  intros Hc Hf Hb -> E.
  assert (H := backward c G (pre ++ rest) Hc Hf Hb n t (lenN pre) rest (ex_intro _ pre (conj eq_refl eq_refl))). rewrite E in H.
  destruct r; exact H.
Qed.
Lemma returns_now {A} (f : nat -> A) r : returns f r -> exists n, f n = r.
Proof. intros [n H]. exists n. apply H. lia. Qed.

(** A read at any offset succeeds with the value [v] exactly if the bytes there begin
    with a spelling of [v], and moves the offset over that spelling. *)
Theorem C77_accepts c G t pre rest o' v :
  cfg_ok c -> bytes_ok (pre ++ rest) -> slice_fits c (lenN (pre ++ rest)) ->
  decodes_at c G t (pre ++ rest) (lenN pre) o' (Ok v) <->
  exists bs post, rest = bs ++ post /\ o' = lenN pre + lenN bs /\ spells c G t v bs.
Proof.
  intros Hc Hb Hf. split.
  - intro H. apply returns_now in H as [n E]. apply (bin_back c G t _ pre rest n o' (Ok v) Hc Hf Hb eq_refl E).
  - intros (bs & post & -> & -> & H). destruct (forward_v c G (pre ++ bs ++ post) Hc Hf) as [Fv _].
    destruct (Fv t v bs H) as [n Hn]. exists n. intros m Hm. apply (Hn m Hm (lenN pre) post). exists pre. auto.
Qed.

(** It fails with a given error, offset and all, exactly if the specification says so. *)
Theorem C77_rejects c G t pre rest o' e :
  cfg_ok c -> bytes_ok (pre ++ rest) -> slice_fits c (lenN (pre ++ rest)) ->
  decodes_at c G t (pre ++ rest) (lenN pre) o' (Err e) <-> stops c G t (lenN pre) rest o' (Fails e).
Proof.
  intros Hc Hb Hf. split.
  - intro H. apply returns_now in H as [n E]. apply (bin_back c G t _ pre rest n o' (Err e) Hc Hf Hb eq_refl E).
  - intro H. destruct (forward_x c G _ Hc Hf Hb _ _ _ _ _ H) as [n Hn]. exists n. intros m Hm. apply (Hn m Hm). exists pre. auto.
Qed.

(** And panics exactly if ... *)
Theorem C77_panics c G t pre rest o' p :
  cfg_ok c -> bytes_ok (pre ++ rest) -> slice_fits c (lenN (pre ++ rest)) ->
  decodes_at c G t (pre ++ rest) (lenN pre) o' (Panic p) <-> stops c G t (lenN pre) rest o' (Panics p).
Proof.
  intros Hc Hb Hf. split.
  - intro H. apply returns_now in H as [n E]. apply (bin_back c G t _ pre rest n o' (Panic p) Hc Hf Hb eq_refl E).
  - intro H. destruct (forward_x c G _ Hc Hf Hb _ _ _ _ _ H) as [n Hn]. exists n. intros m Hm. apply (Hn m Hm). exists pre. auto.
Qed.

(** [T::deserialize_bin]: the input must begin with a spelling, and whatever follows is ignored. *)
Theorem C77_whole c G t d v : cfg_ok c -> bytes_ok d -> slice_fits c (lenN d) ->
  decodes c G t d (Ok v) <-> exists bs post, d = bs ++ post /\ spells c G t v bs.
Proof.
  intros Hc Hb Hf. split.
  - intros H. apply returns_now in H as [n E]. unfold deserialize_bin in E. destruct (de_bin c G d n t 0) as [o' r] eqn:Ed. cbn [snd] in E. subst r.
    destruct (bin_back c G t d [] d n o' (Ok v) Hc Hf Hb eq_refl Ed) as (bs & post & H1 & _ & H2). eauto.
  - intros (bs & post & -> & H). destruct (forward_v c G (bs ++ post) Hc Hf) as [Fv _].
    destruct (Fv t v bs H) as [n Hn]. exists n. intros m Hm. unfold deserialize_bin. rewrite (Hn m Hm 0 post); [reflexivity|]. exists []. auto.
Qed.

(** Nothing else happens: the three cases cover every input (types whose names are
    reached only behind at least one byte, as every type with values is) ... *)
Theorem C77_outcome c G t pre rest :
  cfg_ok c -> guarded G -> bytes_ok (pre ++ rest) -> slice_fits c (lenN (pre ++ rest)) ->
  (exists v bs post, rest = bs ++ post /\ spells c G t v bs) \/ (exists o' x, stops c G t (lenN pre) rest o' x).
Proof.
  intros Hc Hg Hb Hf.
  destruct (de_bin_terminates c G (pre ++ rest) t (lenN pre) Hc Hg Hf ltac:(rewrite lenN_app; lia)) as (o' & r & Hr & H).
  apply returns_now in H as [n E]. assert (X := bin_back c G t _ pre rest n o' r Hc Hf Hb eq_refl E). destruct r as [v|e|p|]; [|eauto|eauto|congruence].
  left. destruct X as (bs & post & H1 & _ & H2). eauto.
Qed.

(** ... and exclude each other: one value, one error or one panic. *)
Theorem C77_one_way c G t pre rest :
  cfg_ok c -> bytes_ok (pre ++ rest) -> slice_fits c (lenN (pre ++ rest)) ->
  (forall v1 v2 b1 p1 b2 p2, rest = b1 ++ p1 -> rest = b2 ++ p2 -> spells c G t v1 b1 -> spells c G t v2 b2 -> v1 = v2 /\ b1 = b2) /\
  (forall v b p o' x, rest = b ++ p -> spells c G t v b -> ~ stops c G t (lenN pre) rest o' x) /\
  (forall o1 x1 o2 x2, stops c G t (lenN pre) rest o1 x1 -> stops c G t (lenN pre) rest o2 x2 -> o1 = o2 /\ x1 = x2).
Proof.
  intros Hc Hb Hf.
  assert (A : forall o' v b p, rest = b ++ p -> spells c G t v b -> o' = lenN pre + lenN b -> decodes_at c G t (pre ++ rest) (lenN pre) o' (Ok v)).
  { intros o' v b p E H Eo. apply C77_accepts; eauto 6. }
  assert (B : forall o' x, stops c G t (lenN pre) rest o' x -> decodes_at c G t (pre ++ rest) (lenN pre) o' (out_of x)).
  { intros o' [e|p] H; [apply C77_rejects | apply C77_panics]; assumption. }
  split; [|split].
  - intros v1 v2 b1 p1 b2 p2 E1 E2 H1 H2.
    assert (X := returns_inj _ _ _ (A _ _ _ _ E1 H1 eq_refl) (A _ _ _ _ E2 H2 eq_refl)). injection X as Hl ->. split; [reflexivity|].
    rewrite E1 in E2. assert (L : length b1 = length b2) by (unfold lenN in Hl; lia). clear -E2 L. revert b2 E2 L.
    induction b1 as [|y b1 IH]; intros [|z b2] E L; try discriminate L; [reflexivity|]. injection E as -> E. f_equal. apply IH; [exact E | cbn in L; lia].
  - intros v b p o' x E H Hs. assert (X := returns_inj _ _ _ (A _ _ _ _ E H eq_refl) (B _ _ Hs)). destruct x; discriminate X.
  - intros o1 x1 o2 x2 H1 H2. assert (X := returns_inj _ _ _ (B _ _ H1) (B _ _ H2)). destruct x1, x2; try discriminate X; injection X as -> ->; auto.
Qed.

(** Every encoding is a spelling (of the value it encodes). *)
Theorem C77_encodings c G t v bs : cfg_ok c -> has_type c G t v -> encodes G t v bs -> bytes_ok bs -> slice_fits c (lenN bs) ->
  spells c G t v bs.
Proof.
  intros Hc Ht He Hb Hf. destruct Ht as [n H]. destruct (codec c G n t v Hc H) as (bs' & W & X & R).
  assert (E : bs' = bs).
  { assert (Y := ser_returns G n t v [] bs' (W [])). assert (Z := returns_inj _ _ _ He Y). congruence. }
  subst bs'. destruct R as [R _]. specialize (R [] []). rewrite app_nil_r in R. cbn [app] in R. change (lenN []) with 0 in R. specialize (R Hf).
  destruct (bin_back c G t bs [] bs n _ _ Hc Hf Hb eq_refl R) as (b1 & post & E & L & Hs).
  change (lenN []) with 0 in L. assert (post = []). { apply lenN_zero. rewrite E, lenN_app in L. lia. } subst post. rewrite app_nil_r in E. subst b1. exact Hs.
Qed.

Print Assumptions C77_accepts.
Print Assumptions C77_rejects.
Print Assumptions C77_panics.
Print Assumptions C77_whole.
Print Assumptions C77_outcome.
Print Assumptions C77_one_way.
Print Assumptions C77_encodings.

(** ** Concrete cases *)
Lemma num_dec w bs m : (Nat.eqb (length bs) w && forallb (fun b => b <? 256) bs && (of_le bs =? m))%bool = true -> num w bs m.
Proof.
  intro H. apply andb_true_iff in H as [H H3]. apply andb_true_iff in H as [H1 H2]. apply Nat.eqb_eq in H1. apply N.eqb_eq in H3. subst m.
  apply of_num; [|unfold lenN; lia]. apply Forall_forall. intros b Hb. apply N.ltb_lt. revert b Hb. apply forallb_forall. exact H2.
Qed.
Lemma count_dec c bs n : cfg_ok c -> n < usize_mod c -> num 8 bs n -> count_is c bs n.
Proof. intros Hc Hn H. exists n. split; [exact H|]. rewrite N.mod_small; auto. Qed.
Lemma c64_mod : usize_mod c64 = 18446744073709551616. Proof. reflexivity. Qed.

Definition L8 (x : N) : list N := [x; 0; 0; 0; 0; 0; 0; 0].
Lemma L8_count x : x < 256 -> count_is c64 (L8 x) x.
Proof.
  intro H. apply count_dec; [apply c64_ok | rewrite c64_mod; lia|]. apply num_dec. unfold L8. cbn [length Nat.eqb forallb andb].
  destruct (N.ltb_spec x 256); [|lia]. cbn [andb N.ltb N.compare of_le]. apply N.eqb_eq. lia.
Qed.

(** A bool of 7 and an Option tag of 2 are read as [true] and [None]. *)
Example C77_ex1 : spells c64 [] (TTup [TBool; TOpt (TInt U8)]) (VSeq [VBool true; VNone]) [7; 2] /\
  de_bin c64 [] [9; 7; 2] 5 (TTup [TBool; TOpt (TInt U8)]) 1 = (3, Ok (VSeq [VBool true; VNone])).
Proof.
  split; [|vm_compute; reflexivity]. apply s_tup. apply (sp_cons _ _ _ _ _ _ [7]); [apply s_true; discriminate|].
  apply (sp_cons _ _ _ _ _ _ [2] []); [apply s_none; discriminate | constructor].
Qed.
(** A Vec of two trees, the second of which has the unknown tag 9. *)
Example C77_ex2 : let d := L8 2 ++ [0; 0; 9; 0; 5] in
  stops c64 Gex (TSeq SVec (TNamed 0)) 0 d 12 (Fails {| e_o := 0; e_msg := EDiscriminant 9 |}) /\
  de_bin c64 Gex d 5 (TSeq SVec (TNamed 0)) 0 = (12, Err {| e_o := 0; e_msg := EDiscriminant 9 |}).
Proof.
  split; [|vm_compute; reflexivity]. apply (x_seq c64 Gex SVec (TNamed 0) 0 (L8 2) 2 [VEnum 0 []] [0; 0] [9; 0; 5]).
  - apply L8_count. lia.
  - cbn [room_seq]. vm_compute. discriminate.
  - reflexivity.
  - apply (si_cons _ _ _ _ [] [0; 0] []); [|constructor].
    eapply (s_enum _ _ 0%nat _ 0 _ [0; 0] [] []); [reflexivity | apply num_dec; reflexivity | reflexivity | constructor].
  - apply (x_tag c64 Gex 0%nat (match nth_error Gex 0 with Some (DEnum vs) => vs | _ => [] end) 10 [9; 0] 9 [5]); [reflexivity | apply num_dec; reflexivity | reflexivity].
Qed.
(** A string length at the top of the address space: overflow, in a build with checks
    and (as a slice out of order) in one without. *)
Definition top : list N := [255; 255; 255; 255; 255; 255; 255; 255].
Example C77_ex3 : stops c64 [] TStr 0 top 8 (Panics POverflow) /\ stops c64r [] TStr 0 top 8 (Panics PSlice) /\
  de_bin c64 [] top 2 TStr 0 = (8, Panic POverflow) /\ de_bin c64r [] top 2 TStr 0 = (8, Panic PSlice).
Proof.
  assert (H : forall c, usize_bits c = 64 -> count_is c top (2 ^ 64 - 1)).
  { intros c E. apply count_dec; [right; exact E | unfold usize_mod; rewrite E; reflexivity | apply num_dec; reflexivity]. }
  split; [|split; [|split; vm_compute; reflexivity]].
  - apply (x_str_wrap c64 [] 0 top [] (2 ^ 64 - 1)); [apply H; reflexivity | vm_compute; discriminate].
  - apply (x_str_wrap c64r [] 0 top [] (2 ^ 64 - 1)); [apply H; reflexivity | vm_compute; discriminate].
Qed.
(** The last key wins in a map with a repeated key. *)
Example C77_ex4 : spells c64 [] (TMap MBTree (TInt U8) TBool) (VMap [(VZ 1, VBool true)]) (L8 2 ++ [1; 0; 1; 1]) /\
  de_bin c64 [] (L8 2 ++ [1; 0; 1; 1]) 5 (TMap MBTree (TInt U8) TBool) 0 = (12, Ok (VMap [(VZ 1, VBool true)])).
Proof.
  assert (H1 : spells c64 [] (TInt U8) (VZ 1) [1]).
  { apply s_int; [discriminate | split; vm_compute; [discriminate|reflexivity]|]. destruct (num_dec 1 [1] 1 eq_refl) as [H _]. exact H. }
  split; [|vm_compute; reflexivity].
  apply (s_map c64 [] MBTree (TInt U8) TBool [(VZ 1, VBool false); (VZ 1, VBool true)]); [apply L8_count; reflexivity | exact I|].
  apply (se_cons _ _ _ _ _ _ _ [1] [0] [1; 1]); [exact H1 | constructor|]. apply (se_cons _ _ _ _ _ _ _ [1] [1] []); [exact H1 | apply s_true; discriminate | constructor].
Qed.
(** The hypotheses of the theorems hold of these inputs. *)
Example C77_hyps : cfg_ok c64 /\ bytes_ok ([] ++ L8 2 ++ [0; 0; 9; 0; 5]) /\ slice_fits c64 (lenN ([] ++ L8 2 ++ [0; 0; 9; 0; 5])) /\
  decodes_at c64 Gex (TSeq SVec (TNamed 0)) (L8 2 ++ [0; 0; 9; 0; 5]) 0 12 (Err {| e_o := 0; e_msg := EDiscriminant 9 |}).
Proof.
  assert (H1 : cfg_ok c64) by apply c64_ok.
  assert (H2 : bytes_ok ([] ++ L8 2 ++ [0; 0; 9; 0; 5])).
  { apply Forall_forall. intros b Hb. apply N.ltb_lt. revert b Hb. apply forallb_forall. vm_compute. reflexivity. }
  assert (H3 : slice_fits c64 (lenN ([] ++ L8 2 ++ [0; 0; 9; 0; 5]))) by (vm_compute; reflexivity).
  split; [exact H1|]. split; [exact H2|]. split; [exact H3|].
  apply (C77_rejects c64 Gex (TSeq SVec (TNamed 0)) [] (L8 2 ++ [0; 0; 9; 0; 5]) 12 _ H1 H2 H3). apply C77_ex2.
Qed.
