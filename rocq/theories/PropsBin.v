(** Property theorems C01-C16 for the binary format. *)
From Verif Require Import Base Utf8 Types BinModel BinRead SpecBin BinRoundtrip BinLocal TyAll
  BinValid BinFuel BinPanic BinMore.
Local Open Scope N_scope.

(** [v.serialize_bin()] ends and returns [bs]. *)
Definition encodes (G : env) (t : ty) (v : val) (bs : list N) : Prop :=
  returns (fun n => serialize_bin G n t v) (Ok bs).
(** [T::deserialize_bin(d)] ends with outcome [r]. *)
Definition decodes (c : cfg) (G : env) (t : ty) (d : list N) (r : res berr val) : Prop :=
  returns (fun n => deserialize_bin c G d n t) r.
(** [T::de_bin(&mut o, d)] ends with outcome [r] and leaves the offset at [o']. *)
Definition decodes_at (c : cfg) (G : env) (t : ty) (d : list N) (o o' : N) (r : res berr val) : Prop :=
  returns (fun n => de_bin c G d n t o) (o', r).

(** ** A concrete setting for the examples *)
Definition c64 : cfg := {| usize_bits := 64; overflow_checks := true; alloc_max := fun _ => 2 ^ 40; time_max := 2 ^ 63 - 1 |}.
Definition c64r : cfg := {| usize_bits := 64; overflow_checks := false; alloc_max := fun _ => 2 ^ 40; time_max := 2 ^ 63 - 1 |}.
Definition c32 : cfg := {| usize_bits := 32; overflow_checks := true; alloc_max := fun _ => 2 ^ 20; time_max := 2 ^ 63 - 1 |}.
Lemma c64_ok : cfg_ok c64. Proof. right; reflexivity. Qed.
Lemma c64r_ok : cfg_ok c64r. Proof. right; reflexivity. Qed.
Lemma c32_ok : cfg_ok c32. Proof. left; reflexivity. Qed.

Definition fld (name : str) (skip : bool) (dflt : val) (t : ty) : field :=
  {| f_name := name; f_rename := None; f_skip := skip; f_isopt := false; f_default := None;
     f_tydefault := dflt; f_null := false; f_hasproxy := false; f_ty := t |}.
(** A proxy that stores a pair as a two element Vec. *)
Definition swap_proxy : proxy :=
  {| p_to := fun v => match v with VSeq [a; b] => VSeq [b; a] | w => w end;
     p_from := fun v => match v with VSeq [a; b] => VSeq [b; a] | w => w end |}.
(** 0: [enum Tree { Leaf, Node(Box<Tree>, u8), Tagged { name: String } }]
    1: [struct Rec { id: u16, #[nserde(skip)] cache: u8, tree: Tree,
                     m: BTreeMap<u8, bool>, p (proxied): (u8, u8), at: SystemTime }] *)
Definition Gex : env :=
  [ DEnum [ {| v_name := chars "Leaf"; v_rename := None; v_body := BUnit |};
            {| v_name := chars "Node"; v_rename := None; v_body := BTuple [TBox (TNamed 0); TInt U8] |};
            {| v_name := chars "Tagged"; v_rename := None; v_body := BStruct [fld (chars "name") false (VStr []) TStr] |} ];
    DStruct false false
      [ fld (chars "id") false (VZ 0) (TInt U16);
        fld (chars "cache") true (VZ 0) (TInt U8);
        fld (chars "tree") false VUnit (TNamed 0);
        fld (chars "m") false (VMap []) (TMap MBTree (TInt U8) TBool);
        fld (chars "p") false (VSeq [VZ 0; VZ 0]) (TProxy swap_proxy (TTup [TInt U8; TInt U8]));
        fld (chars "at") false (VTime 0 0) TTime ] ].
Definition vex : val :=
  VSeq [VZ 513; VZ 0; VEnum 1 [VEnum 2 [VStr [233; 120]]; VZ 7];
        VMap [(VZ 1, VBool true); (VZ 2, VBool false)]; VSeq [VZ 3; VZ 4]; VTime 5 6].
Definition bex : list N :=
  [1; 2;  1; 0; 2; 0; 3; 0; 0; 0; 0; 0; 0; 0; 195; 169; 120; 7;
   2; 0; 0; 0; 0; 0; 0; 0; 1; 1; 2; 0;  4; 3;  1; 5; 0; 0; 0; 0; 0; 0; 0; 6; 0; 0; 0].

Ltac fit_step :=
  match goal with
  | |- fits ?px ?c ?G (S ?n) ?t ?v =>
    let m := fresh "m" in let H := fresh "H" in
    remember n as m eqn:H; cbn -[int_ok px_inverse usize_mod map_inv seq_inv N.pow N.lt Z.pow]; subst m
  | |- context [Pos.to_nat ?p] => let q := eval vm_compute in (Pos.to_nat p) in
      change (Pos.to_nat p) with q; cbn [nth_error v_body]
  | |- px_inverse _ _ _ => split
  | |- Forall2 _ _ _ => constructor
  | |- Forall _ _ => constructor
  | |- _ /\ _ => split
  end.
Lemma vex_typed : has_type c64 Gex (TNamed 1) vex.
Proof.
  exists 6%nat. unfold vex.
  repeat (fit_step; cbn [f_skip f_ty f_tydefault fld p_to p_from swap_proxy fst snd]); auto;
    try reflexivity; try (cbv; intuition congruence).
  cbn. repeat constructor.
Qed.

(** * C01 *)
(** Every value of every type comes back from its own encoding. *)
Theorem C01_bin_roundtrip c G t v :
  cfg_ok c -> has_type c G t v ->
  exists bs, encodes G t v bs /\ (slice_fits c (lenN bs) -> decodes c G t bs (Ok v)).
Proof.
  intros Hc [n H]. destruct (codec c G n t v Hc H) as (bs & W & X & R).
  exists bs. split.
  - apply (ser_returns G n t v []). rewrite W. reflexivity.
  - intro Hf. destruct R as [R _]. specialize (R [] []). rewrite app_nil_r in R. simpl in R.
    specialize (R Hf). assert (Hr := de_returns c G bs n t _ _ _ R ltac:(discriminate)).
    destruct Hr as [k Hk]. exists k. intros m Hm. unfold deserialize_bin. change 0 with (lenN (@nil N)). rewrite Hk by assumption. reflexivity.
Qed.
Print Assumptions C01_bin_roundtrip.

Example C01_ex : has_type c64 Gex (TNamed 1) vex /\ serialize_bin Gex 6 (TNamed 1) vex = Ok bex
  /\ deserialize_bin c64 Gex bex 6 (TNamed 1) = Ok vex.
Proof. split; [apply vex_typed|]. split; reflexivity. Qed.

(** * C02 *)
Theorem C02_self_delimiting c G t v bs pre post :
  cfg_ok c -> has_type c G t v -> encodes G t v bs ->
  slice_fits c (lenN (pre ++ bs ++ post)) ->
  decodes_at c G t (pre ++ bs ++ post) (lenN pre) (lenN pre + lenN bs) (Ok v).
Proof.
  intros Hc [n H] HE Hf. destruct (codec c G n t v Hc H) as (bs' & W & X & R).
  assert (E : bs' = bs).
  { assert (HR := ser_returns G n t v [] bs' (W [])). assert (Q := returns_inj _ _ _ HE HR). congruence. }
  subst bs'. destruct R as [R _].
  exact (de_returns c G _ n t _ _ _ (R pre post Hf) ltac:(discriminate)).
Qed.
Print Assumptions C02_self_delimiting.
Example C02_ex : de_bin c64 Gex ([9; 9] ++ bex ++ [1]) 6 (TNamed 1) 2 = (2 + lenN bex, Ok vex).
Proof. reflexivity. Qed.

(** * C03 *)
Theorem C03_append_only c G t v bs out :
  cfg_ok c -> has_type c G t v -> encodes G t v bs ->
  returns (fun n => ser_bin G n t v out) (Ok (out ++ bs)).
Proof.
  intros Hc [n H] HE. destruct (codec c G n t v Hc H) as (bs' & W & X & R).
  assert (HR := ser_returns G n t v [] bs' (W [])). assert (Q := returns_inj _ _ _ HE HR).
  simpl in Q. injection Q as <-. apply (ser_returns G n). apply W.
Qed.
Print Assumptions C03_append_only.

(** Values written one after another into one buffer. *)
Fixpoint write_all (G : env) (n : nat) (l : list (ty * val)) (out : list N) : sres :=
  match l with
  | [] => Ok out
  | (t, v) :: r => rbind (ser_bin G n t v out) (write_all G n r)
  end.
(** ... and read back by successive [de_bin] calls on one offset. *)
Fixpoint read_all (c : cfg) (G : env) (d : list N) (n : nat) (ts : list ty) : bm (list val) :=
  match ts with
  | [] => bret []
  | t :: r => bbind (de_bin c G d n t) (fun v => bbind (read_all c G d n r) (fun vs => bret (v :: vs)))
  end.

Theorem C03_streams c G (l : list (ty * val)) out :
  cfg_ok c -> Forall (fun p => has_type c G (fst p) (snd p)) l ->
  exists bs, returns (fun n => write_all G n l out) (Ok (out ++ bs)) /\
    forall post, slice_fits c (lenN (out ++ bs ++ post)) ->
      returns (fun n => read_all c G (out ++ bs ++ post) n (map fst l) (lenN out))
              (lenN out + lenN bs, Ok (map snd l)).
Proof.
  intros Hc Hl. revert out. induction Hl as [|[t v] l [k Hv] Hl IH]; intro out.
  - exists []. split; [exists 0%nat; intros; simpl; rewrite app_nil_r; reflexivity|].
    intros post _. exists 0%nat. intros; simpl. unfold bret. rewrite lenN_nil, N.add_0_r. reflexivity.
  - simpl in Hv. destruct (codec c G k t v Hc Hv) as (b1 & W & X & [R _]).
    destruct (IH (out ++ b1)) as (b2 & [k1 W2] & R2).
    exists (b1 ++ b2). split.
    + destruct (ser_returns G k t v out (out ++ b1) (W out)) as [k2 H2].
      exists (k1 + k2)%nat. intros m Hm. cbn [write_all]. rewrite H2 by lia. cbn [rbind].
      rewrite W2 by lia. rewrite <- app_assoc. reflexivity.
    + intros post Hf.
      assert (E1 : out ++ (b1 ++ b2) ++ post = out ++ b1 ++ (b2 ++ post)) by (rewrite !app_assoc; reflexivity).
      assert (E2 : out ++ (b1 ++ b2) ++ post = (out ++ b1) ++ b2 ++ post) by (rewrite !app_assoc; reflexivity).
      assert (Hr := R out (b2 ++ post)). rewrite <- E1 in Hr. specialize (Hr Hf).
      destruct (de_returns c G _ k t _ _ _ Hr ltac:(discriminate)) as [k3 H3].
      specialize (R2 post). rewrite <- E2 in R2. destruct (R2 Hf) as [k4 H4].
      exists (k3 + k4)%nat. intros m Hm. cbn [read_all map fst snd]. unfold bbind.
      rewrite H3 by lia. rewrite lenN_app in H4. rewrite H4 by lia. unfold bret. rewrite lenN_app, N.add_assoc. reflexivity.
Qed.
Print Assumptions C03_streams.
Example C03_ex : write_all Gex 6 [(TInt U8, VZ 5); (TNamed 1, vex)] [9] = Ok ([9] ++ 5 :: bex).
Proof. reflexivity. Qed.

(** * C04 *)
(** The bytes are exactly those of the layout written down in SpecBin.v. *)
Theorem C04_wire_layout c G t v bs :
  cfg_ok c -> has_type c G t v -> (encodes G t v bs <-> wire G t v bs).
Proof.
  intros Hc [n H]. destruct (codec c G n t v Hc H) as (bs' & W & X & R).
  assert (HR := ser_returns G n t v [] bs' (W [])). split; intro HE.
  - assert (Q := returns_inj _ _ _ HE HR). simpl in Q. injection Q as ->. assumption.
  - destruct (wire_functional G) as [Hfun _]. rewrite (Hfun _ _ _ HE _ X). exact HR.
Qed.
Print Assumptions C04_wire_layout.
Example C04_ex : wire Gex (TNamed 1) vex bex.
Proof.
  apply (C04_wire_layout c64); [apply c64_ok|apply vex_typed|].
  apply (ser_returns Gex 6 _ _ []). reflexivity.
Qed.

(** * C05 *)
Theorem C05_bounds_and_locality c G t d o o' v :
  cfg_ok c -> slice_fits c (lenN d) -> o <= lenN d -> decodes_at c G t d o o' (Ok v) ->
  o <= o' /\ o' <= lenN d /\
  forall pre post, slice_fits c (lenN (pre ++ slice o (o' - o) d ++ post)) ->
    decodes_at c G t (pre ++ slice o (o' - o) d ++ post) (lenN pre) (lenN pre + (o' - o)) (Ok v).
Proof.
  intros Hc Hf Ho [n Hn]. specialize (Hn n (le_n _)).
  destruct (Local_de c Hc G n t d o o' v Hf Ho Hn) as (H1 & H2 & [R _]).
  split; [assumption|]. split; [assumption|]. intros pre post Hf2.
  assert (Hr := R pre post Hf2). rewrite slice_length in Hr by lia.
  exact (de_returns _ _ _ _ _ _ _ _ Hr ltac:(discriminate)).
Qed.
Print Assumptions C05_bounds_and_locality.
Example C05_ex : de_bin c64 Gex ([7] ++ bex) 6 (TNamed 1) 1 = (46, Ok vex).
Proof. reflexivity. Qed.

(** * C06 *)
Theorem C06_truncation_rejected c G t v bs p q :
  cfg_ok c -> has_type c G t v -> encodes G t v bs -> slice_fits c (lenN bs) ->
  bs = p ++ q -> q <> [] ->
  exists e, decodes c G t p (Err e).
Proof.
  intros Hc [n H] HE Hf Ebs Hq. destruct (codec c G n t v Hc H) as (bs' & W & X & R).
  assert (HR := ser_returns G n t v [] bs' (W [])). assert (Q := returns_inj _ _ _ HE HR).
  simpl in Q. injection Q as <-. destruct R as [_ R].
  destruct (R [] p q Ebs Hq) as (o & e & Hr); [exact Hf|]. simpl in Hr.
  exists e. destruct (de_returns _ _ _ _ _ _ _ _ Hr ltac:(discriminate)) as [k Hk].
  exists k. intros m Hm. unfold deserialize_bin. change 0 with (lenN (@nil N)). rewrite Hk by assumption. reflexivity.
Qed.
Print Assumptions C06_truncation_rejected.
Example C06_ex : deserialize_bin c64 Gex (firstn 44 bex) 6 (TNamed 1)
  = Err {| e_o := 41; e_msg := ELength 4 44 |}.
Proof. reflexivity. Qed.

(** * C07 *)
Theorem C07_prefix_free c G t v1 v2 b1 b2 x y :
  cfg_ok c -> has_type c G t v1 -> has_type c G t v2 ->
  encodes G t v1 b1 -> encodes G t v2 b2 -> slice_fits c (lenN (b1 ++ x)) ->
  b1 ++ x = b2 ++ y -> v1 = v2 /\ x = y.
Proof.
  intros Hc H1 H2 E1 E2 Hf E.
  assert (D1 := C02_self_delimiting c G t v1 b1 [] x Hc H1 E1 Hf).
  assert (D2 := C02_self_delimiting c G t v2 b2 [] y Hc H2 E2). change ([] ++ b2 ++ y) with (b2 ++ y) in D2. rewrite <- E in D2.
  specialize (D2 Hf). change ([] ++ b1 ++ x) with (b1 ++ x) in D1. assert (Q := returns_inj _ _ _ D1 D2). 
  assert (Hlen : lenN (@nil N) + lenN b1 = lenN (@nil N) + lenN b2) by congruence.
  assert (Hv : v1 = v2) by congruence. split; [assumption|].
  rewrite !lenN_nil, !N.add_0_l in Hlen. unfold lenN in Hlen. apply Nnat.Nat2N.inj in Hlen.
  assert (Ex : skipn (length b1) (b1 ++ x) = x) by (rewrite skipn_app, skipn_all, Nat.sub_diag; reflexivity).
  assert (Ey : skipn (length b2) (b2 ++ y) = y) by (rewrite skipn_app, skipn_all, Nat.sub_diag; reflexivity).
  rewrite <- Ex, <- Ey, E, Hlen. reflexivity.
Qed.
Print Assumptions C07_prefix_free.
Corollary C07_injective c G t v1 v2 bs :
  cfg_ok c -> has_type c G t v1 -> has_type c G t v2 ->
  encodes G t v1 bs -> encodes G t v2 bs -> slice_fits c (lenN bs) -> v1 = v2.
Proof.
  intros Hc H1 H2 E1 E2 Hf. apply (C07_prefix_free c G t v1 v2 bs bs [] [] Hc H1 H2 E1 E2); [rewrite app_nil_r; assumption|reflexivity].
Qed.

(** * C08 *)
(** Refuted in general: three inputs on which decoding panics. *)
Theorem C08_refuted_string :
  decodes c64 [] TStr (repeat 255 8) (Panic POverflow) /\
  decodes c64r [] TStr (repeat 255 8) (Panic PSlice).
Proof. split; exists 1%nat; intros [|m] Hm; try lia; reflexivity. Qed.
Theorem C08_refuted_capacity k t :
  (k = SVec \/ k = SHSet) ->
  decodes c64 [] (TSeq k t) (repeat 255 8) (Panic PCapacity).
Proof. intros [-> | ->]; exists 1%nat; intros [|m] Hm; try lia; reflexivity. Qed.
(** ... on any machine, for any element type too large to be allocated 2^64-1 times. *)
Theorem C08_refuted_capacity_any c G k t :
  usize_bits c = 64 -> alloc_max c t < 2 ^ 64 - 1 -> (k = SVec \/ k = SHSet) ->
  decodes c G (TSeq k t) (repeat 255 8) (Panic PCapacity).
Proof.
  intros Hc Ha Hk. exists 1%nat. intros [|m] Hm; [lia|].
  unfold deserialize_bin. cbn [de_bin]. unfold bbind, rd_usize, usize_add, usize_mod.
  rewrite Hc. change (0 + 8 <? 2 ^ 64) with true. cbv iota.
  change ((0 <=? 0 + 8) && (0 + 8 <=? lenN (repeat 255 8))) with true. cbv iota.
  change (of_le (slice 0 8 (repeat 255 8)) mod 2 ^ 64) with (2 ^ 64 - 1).
  assert (X : with_capacity c t (2 ^ 64 - 1) = bfail (Panic PCapacity)).
  { unfold with_capacity. destruct (N.leb_spec (2 ^ 64 - 1) (alloc_max c t)); [lia|reflexivity]. }
  destruct Hk as [-> | ->]; rewrite X; reflexivity.
Qed.
Theorem C08_refuted_duration c G :
  cfg_ok c -> decodes c G TDur (repeat 255 8 ++ [0; 202; 154; 59]) (Panic PDuration).
Proof.
  intros [Hc|Hc]; exists 1%nat; (intros [|m] Hm; [lia|]);
    unfold deserialize_bin; cbn [de_bin]; unfold rd_dur, bbind, rd_fixed, usize_add, usize_mod; rewrite Hc; reflexivity.
Qed.
(** What does hold: a panic can only come from a length taken from the input
    inside String, Vec, HashSet, HashMap, or from Duration/SystemTime
    arithmetic; a type that contains none of these never panics, and decoding
    any type always ends. *)
Theorem C08_panics_classified_partial c G t d p (P : panic -> Prop) :
  cfg_ok c -> slice_fits c (lenN d) -> env_ok G -> ty_all (name_ok G) t ->
  env_all (fun u => forall q, node_panics c u q -> P q) G ->
  ty_all (fun u => forall q, node_panics c u q -> P q) t ->
  decodes c G t d (Panic p) -> P p.
Proof.
  intros Hc Hf [HN HD] Ht HG HT [n Hn]. specialize (Hn n (le_n _)). unfold deserialize_bin in Hn.
  set (Q := fun (_ : list N) (_ : N) (_ : berr) => True).
  assert (HA : forall (A B C : ty -> Prop), (forall u, A u -> B u -> C u) -> forall u, ty_all A u -> ty_all B u -> ty_all C u).
  { intros A B C H. apply (ty_ind2 (fun u => ty_all A u -> ty_all B u -> ty_all C u)); cbn [ty_all]; try (intuition; fail).
    intros ts Hts [A1 A2] [B1 B2]. split; [auto|]. apply ty_all_list in A2, B2. apply ty_all_list.
    clear A1 B1. induction Hts; inversion A2; inversion B2; subst; constructor; auto. }
  assert (HAF : forall (A B C : ty -> Prop), (forall u, A u -> B u -> C u) -> forall fs, Forall (field_all A) fs -> Forall (field_all B) fs -> Forall (field_all C) fs).
  { intros A B C H fs. induction fs; intros H1 H2; inversion H1; inversion H2; subst; constructor; auto. unfold field_all in *. eapply HA; eauto. }
  assert (HAT : forall (A B C : ty -> Prop), (forall u, A u -> B u -> C u) -> forall fs, Forall (ty_all A) fs -> Forall (ty_all B) fs -> Forall (ty_all C) fs).
  { intros A B C H fs. induction fs; intros H1 H2; inversion H1; inversion H2; subst; constructor; auto. eapply HA; eauto. }
  assert (Hnode : forall u, name_ok G u -> (forall q, node_panics c u q -> P q) -> node_good c G P Q u).
  { intros u U1 U2. split; [assumption|]. split; [exact (fun _ _ _ _ => I)|assumption]. }
  assert (HGood : env_all (node_good c G P Q) G).
  { unfold env_all in *. rewrite Forall_forall in *. intros dc Hin. specialize (HN dc Hin). specialize (HG dc Hin).
    destruct dc as [? ? fs|? fs|vs|pp tt]; simpl in *.
    - exact (HAF _ _ _ Hnode fs HN HG).
    - exact (HAF _ _ _ Hnode fs HN HG).
    - rewrite Forall_forall in *. intros v Hv. specialize (HN v Hv). specialize (HG v Hv).
      destruct (v_body v); [exact I|exact (HAT _ _ _ Hnode _ HN HG)|exact (HAF _ _ _ Hnode _ HN HG)].
    - exact (HA _ _ _ Hnode _ HN HG). }
  assert (HE := Ends_de c G Hc P Q (fun _ _ _ _ => I) HGood HD n t (HA _ _ _ Hnode t Ht HT) d 0 Hf ltac:(lia)).
  destruct (de_bin c G d n t 0) as [o' r]. simpl in Hn. subst r. exact HE.
Qed.
Print Assumptions C08_panics_classified_partial.

(** Types without String, Vec, HashSet, HashMap, Duration, SystemTime. *)
Definition panic_free_node (u : ty) : Prop :=
  match u with
  | TStr | TDur | TTime => False
  | TSeq SVec _ | TSeq SHSet _ | TMap MHash _ _ => False
  | _ => True
  end.
Lemma panic_free_none c u q : panic_free_node u -> node_panics c u q -> False.
Proof. destruct u; simpl; try tauto; destruct k; simpl; tauto. Qed.
Lemma ty_all_impl (A B : ty -> Prop) u : (forall x, A x -> B x) -> ty_all A u -> ty_all B u.
Proof.
  intro H. revert u. apply (ty_ind2 (fun u => ty_all A u -> ty_all B u)); cbn [ty_all]; try (intuition; fail).
  intros ts Hts [A1 A2]. split; [auto|]. apply ty_all_list in A2. apply ty_all_list.
  clear A1. induction Hts; inversion A2; subst; constructor; auto.
Qed.
Lemma env_all_impl (A B : ty -> Prop) G : (forall x, A x -> B x) -> env_all A G -> env_all B G.
Proof.
  intros H. unfold env_all. apply Forall_impl. intros [? ? fs|? fs|vs|p t]; simpl.
  - apply Forall_impl. intros f. apply ty_all_impl; assumption.
  - apply Forall_impl. intros f. apply ty_all_impl; assumption.
  - apply Forall_impl. intros v. destruct (v_body v); auto.
    + apply Forall_impl. intro. apply ty_all_impl; assumption.
    + apply Forall_impl. intro. apply ty_all_impl; assumption.
  - apply ty_all_impl; assumption.
Qed.
Theorem C08_no_panic_partial c G t d :
  cfg_ok c -> slice_fits c (lenN d) -> env_ok G -> guarded G -> ty_all (name_ok G) t ->
  env_all panic_free_node G -> ty_all panic_free_node t ->
  exists r, decodes c G t d r /\ ((exists v, r = Ok v) \/ (exists e, r = Err e)).
Proof.
  intros Hc Hf HE Hg Hn HG HT.
  destruct (de_bin_terminates c G d t 0 Hc Hg Hf ltac:(lia)) as (o' & r & Hr & [k Hk]).
  exists r. assert (HD : decodes c G t d r).
  { exists k. intros m Hm. unfold deserialize_bin. rewrite Hk by assumption. reflexivity. }
  split; [exact HD|].
  destruct r as [v|e|p|]; [left; eauto|right; eauto| |congruence].
  exfalso. apply (C08_panics_classified_partial c G t d p (fun _ => False) Hc Hf HE Hn); auto.
  - eapply env_all_impl; [|exact HG]. intros x Hx q. apply panic_free_none; assumption.
  - eapply ty_all_impl; [|exact HT]. intros x Hx q. apply panic_free_none; assumption.
Qed.
Print Assumptions C08_no_panic_partial.
(** A recursive type to which it applies: [enum Tree { Leaf(u32), Node(Box<Tree>, Box<Tree>) }]. *)
Definition Gtree : env :=
  [ DEnum [ {| v_name := chars "Leaf"; v_rename := None; v_body := BTuple [TInt U32] |};
            {| v_name := chars "Node"; v_rename := None; v_body := BTuple [TBox (TNamed 0); TBox (TNamed 0)] |} ] ].
Lemma Gtree_ok : env_ok Gtree.
Proof.
  unfold env_ok, env_all; split; repeat constructor; unfold name_ok, decl_ok, lenN; cbn; try lia.
Qed.
Lemma Gtree_guarded : guarded Gtree.
Proof. exists (fun _ => 0%nat). intros [|[|i]] d j E; inversion E; subst; simpl; tauto. Qed.
Example C08_ex d : slice_fits c64 (lenN d) ->
  exists r, decodes c64 Gtree (TNamed 0) d r /\ ((exists v, r = Ok v) \/ (exists e, r = Err e)).
Proof.
  intro Hf. apply C08_no_panic_partial; auto using c64_ok, Gtree_ok, Gtree_guarded.
  - cbn. unfold name_ok; cbn; lia.
  - unfold env_all; repeat (constructor; cbn; auto).
  - cbn; auto.
Qed.

(** * C09 *)
Definition width_of (t : ty) : option N :=
  match t with
  | TInt k => Some (N.of_nat (ik_bytes k))
  | TF32 => Some 4 | TF64 => Some 8 | TBool => Some 1
  | _ => None
  end.
(** A fixed-width read succeeds iff its bytes are there; otherwise the error is
    exact and the offset stays. *)
Theorem C09_fixed_width c G t w d o :
  cfg_ok c -> slice_fits c (lenN d) -> o <= lenN d -> width_of t = Some w ->
  (o + w <= lenN d -> exists v, decodes_at c G t d o (o + w) (Ok v)) /\
  (lenN d < o + w -> decodes_at c G t d o o (Err {| e_o := o; e_msg := ELength w (lenN d) |})).
Proof.
  intros Hc Hf Ho Hw. destruct (slice_fits_usize _ _ Hc Hf) as [A1 A2].
  assert (Hw16 : w <= 16).
  { destruct t; inversion Hw; subst; try lia. apply ik_bytes_le. }
  assert (F : forall A (g : list N -> A), 
     (o + w <= lenN d -> exists v, bmap g (rd_fixed c d w) o = (o + w, Ok v)) /\
     (lenN d < o + w -> bmap g (rd_fixed c d w) o = (o, Err {| e_o := o; e_msg := ELength w (lenN d) |}))).
  { intros A g. unfold bmap, bbind, rd_fixed. rewrite usize_add_ok by lia. split; intro H.
    - destruct (N.ltb_spec (lenN d) (o + w)); [lia|]. destruct (N.ltb_spec (o + w) o); [lia|].
      eexists; reflexivity.
    - destruct (N.ltb_spec (lenN d) (o + w)); [reflexivity|lia]. }
  assert (HU : (o + 8 <= lenN d -> exists v, bmap (fun m => VZ (Z.of_N m)) (rd_usize c d) o = (o + 8, Ok v)) /\
     (lenN d < o + 8 -> bmap (fun m => VZ (Z.of_N m)) (rd_usize c d) o = (o, Err {| e_o := o; e_msg := ELength 8 (lenN d) |}))).
  { unfold bmap, bbind, rd_usize. rewrite usize_add_ok by lia.
    destruct (N.leb_spec o (o + 8)); [|lia]. split; intro H1.
    - destruct (N.leb_spec (o + 8) (lenN d)); [eexists; reflexivity|lia].
    - destruct (N.leb_spec (o + 8) (lenN d)); [lia|reflexivity]. }
  assert (L : forall (m : bm val), (forall n, de_bin c G d (S n) t = m) ->
     (o + w <= lenN d -> exists v, m o = (o + w, Ok v)) /\
     (lenN d < o + w -> m o = (o, Err {| e_o := o; e_msg := ELength w (lenN d) |})) ->
     (o + w <= lenN d -> exists v, decodes_at c G t d o (o + w) (Ok v)) /\
     (lenN d < o + w -> decodes_at c G t d o o (Err {| e_o := o; e_msg := ELength w (lenN d) |}))).
  { intros m Em [M1 M2]. split; intro H.
    - destruct (M1 H) as [v Hv]. exists v, 1%nat. intros [|k] Hk; [lia|]. rewrite Em. assumption.
    - exists 1%nat. intros [|k] Hk; [lia|]. rewrite Em. auto. }
  destruct t; try discriminate; injection Hw as Hw.
  - destruct k; subst w; try (eapply L; [intro; cbn [de_bin]; reflexivity|apply F]).
    eapply L; [intro; cbn [de_bin]; reflexivity|]. exact HU.
  - subst w. eapply L; [intro; cbn [de_bin]; reflexivity|apply F].
  - subst w. eapply L; [intro; cbn [de_bin]; reflexivity|apply F].
  - subst w. eapply L; [intro; cbn [de_bin]; reflexivity|apply F].
Qed.
Print Assumptions C09_fixed_width.
(** Inside any type without String, every length error is exact in this sense. *)
Theorem C09_length_errors c G t d o o' e w total :
  cfg_ok c -> slice_fits c (lenN d) -> o <= lenN d -> env_ok G -> ty_all (name_ok G) t ->
  env_all (fun u => u <> TStr) G -> ty_all (fun u => u <> TStr) t ->
  decodes_at c G t d o o' (Err e) -> e_msg e = ELength w total ->
  e_o e = o' /\ total = lenN d /\ o' <= lenN d /\ lenN d < o' + w /\ In w [1; 2; 4; 8; 16].
Proof.
  intros Hc Hf Ho [HN HD] Ht HG HT [n Hn] Ee. specialize (Hn n (le_n _)).
  set (P := fun _ : panic => True).
  assert (Hnode : forall u, (name_ok G u /\ u <> TStr) -> node_good c G P len_accurate u).
  { intros u [U1 U2]. split; [exact (fun _ _ => I)|]. split; [|assumption].
    intros d0 o0 e0 H. destruct u; simpl in H; try contradiction. }
  assert (HE := Ends_de c G Hc P len_accurate (fun _ _ _ H => H)).
  assert (HC : forall u, ty_all (name_ok G) u -> ty_all (fun u => u <> TStr) u -> ty_all (node_good c G P len_accurate) u).
  { apply (ty_ind2 (fun u => ty_all (name_ok G) u -> ty_all (fun u => u <> TStr) u -> ty_all (node_good c G P len_accurate) u));
      cbn [ty_all]; intros; try (intuition; apply Hnode; intuition; fail).
    destruct H0 as [A1 A2]. destruct H1 as [B1 B2]. split; [apply Hnode; auto|].
    apply ty_all_list in A2, B2. apply ty_all_list. clear A1 B1.
    induction H; inversion A2; inversion B2; subst; constructor; auto. }
  assert (HCF : forall fs, Forall (field_all (name_ok G)) fs -> Forall (field_all (fun u => u <> TStr)) fs -> Forall (field_all (node_good c G P len_accurate)) fs).
  { induction fs; intros H1 H2; inversion H1; inversion H2; subst; constructor; auto. unfold field_all in *. auto. }
  assert (HCT : forall fs, Forall (ty_all (name_ok G)) fs -> Forall (ty_all (fun u => u <> TStr)) fs -> Forall (ty_all (node_good c G P len_accurate)) fs).
  { induction fs; intros H1 H2; inversion H1; inversion H2; subst; constructor; auto. }
  assert (HGood : env_all (node_good c G P len_accurate) G).
  { unfold env_all in *. rewrite Forall_forall in *. intros dc Hin. specialize (HN dc Hin). specialize (HG dc Hin).
    destruct dc as [? ? fs|? fs|vs|pp tt]; simpl in *; auto.
    rewrite Forall_forall in *. intros v Hv. specialize (HN v Hv). specialize (HG v Hv).
    destruct (v_body v); auto. }
  specialize (HE HGood HD n t (HC t Ht HT) d o Hf Ho). cbv beta in HE; rewrite Hn in HE. unfold len_accurate in HE. rewrite Ee in HE. exact HE.
Qed.
Print Assumptions C09_length_errors.
Example C09_ex : de_bin c64 Gtree [1; 0; 0; 0; 7; 0; 0; 0; 0] 9 (TNamed 0) 0
  = (8, Err {| e_o := 8; e_msg := ELength 2 9 |}).
Proof. reflexivity. Qed.

(** * C10 *)
Theorem C10_reencode_stable c G t d o o' v :
  cfg_ok c -> slice_fits c (lenN d) -> bytes_ok d -> o <= lenN d ->
  env_all lawful_node G -> Forall lawful_decl G -> ty_all lawful_node t ->
  decodes_at c G t d o o' (Ok v) ->
  exists bs, encodes G t v bs /\ (slice_fits c (lenN bs) -> decodes c G t bs (Ok v)).
Proof.
  intros Hc Hf Hb Ho HG HD Ht [n Hn]. specialize (Hn n (le_n _)).
  apply C01_bin_roundtrip; [assumption|]. exists n. apply valid_typed; auto.
  exact (de_valid c Hc G n t d o o' v Hf Hb Ho Hn).
Qed.
Print Assumptions C10_reencode_stable.
Theorem C10_canonical c G t d o o' v :
  cfg_ok c -> usize_bits c = 64 -> slice_fits c (lenN d) -> bytes_ok d -> o <= lenN d ->
  env_all canon_node G -> Forall lawful_decl G -> ty_all canon_node t ->
  decodes_at c G t d o o' (Ok v) -> encodes G t v (slice o (o' - o) d).
Proof.
  intros Hc H64 Hf Hb Ho HG HD Ht [n Hn]. specialize (Hn n (le_n _)).
  assert (HW := Eats_de c G Hc H64 HG HD n t Ht d o o' v Hf Hb Ho Hn). cbv beta in HW.
  assert (Hl : forall x, canon_node x -> lawful_node x) by (intros []; simpl; auto).
  assert (HT : has_type c G t v).
  { exists n. apply valid_typed; auto.
    - eapply env_all_impl; [|exact HG]. auto.
    - eapply ty_all_impl; [|exact Ht]. auto.
    - exact (de_valid c Hc G n t d o o' v Hf Hb Ho Hn). }
  apply (C04_wire_layout c); assumption.
Qed.
Print Assumptions C10_canonical.
Example C10_ex : deserialize_bin c64 [] [7] 1 TBool = Ok (VBool true) /\ serialize_bin [] 1 TBool (VBool true) = Ok [1]
  /\ deserialize_bin c64 [] [1] 1 TBool = Ok (VBool true).
Proof. repeat split. Qed.

(** * C11 *)
Theorem C11_decoded_valid c G t d o o' v :
  cfg_ok c -> slice_fits c (lenN d) -> bytes_ok d -> o <= lenN d ->
  decodes_at c G t d o o' (Ok v) -> valid c G t v.
Proof.
  intros Hc Hf Hb Ho [n Hn]. exists n. exact (de_valid c Hc G n t d o o' v Hf Hb Ho (Hn n (le_n _))).
Qed.
Print Assumptions C11_decoded_valid.
Example C11_ex : deserialize_bin c64 [] [3;0;0;0;0;0;0;0; 9; 2; 9] 2 (TSeq SBSet (TInt U8)) = Ok (VSeq [VZ 2; VZ 9]).
Proof. reflexivity. Qed.

(** * C12 *)
Lemma common_height {A} (R : nat -> A -> Prop) l :
  (forall n m a, (n <= m)%nat -> R n a -> R m a) -> Forall (fun a => exists n, R n a) l -> exists n, Forall (R n) l.
Proof.
  intros Hm. induction 1 as [|a l [n Hn] Hl [m Hl2]]; [exists 0%nat; constructor|].
  exists (n + m)%nat. constructor; [eapply Hm; [|exact Hn]; lia|].
  eapply Forall_impl; [|exact Hl2]. intros b. apply Hm. lia.
Qed.
(** Decoding an encoded entry sequence (with or without repeated keys) gives
    the map that binds each key to its last value. *)
Theorem C12_bin_map c G k tk tv l bs :
  cfg_ok c -> Forall (fun e => has_type c G tk (fst e) /\ has_type c G tv (snd e)) l ->
  lenN l < usize_mod c -> (k = MHash -> lenN l <= alloc_max c tk) ->
  wire G (TMap k tk tv) (VMap l) bs -> slice_fits c (lenN bs) ->
  exists m, decodes c G (TMap k tk tv) bs (Ok (VMap m)) /\ map_inv k m /\ NoDup (map fst m) /\
    forall a b, In (a, b) m <-> last_binding l a b.
Proof.
  intros Hc Hl Hlen Ha HW Hf.
  destruct (common_height (fun n e => fits px_inverse c G n tk (fst e) /\ fits px_inverse c G n tv (snd e)) l) as [n Hn].
  { intros n m a Hle [H1 H2]. split; eapply fits_mono; eauto using px_inverse_mono. }
  { eapply Forall_impl; [|exact Hl]. intros e [[n H1] [m H2]]. exists (n + m)%nat.
    split; [apply (fits_mono _ c G n)|apply (fits_mono _ c G m)]; auto using px_inverse_mono; lia. }
  destruct (map_codec c G n k tk tv l Hc (fun t v => codec c G n t v Hc) Hn Hlen) as (bs' & W & X & [R _]).
  { destruct k; auto. }
  destruct (wire_functional G) as [Hfun _]. rewrite (Hfun _ _ _ X _ HW) in *.
  specialize (R [] []). rewrite app_nil_r in R. simpl app in R. specialize (R Hf).
  destruct (de_returns c G bs (S n) _ _ _ _ R ltac:(discriminate)) as [j Hj].
  assert (Hi : map_inv k (map_of k l [])) by (apply map_of_keeps; destruct k; simpl; auto using NoDup_nil).
  exists (map_of k l []). split; [|split; [assumption|split]].
  - exists j. intros m Hm. unfold deserialize_bin. change 0 with (lenN (@nil N)). rewrite Hj by assumption. reflexivity.
  - apply (map_inv_NoDup k). assumption.
  - intros a b. rewrite map_of_spec by (destruct k; simpl; auto using NoDup_nil). simpl. tauto.
Qed.
Print Assumptions C12_bin_map.
Theorem C12_bin_set c G k t l bs :
  cfg_ok c -> Forall (has_type c G t) l ->
  lenN l < usize_mod c -> (k = SVec \/ k = SHSet -> lenN l <= alloc_max c t) ->
  wire G (TSeq k t) (VSeq l) bs -> slice_fits c (lenN bs) ->
  exists m, decodes c G (TSeq k t) bs (Ok (VSeq m)) /\ seq_inv k m /\
    (forall x, In x m <-> In x l) /\ (k = SVec \/ k = SList -> m = l).
Proof.
  intros Hc Hl Hlen Ha HW Hf.
  destruct (common_height (fun n e => fits px_inverse c G n t e) l) as [n Hn]; auto.
  { intros n m a Hle. apply fits_mono; auto using px_inverse_mono. }
  destruct (seq_codec c G n k t l Hc (fun t v => codec c G n t v Hc) Hn Hlen) as (bs' & W & X & [R _]).
  { destruct k; auto. }
  destruct (wire_functional G) as [Hfun _]. rewrite (Hfun _ _ _ X _ HW) in *.
  specialize (R [] []). rewrite app_nil_r in R. simpl app in R. specialize (R Hf).
  destruct (de_returns c G bs (S n) _ _ _ _ R ltac:(discriminate)) as [j Hj].
  exists (seq_of k l []). split; [|split; [|split]].
  - exists j. intros m Hm. unfold deserialize_bin. change 0 with (lenN (@nil N)). rewrite Hj by assumption. reflexivity.
  - apply seq_of_keeps. destruct k; simpl; auto using NoDup_nil.
  - intro x. rewrite seq_of_In. simpl. tauto.
  - intros Hk. change l with ([] ++ l) at 2. apply seq_of_inv. destruct Hk as [-> | ->]; exact I.
Qed.
Print Assumptions C12_bin_set.
Example C12_ex : deserialize_bin c64 [] [3;0;0;0;0;0;0;0; 9;1; 2;2; 9;3] 2 (TMap MBTree (TInt U8) (TInt U8))
  = Ok (VMap [(VZ 2, VZ 2); (VZ 9, VZ 3)]).
Proof. reflexivity. Qed.

(** * C13 *)
Theorem C13_discriminants c G i vs tag d o :
  cfg_ok c -> nth_error G i = Some (DEnum vs) -> slice_fits c (lenN d) ->
  o + 2 <= lenN d -> tag < 65536 -> slice o 2 d = [tag mod 256; tag / 256] ->
  (tag < lenN vs -> forall o' v, decodes_at c G (TNamed i) d o o' (Ok v) -> exists l, v = VEnum tag l) /\
  (lenN vs <= tag -> decodes_at c G (TNamed i) d o (o + 2) (Err {| e_o := 0; e_msg := EDiscriminant tag |})).
Proof.
  intros Hc HG Hf Ho Htag Hs. destruct (slice_fits_usize _ _ Hc Hf) as [A1 A2].
  assert (E2 : rd_fixed c d 2 o = (o + 2, Ok [tag mod 256; tag / 256])).
  { unfold rd_fixed. rewrite usize_add_ok by lia. rewrite Hs.
    destruct (N.ltb_spec (lenN d) (o + 2)); [lia|]. destruct (N.ltb_spec (o + 2) o); [lia|reflexivity]. }
  assert (Et : of_le [tag mod 256; tag / 256] = tag).
  { cbn [of_le]. assert (X := N.div_mod tag 256 ltac:(lia)). lia. }
  split.
  - intros Hlt o' v [n Hn]. specialize (Hn (S n) (le_S _ _ (le_n n))). rewrite de_bin_named, HG in Hn.
    unfold bbind in Hn at 1. rewrite E2 in Hn. cbv zeta in Hn. rewrite Et in Hn.
    destruct (nth_error vs (N.to_nat tag)) as [vr|]; [|discriminate].
    assert (M : forall A (g : A -> val) (m : bm A), bmap g m (o + 2) = (o', Ok v) -> exists a, v = g a).
    { intros A g m E. unfold bmap, bbind in E. destruct (m (o + 2)) as [o2 [a|e|p|]]; inversion E; eauto. }
    destruct (v_body vr).
    + inversion Hn; eauto.
    + eapply M; eauto.
    + eapply M; eauto.
  - intro Hge. exists 1%nat. intros [|n] Hn; [lia|]. rewrite de_bin_named, HG.
    unfold bbind at 1. rewrite E2. cbv zeta. rewrite Et.
    destruct (nth_error vs (N.to_nat tag)) as [vr|] eqn:E; [|reflexivity].
    assert (X : nth_error vs (N.to_nat tag) <> None) by congruence. apply nth_error_Some in X. unfold lenN in Hge. lia.
Qed.
Print Assumptions C13_discriminants.
Example C13_ex : deserialize_bin c64 Gtree [2; 1; 5; 5] 3 (TNamed 0) = Err {| e_o := 0; e_msg := EDiscriminant 258 |}.
Proof. reflexivity. Qed.
(** The tags of Option and bool are read leniently: an Option is Some on the byte 1 and
    None on any other, a bool false on the byte 0 and true on any other. *)
Theorem C13_bool c G d o x : cfg_ok c -> slice_fits c (lenN d) -> o + 1 <= lenN d -> slice o 1 d = [x] -> x < 256 ->
  decodes_at c G TBool d o (o + 1) (Ok (VBool (negb (x =? 0)))).
Proof.
  intros Hc Hf Ho Hs Hx. destruct (slice_fits_usize _ _ Hc Hf) as [A1 A2]. exists 1%nat. intros [|n] Hn; [lia|].
  cbn [de_bin]. unfold bmap, bbind, rd_fixed. rewrite usize_add_ok by lia. rewrite Hs.
  destruct (N.ltb_spec (lenN d) (o + 1)); [lia|]. destruct (N.ltb_spec (o + 1) o); [lia|].
  cbn [of_le]. rewrite N.mul_0_r, N.add_0_r. reflexivity.
Qed.
Print Assumptions C13_bool.
Theorem C13_option_tag c G t d o x : cfg_ok c -> slice_fits c (lenN d) -> o + 1 <= lenN d -> slice o 1 d = [x] -> x < 256 ->
  (x <> 1 -> decodes_at c G (TOpt t) d o (o + 1) (Ok VNone)) /\
  (x = 1 -> forall o' v, decodes_at c G t d (o + 1) o' (Ok v) -> decodes_at c G (TOpt t) d o o' (Ok (VSome v))) /\
  (x = 1 -> forall o' v, decodes_at c G (TOpt t) d o o' (Ok v) -> exists w, v = VSome w).
Proof.
  intros Hc Hf Ho Hs Hx. destruct (slice_fits_usize _ _ Hc Hf) as [A1 A2].
  assert (E : rd_fixed c d 1 o = (o + 1, Ok [x])).
  { unfold rd_fixed. rewrite usize_add_ok by lia. rewrite Hs.
    destruct (N.ltb_spec (lenN d) (o + 1)); [lia|]. destruct (N.ltb_spec (o + 1) o); [lia|reflexivity]. }
  assert (Ex : of_le [x] = x) by (cbn [of_le]; lia).
  split; [|split].
  - intro H1. exists 1%nat. intros [|n] Hn; [lia|]. cbn [de_bin]. unfold bbind at 1. rewrite E. cbv beta iota. rewrite Ex.
    rewrite (proj2 (N.eqb_neq x 1) H1). reflexivity.
  - intros -> o' v [n Hn]. exists (S n). intros [|m] Hm; [lia|]. cbn [de_bin]. unfold bbind at 1. rewrite E. cbv beta iota. rewrite Ex.
    change (1 =? 1) with true. cbv iota. unfold bmap, bbind. rewrite Hn by lia. reflexivity.
  - intros -> o' v [n Hn]. specialize (Hn (S n) (le_S _ _ (le_n n))). cbn [de_bin] in Hn. unfold bbind at 1 in Hn. rewrite E in Hn.
    cbv beta iota in Hn. rewrite Ex in Hn. change (1 =? 1) with true in Hn. cbv iota in Hn. unfold bmap, bbind in Hn.
    match type of Hn with context [match ?x with _ => _ end] => destruct x as [o2 [a|e|p|]] end; inversion Hn; eauto.
Qed.
Print Assumptions C13_option_tag.
Example C13_option_ex : deserialize_bin c64 [] [7; 9] 3 (TOpt TBool) = Ok VNone /\ deserialize_bin c64 [] [1; 9] 3 (TOpt TBool) = Ok (VSome (VBool true)).
Proof. split; reflexivity. Qed.

(** * C14 (binary part) *)
(** Two field lists that agree on the fields not marked skip. *)
Definition same_unskipped (fs : list field) (l1 l2 : list val) : Prop :=
  length l1 = length fs /\ length l2 = length fs /\
  forall j f, nth_error fs j = Some f -> f_skip f = false -> nth_error l1 j = nth_error l2 j.

Lemma ser_fields_same G n fs : forall l1 l2 out, same_unskipped fs l1 l2 ->
  ser_fields (ser_bin G n) true fs l1 out = ser_fields (ser_bin G n) true fs l2 out.
Proof.
  induction fs as [|f fs IH]; intros l1 l2 out (L1 & L2 & H).
  - destruct l1; [|discriminate]. destruct l2; [|discriminate]. reflexivity.
  - destruct l1 as [|v1 l1]; [discriminate|]. destruct l2 as [|v2 l2]; [discriminate|].
    assert (Hr : same_unskipped fs l1 l2).
    { simpl in L1, L2. split; [lia|]. split; [lia|]. intros j g Hj. exact (H (S j) g Hj). }
    cbn [ser_fields andb]. destruct (f_skip f) eqn:Ef; [apply IH; assumption|].
    assert (E := H 0%nat f eq_refl Ef). simpl in E. injection E as ->.
    unfold rbind. destruct (ser_bin G n (f_ty f) v2 out); auto.
Qed.

Lemma Forall2_len {A B} (R : A -> B -> Prop) l1 l2 : Forall2 R l1 l2 -> length l1 = length l2.
Proof. induction 1; simpl; congruence. Qed.

Theorem C14_bin_skip c G i dflt nl fs l :
  cfg_ok c -> nth_error G i = Some (DStruct dflt nl fs) ->
  Forall2 (fun f v => f_skip f = false -> has_type c G (f_ty f) v) fs l ->
  exists bs,
    (forall l', same_unskipped fs l l' -> encodes G (TNamed i) (VSeq l') bs) /\
    (slice_fits c (lenN bs) ->
     exists l2, decodes c G (TNamed i) bs (Ok (VSeq l2)) /\ same_unskipped fs l l2 /\
       forall j f, nth_error fs j = Some f -> f_skip f = true -> nth_error l2 j = Some (f_tydefault f)).
Proof.
  intros Hc HG Hl.
  assert (Hn : exists n, Forall2 (fun f v => f_skip f = false -> fits px_inverse c G n (f_ty f) v) fs l).
  { induction Hl as [|f v fs l Hv Hl IH]; [exists 0%nat; constructor|].
    assert (Hx : exists m, Forall2 (fun f v => f_skip f = false -> fits px_inverse c G m (f_ty f) v) fs l).
    { clear - Hl. induction Hl as [|f v fs l Hv Hl [n IH]]; [exists 0%nat; constructor|].
      destruct (f_skip f) eqn:Ef.
      - exists n. constructor; [congruence|assumption].
      - destruct (Hv eq_refl) as [m Hm]. exists (n + m)%nat. constructor.
        + intros _. apply (fits_mono _ c G m); auto using px_inverse_mono; lia.
        + eapply Forall2_impl; [|exact IH]. intros a b H E. apply (fits_mono _ c G n); auto using px_inverse_mono; lia. }
    destruct Hx as [n Hn]. destruct (f_skip f) eqn:Ef.
    - exists n. constructor; [congruence|assumption].
    - destruct (Hv eq_refl) as [m Hm]. exists (n + m)%nat. constructor.
      + intros _. apply (fits_mono _ c G m); auto using px_inverse_mono; lia.
      + eapply Forall2_impl; [|exact Hn]. intros a b H E. apply (fits_mono _ c G n); auto using px_inverse_mono; lia. }
  destruct Hn as [n Hn].
  destruct (fields_codec c G n (fun t v => codec c G n t v Hc) fs l Hn) as (bs & W & X & [R _]).
  exists bs. split.
  - intros l' Hs. apply (ser_returns G (S n) _ _ []). cbn [ser_bin]. rewrite HG.
    rewrite <- (ser_fields_same G n fs l l' [] Hs). apply W.
  - intro Hf. specialize (R [] []). rewrite app_nil_r in R. simpl app in R. specialize (R Hf).
    assert (Rd : de_bin c G bs (S n) (TNamed i) 0 = (0 + lenN bs, Ok (VSeq (reset fs l)))).
    { rewrite de_bin_named, HG. unfold bmap, bbind. change 0 with (lenN (@nil N)) at 1. rewrite R. reflexivity. }
    destruct (de_returns c G bs (S n) _ _ _ _ Rd ltac:(discriminate)) as [j Hj].
    exists (reset fs l). split; [|split].
    + exists j. intros m Hm. unfold deserialize_bin. rewrite Hj by assumption. reflexivity.
    + assert (L : length l = length fs) by (symmetry; eapply Forall2_len; eauto).
      split; [assumption|]. split.
      * unfold reset. rewrite map_length, combine_length. lia.
      * intros k f Hk Hs. unfold reset. rewrite nth_error_map.
        clear - L Hk Hs. revert l k L Hk. induction fs as [|g fs IH]; intros l k L Hk; [destruct k; discriminate|].
        destruct l as [|v l]; [discriminate|]. destruct k as [|k]; simpl in *.
        -- injection Hk as ->. rewrite Hs. reflexivity.
        -- apply IH; [lia|assumption].
    + intros k f Hk Hs. assert (L : length l = length fs) by (symmetry; eapply Forall2_len; eauto).
      unfold reset. rewrite nth_error_map.
      clear - L Hk Hs. revert l k L Hk. induction fs as [|g fs IH]; intros l k L Hk; [destruct k; discriminate|].
      destruct l as [|v l]; [discriminate|]. destruct k as [|k]; simpl in *.
      * injection Hk as ->. rewrite Hs. reflexivity.
      * apply IH; [lia|assumption].
Qed.
Print Assumptions C14_bin_skip.
(** The [cache] field of [Gex]'s struct may hold anything; it comes back as 0. *)
Example C14_ex : 
  serialize_bin Gex 6 (TNamed 1) (match vex with VSeq (a :: _ :: r) => VSeq (a :: VZ 77 :: r) | v => v end) = Ok bex
  /\ deserialize_bin c64 Gex bex 6 (TNamed 1) = Ok vex.
Proof. split; reflexivity. Qed.

(** * C15 *)
(** Bytes written on one machine are read on the other whenever the value
    exists there (all usize values and lengths fit). *)
Theorem C15_portable c1 c2 G t v bs :
  cfg_ok c1 -> cfg_ok c2 -> has_type c1 G t v -> has_type c2 G t v ->
  encodes G t v bs -> slice_fits c2 (lenN bs) -> decodes c2 G t bs (Ok v).
Proof.
  intros _ Hc2 _ H2 HE Hf. destruct (C01_bin_roundtrip c2 G t v Hc2 H2) as (bs' & E' & D).
  assert (Q := returns_inj _ _ _ HE E'). injection Q as ->. auto.
Qed.
Print Assumptions C15_portable.
Theorem C15_usize_portable c G z :
  cfg_ok c -> (0 <= z < 2 ^ 32)%Z ->
  exists bs, encodes G (TInt Usize) (VZ z) bs /\ length bs = 8%nat /\ decodes c G (TInt Usize) bs (Ok (VZ z)).
Proof.
  intros Hc Hz.
  assert (HT : has_type c G (TInt Usize) (VZ z)).
  { exists 1%nat. cbn. unfold int_ok, ik_min, ik_sup, usize_mod. cbn [ik_signed].
    destruct Hc as [E|E]; rewrite E; lia. }
  destruct (C01_bin_roundtrip c G _ _ Hc HT) as (bs & HE & HD).
  assert (HW := proj1 (C04_wire_layout c G _ _ bs Hc HT) HE). inversion HW; subst.
  match goal with H : is_le _ _ _ |- _ => destruct H as [HL _] end. simpl in HL.
  exists bs. split; [assumption|]. split; [assumption|]. apply HD.
  unfold slice_fits, lenN. rewrite HL. destruct Hc as [E|E]; rewrite E; reflexivity.
Qed.
Print Assumptions C15_usize_portable.
(** Refuted: a usize that does not fit 32 bits is silently truncated. *)
Theorem C15_refuted_silent_truncation z :
  (2 ^ 32 <= z < 2 ^ 64)%Z ->
  exists bs, encodes [] (TInt Usize) (VZ z) bs /\ decodes c32 [] (TInt Usize) bs (Ok (VZ (z mod 2 ^ 32))).
Proof.
  intro Hz. exists (le_bytes 8 (Z.to_N z)). split.
  - exists 1%nat. intros [|n] Hn; [lia|]. cbn [serialize_bin ser_bin]. unfold serialize_bin. cbn [ser_bin].
    unfold ser_usize, emit. rewrite N.mod_small by lia. reflexivity.
  - exists 1%nat. intros [|n] Hn; [lia|]. unfold deserialize_bin. cbn [de_bin]. unfold bmap, bbind.
    change (rd_usize c32 (le_bytes 8 (Z.to_N z)) 0) with (8, @Ok berr N (of_le (slice 0 8 (le_bytes 8 (Z.to_N z))) mod 2 ^ 32)).
    change (slice 0 8 (le_bytes 8 (Z.to_N z))) with (le_bytes 8 (Z.to_N z)).
    rewrite of_le_le_bytes by (change (256 ^ N.of_nat 8) with (2 ^ 64); lia).
    unfold bret, snd. do 2 f_equal. rewrite N2Z.inj_mod, Z2N.id by lia. reflexivity.
Qed.
Print Assumptions C15_refuted_silent_truncation.

(** * C16 (binary part) *)
Theorem C16_bin_proxy c G p t v bs :
  cfg_ok c -> has_type c G t (p_to p v) -> encodes G t (p_to p v) bs ->
  encodes G (TProxy p t) v bs /\
  (slice_fits c (lenN bs) -> decodes c G (TProxy p t) bs (Ok (p_from p (p_to p v)))).
Proof.
  intros Hc Ht HE. split.
  - destruct HE as [n Hn]. exists (S n). intros [|m] Hm; [lia|]. rewrite <- (Hn m) by lia.
    unfold serialize_bin. cbn [ser_bin]. destruct v; reflexivity.
  - intro Hf. destruct (C01_bin_roundtrip c G t _ Hc Ht) as (bs' & E' & D).
    assert (Q := returns_inj _ _ _ HE E'). injection Q as <-. destruct (D Hf) as [n Hn].
    exists (S n). intros [|m] Hm; [lia|]. specialize (Hn m ltac:(lia)).
    unfold deserialize_bin in *. cbn [de_bin]. unfold bmap, bbind.
    destruct (de_bin c G bs m t 0) as [o' r]. simpl in Hn. subst r. reflexivity.
Qed.
Print Assumptions C16_bin_proxy.
Theorem C16_bin_container_proxy c G i p t v bs :
  cfg_ok c -> nth_error G i = Some (DProxy p t) ->
  has_type c G t (p_to p v) -> encodes G t (p_to p v) bs ->
  encodes G (TNamed i) v bs /\
  (slice_fits c (lenN bs) -> decodes c G (TNamed i) bs (Ok (p_from p (p_to p v)))).
Proof.
  intros Hc HG Ht HE. split.
  - destruct HE as [n Hn]. exists (S n). intros [|m] Hm; [lia|]. rewrite <- (Hn m) by lia.
    unfold serialize_bin. cbn [ser_bin]. rewrite HG. destruct v; reflexivity.
  - intro Hf. destruct (C01_bin_roundtrip c G t _ Hc Ht) as (bs' & E' & D).
    assert (Q := returns_inj _ _ _ HE E'). injection Q as <-. destruct (D Hf) as [n Hn].
    exists (S n). intros [|m] Hm; [lia|]. specialize (Hn m ltac:(lia)).
    unfold deserialize_bin in *. rewrite de_bin_named, HG. unfold bmap, bbind.
    destruct (de_bin c G bs m t 0) as [o' r]. simpl in Hn. subst r. reflexivity.
Qed.
Print Assumptions C16_bin_container_proxy.
Example C16_ex : serialize_bin [] 3 (TProxy swap_proxy (TTup [TInt U8; TInt U8])) (VSeq [VZ 3; VZ 4]) = Ok [4; 3].
Proof. reflexivity. Qed.
