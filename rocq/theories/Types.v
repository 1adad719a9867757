(** The universe of Rust types nanoserde implements its traits for, and their
    values. *)
From Verif Require Import Base Utf8.
Local Open Scope N_scope.

(** Integer kinds: serde_bin.rs:154-164 (macro instances), 166-194 (usize), 196-217 (u8). *)
Inductive ik := U8 | U16 | U32 | U64 | U128 | Usize | I8 | I16 | I32 | I64 | I128.

(** Homogeneous sequence types: Vec, LinkedList, HashSet, BTreeSet. *)
Inductive seqk := SVec | SList | SHSet | SBSet.
(** Map types: HashMap, BTreeMap. *)
Inductive mapk := MHash | MBTree.

(** Values. One untyped universe; [has_type] below says which values a type has.
    [VZ] integers; [VF] a float as its IEEE bit pattern; [VStr] a string as its
    Unicode scalar values; [VSeq] anything positional: Vec, list, set (in
    iteration order), array, tuple, struct (declaration order); [VMap] the
    entries of a map in iteration order; [VEnum i l] variant number [i];
    [VDur] seconds and nanoseconds; [VTime] seconds relative to the Unix epoch
    and nanoseconds. Box is invisible. *)
Inductive val :=
| VZ (z : Z)
| VF (bits : N)
| VBool (b : bool)
| VStr (s : str)
| VUnit
| VNone
| VSome (v : val)
| VSeq (l : list val)
| VMap (l : list (val * val))
| VEnum (tag : N) (l : list val)
| VDur (secs nanos : N)
| VTime (secs : Z) (nanos : N).

(** User conversions of [#[nserde(proxy = "P")]]: [p_to] is
    [Into<P> for &T], [p_from] is [Into<T> for &P]. *)
Record proxy := { p_to : val -> val; p_from : val -> val }.

(** Type descriptions. [TNamed n] is the n-th declaration of the environment. *)
Inductive ty :=
| TInt (k : ik)
| TF32 | TF64
| TBool
| TStr
| TUnit
| TOpt (t : ty)
| TSeq (k : seqk) (t : ty)
| TMap (k : mapk) (tk tv : ty)
| TArr (n : nat) (t : ty)
| TTup (ts : list ty)
| TBox (t : ty)
| TDur
| TTime
| TProxy (p : proxy) (t : ty)
| TNamed (n : nat).

(** A struct field as seen by the derive macros (derive/src/shared.rs:17-89).
    [f_name] the Rust identifier, [f_rename] the [rename] attribute, [f_skip]
    the [skip] attribute, [f_isopt] the macro's syntactic test that the type is
    written [Option<..>], [f_default]: the value of a [default]/[default_with]
    attribute on the field (already evaluated), [f_tydefault] the value of
    [Default::default()] for the field's type, [f_null]
    [serialize_none_as_null] on the field, [f_hasproxy] the field has a [proxy]
    attribute (then [f_ty] is a [TProxy]). *)
Record field := {
  f_name : str;
  f_rename : option str;
  f_skip : bool;
  f_isopt : bool;
  f_default : option val;
  f_tydefault : val;
  f_null : bool;
  f_hasproxy : bool;
  f_ty : ty
}.

(** Body of an enum variant (derive/src/serde_bin.rs:232-290). *)
Inductive vbody :=
| BUnit
| BTuple (ts : list ty)
| BStruct (fs : list field).

Record variant := { v_name : str; v_rename : option str; v_body : vbody }.

(** Declarations: derive input after parsing.  [DStruct dflt null fs]: struct
    with named fields, [dflt] = container-level [default], [null] =
    container-level [serialize_none_as_null]; [DTuple transparent fs]: struct
    with unnamed fields; [DEnum vs]; [DProxy p t]: container level [proxy]. *)
Inductive decl :=
| DStruct (dflt null : bool) (fs : list field)
| DTuple (transparent : bool) (fs : list field)
| DEnum (vs : list variant)
| DProxy (p : proxy) (t : ty).

Definition env := list decl.

(** The machine the code was compiled for.  [usize_bits] is 32 or 64 on the
    platforms Rust supports; [overflow_checks] is true in debug builds;
    [alloc_max t]: [with_capacity(n)] for elements of type [t] (for maps: of the
    key type) succeeds iff [n <= alloc_max t], otherwise it panics with
    "capacity overflow" or aborts for lack of memory; [time_max] is the largest number of
    seconds after the epoch a SystemTime can hold (i64::MAX on unix). *)
Record cfg := {
  usize_bits : N;
  overflow_checks : bool;
  alloc_max : ty -> N;
  time_max : N
}.

Definition cfg_ok (c : cfg) : Prop := usize_bits c = 32 \/ usize_bits c = 64.

Definition usize_mod (c : cfg) : N := 2 ^ usize_bits c.

(** The number of bytes of any Rust slice fits isize. *)
Definition slice_fits (c : cfg) (n : N) : Prop := n < 2 ^ (usize_bits c - 1).

(** usize addition [a + b]: panics on overflow in debug, wraps in release. *)
Definition usize_add {E} (c : cfg) (a b : N) : res E N :=
  if a + b <? usize_mod c then Ok (a + b)
  else if overflow_checks c then Panic POverflow
  else Ok ((a + b) mod usize_mod c).

(** Width in bytes on the wire (usize is 8 on every target). *)
Definition ik_bytes (k : ik) : nat :=
  match k with
  | U8 | I8 => 1 | U16 | I16 => 2 | U32 | I32 => 4
  | U64 | I64 | Usize => 8 | U128 | I128 => 16
  end.

Definition ik_signed (k : ik) : bool :=
  match k with I8 | I16 | I32 | I64 | I128 => true | _ => false end.

(** Range of an integer kind, least value and first value above. *)
Definition ik_min (k : ik) : Z :=
  if ik_signed k then (- 2 ^ (8 * Z.of_nat (ik_bytes k) - 1))%Z else 0%Z.
Definition ik_sup (c : cfg) (k : ik) : Z :=
  match k with
  | Usize => Z.of_N (usize_mod c)
  | _ => if ik_signed k then (2 ^ (8 * Z.of_nat (ik_bytes k) - 1))%Z
         else (2 ^ (8 * Z.of_nat (ik_bytes k)))%Z
  end.
Definition int_ok (c : cfg) (k : ik) (z : Z) : Prop := (ik_min k <= z < ik_sup c k)%Z.

(** ** Order and equality of values: what [derive(PartialOrd, Ord, Eq)] and the
    std implementations give (lexicographic for strings, sequences, tuples and
    structs; None before Some; variants in declaration order). *)
Definition then_cmp (a b : comparison) : comparison :=
  match a with Eq => b | _ => a end.

Definition vrank (v : val) : nat :=
  match v with
  | VZ _ => 0 | VF _ => 1 | VBool _ => 2 | VStr _ => 3 | VUnit => 4 | VNone => 5
  | VSome _ => 6 | VSeq _ => 7 | VMap _ => 8 | VEnum _ _ => 9 | VDur _ _ => 10
  | VTime _ _ => 11
  end.

Definition bool_cmp (a b : bool) : comparison :=
  match a, b with
  | false, true => Lt | true, false => Gt | _, _ => Eq
  end.

Section ListCmp.
  Context {A : Type}.
  Variable cmp : A -> A -> comparison.
  Fixpoint list_cmp (l1 l2 : list A) : comparison :=
    match l1, l2 with
    | [], [] => Eq
    | [], _ :: _ => Lt
    | _ :: _, [] => Gt
    | a :: l1', b :: l2' => then_cmp (cmp a b) (list_cmp l1' l2')
    end.
End ListCmp.

Fixpoint val_cmp (x y : val) {struct x} : comparison :=
  match x, y with
  | VZ a, VZ b => Z.compare a b
  | VF a, VF b => N.compare a b
  | VBool a, VBool b => bool_cmp a b
  | VStr a, VStr b => list_cmp N.compare a b
  | VUnit, VUnit => Eq
  | VNone, VNone => Eq
  | VSome a, VSome b => val_cmp a b
  | VSeq a, VSeq b => list_cmp val_cmp a b
  | VMap a, VMap b =>
    list_cmp (fun p q => match p with (pk, pv) =>
                 then_cmp (val_cmp pk (fst q)) (val_cmp pv (snd q)) end) a b
  | VEnum i a, VEnum j b => then_cmp (N.compare i j) (list_cmp val_cmp a b)
  | VDur a b, VDur a' b' => then_cmp (N.compare a a') (N.compare b b')
  | VTime a b, VTime a' b' => then_cmp (Z.compare a a') (N.compare b b')
  | _, _ => Nat.compare (vrank x) (vrank y)
  end.

Definition val_eqb (x y : val) : bool :=
  match val_cmp x y with Eq => true | _ => false end.

(** ** Insertion into collections *)

(** BTreeSet::insert on the sorted contents. *)
Fixpoint bset_insert (x : val) (l : list val) : list val :=
  match l with
  | [] => [x]
  | y :: l' =>
    match val_cmp x y with
    | Lt => x :: l
    | Eq => l
    | Gt => y :: bset_insert x l'
    end
  end.

(** BTreeMap::insert: an existing key keeps its place, its value is replaced. *)
Fixpoint bmap_insert (k v : val) (l : list (val * val)) : list (val * val) :=
  match l with
  | [] => [(k, v)]
  | (k', v') :: l' =>
    match val_cmp k k' with
    | Lt => (k, v) :: l
    | Eq => (k', v) :: l'
    | Gt => (k', v') :: bmap_insert k v l'
    end
  end.

(** HashSet::insert / HashMap::insert. A hash collection is represented by the
    duplicate-free list of its contents in iteration order; that order is
    unspecified in Rust, theorems quantify over all of them. *)
Fixpoint hset_insert (x : val) (l : list val) : list val :=
  match l with
  | [] => [x]
  | y :: l' => if val_eqb x y then l else y :: hset_insert x l'
  end.

Fixpoint hmap_insert (k v : val) (l : list (val * val)) : list (val * val) :=
  match l with
  | [] => [(k, v)]
  | (k', v') :: l' => if val_eqb k k' then (k', v) :: l' else (k', v') :: hmap_insert k v l'
  end.

(** Adding one decoded element: push / push_back / insert
    (serde_bin.rs:304,331,360,387 and the JSON/RON analogues). *)
Definition seq_add (k : seqk) (x : val) (l : list val) : list val :=
  match k with
  | SVec | SList => l ++ [x]
  | SHSet => hset_insert x l
  | SBSet => bset_insert x l
  end.
Definition map_add (k : mapk) (x y : val) (l : list (val * val)) : list (val * val) :=
  match k with
  | MHash => hmap_insert x y l
  | MBTree => bmap_insert x y l
  end.

(** ** Invariants of collections *)
Definition vlt (x y : val) : Prop := val_cmp x y = Lt.

(** Strictly ascending: each element below every later one. *)
Fixpoint ascending (l : list val) : Prop :=
  match l with
  | [] => True
  | x :: r => Forall (vlt x) r /\ ascending r
  end.

Definition seq_inv (k : seqk) (l : list val) : Prop :=
  match k with
  | SVec | SList => True
  | SHSet => NoDup l
  | SBSet => ascending l
  end.
Definition map_inv (k : mapk) (l : list (val * val)) : Prop :=
  match k with
  | MHash => NoDup (map fst l)
  | MBTree => ascending (map fst l)
  end.


(** ** Typing of values *)

(** What it means to be a value of a proxied type, given the values of the
    proxy type.  [px_inverse]: converting to the proxy and back is the identity
    on this value (needed for a round trip). [px_image]: the value is the image
    of a proxy value (all that decoding can promise). *)
Definition px_rule := proxy -> (val -> Prop) -> val -> Prop.
Definition px_inverse : px_rule := fun p P v => P (p_to p v) /\ p_from p (p_to p v) = v.
Definition px_image : px_rule := fun p P v => exists w, P w /\ v = p_from p w.

(** [fits px c G n t v]: [v] is a value of type [t] on machine [c] with
    declarations [G], by a derivation of height at most [n].  Skipped struct
    fields must hold their default, a SystemTime must not precede the epoch:
    other values exist in Rust, they are treated separately (C14, C01's note).
    Collections hold as many elements as memory allows. *)
Fixpoint fits (px : px_rule) (c : cfg) (G : env) (n : nat) (t : ty) (v : val) {struct n} : Prop :=
  match n with
  | O => False
  | S n' =>
    let fit := fits px c G n' in
    let field_fits := fun f v => if f_skip f then v = f_tydefault f else fit (f_ty f) v in
    match t, v with
    | TInt k, VZ z => int_ok c k z
    | TF32, VF b => b < 2 ^ 32
    | TF64, VF b => b < 2 ^ 64
    | TBool, VBool _ => True
    | TStr, VStr s => Forall scalar s /\ lenN (utf8_enc s) < usize_mod c
    | TUnit, VUnit => True
    | TOpt _, VNone => True
    | TOpt t', VSome w => fit t' w
    | TSeq k t', VSeq l =>
      Forall (fit t') l /\ seq_inv k l /\ lenN l < usize_mod c /\
      match k with SVec | SHSet => lenN l <= alloc_max c t' | _ => True end
    | TMap k tk tv, VMap l =>
      Forall (fun e => fit tk (fst e) /\ fit tv (snd e)) l /\ map_inv k l /\ lenN l < usize_mod c /\
      match k with MHash => lenN l <= alloc_max c tk | MBTree => True end
    | TArr m t', VSeq l => length l = m /\ Forall (fit t') l
    | TTup ts, VSeq l => Forall2 fit ts l
    | TBox t', w => fit t' w
    | TDur, VDur s ns => s < 2 ^ 64 /\ ns < 1000000000
    | TTime, VTime s ns => (0 <= s < 2 ^ 64)%Z /\ (s <= Z.of_N (time_max c))%Z /\ ns < 1000000000
    | TProxy p t', w => px p (fit t') w
    | TNamed i, w =>
      match nth_error G i, w with
      | Some (DStruct _ _ fs), VSeq l => Forall2 field_fits fs l
      | Some (DTuple _ fs), VSeq l => existsb f_skip fs = false /\ Forall2 field_fits fs l
      | Some (DProxy p t'), w' => px p (fit t') w'
      | Some (DEnum vs), VEnum tag l =>
        tag < 65536 /\
        match nth_error vs (N.to_nat tag) with
        | None => False
        | Some vr =>
          match v_body vr with
          | BUnit => l = []
          | BTuple ts => Forall2 fit ts l
          | BStruct fs => Forall2 (fun f w => fit (f_ty f) w) fs l
          end
        end
      | _, _ => False
      end
    | _, _ => False
    end
  end.

(** The values of a Rust type that binary serialization can carry. *)
Definition has_type (c : cfg) (G : env) (t : ty) (v : val) : Prop :=
  exists n, fits px_inverse c G n t v.

(** Valid values, proxied types being read as images of their proxies. *)
Definition valid (c : cfg) (G : env) (t : ty) (v : val) : Prop :=
  exists n, fits px_image c G n t v.

(** ** The order is a total order *)
Section ValInd.
  Variable P : val -> Prop.
  Hypothesis Hz : forall z, P (VZ z).
  Hypothesis Hf : forall b, P (VF b).
  Hypothesis Hb : forall b, P (VBool b).
  Hypothesis Hs : forall s, P (VStr s).
  Hypothesis Hu : P VUnit.
  Hypothesis Hn : P VNone.
  Hypothesis Hsome : forall v, P v -> P (VSome v).
  Hypothesis Hseq : forall l, Forall P l -> P (VSeq l).
  Hypothesis Hmap : forall l, Forall (fun p => P (fst p) /\ P (snd p)) l -> P (VMap l).
  Hypothesis Henum : forall i l, Forall P l -> P (VEnum i l).
  Hypothesis Hdur : forall a b, P (VDur a b).
  Hypothesis Htime : forall a b, P (VTime a b).
  Fixpoint val_ind2 (v : val) : P v :=
    let go := fix go (l : list val) : Forall P l :=
      match l with
      | [] => Forall_nil P
      | x :: r => Forall_cons x (val_ind2 x) (go r)
      end in
    match v with
    | VZ z => Hz z | VF b => Hf b | VBool b => Hb b | VStr s => Hs s
    | VUnit => Hu | VNone => Hn
    | VSome v => Hsome v (val_ind2 v)
    | VSeq l => Hseq l (go l)
    | VMap l => Hmap l ((fix gom (l : list (val * val)) : Forall (fun p => P (fst p) /\ P (snd p)) l :=
        match l with
        | [] => Forall_nil _
        | (x, y) :: r => Forall_cons (x, y) (conj (val_ind2 x) (val_ind2 y)) (gom r)
        end) l)
    | VEnum i l => Henum i l (go l)
    | VDur a b => Hdur a b
    | VTime a b => Htime a b
    end.
End ValInd.


Lemma then_cmp_Eq a b : then_cmp a b = Eq <-> a = Eq /\ b = Eq.
Proof. destruct a; simpl; intuition congruence. Qed.
Lemma then_cmp_Lt a b : then_cmp a b = Lt <-> a = Lt \/ (a = Eq /\ b = Lt).
Proof. destruct a; simpl; intuition congruence. Qed.
Lemma then_cmp_opp a b : CompOpp (then_cmp a b) = then_cmp (CompOpp a) (CompOpp b).
Proof. destruct a; reflexivity. Qed.

Section ListCmpFacts.
  Context {A : Type} (cmp : A -> A -> comparison).
  Lemma list_cmp_eq l :
    Forall (fun x => forall y, cmp x y = Eq <-> x = y) l ->
    forall l2, list_cmp cmp l l2 = Eq <-> l = l2.
  Proof.
    induction 1 as [|x l Hx Hl IH]; intros [|y l2]; simpl; try (split; congruence).
    rewrite then_cmp_Eq, Hx, IH. split; [intros [-> ->]; reflexivity|].
    intro H; inversion H; auto.
  Qed.
  Lemma list_cmp_opp l :
    Forall (fun x => forall y, cmp y x = CompOpp (cmp x y)) l ->
    forall l2, list_cmp cmp l2 l = CompOpp (list_cmp cmp l l2).
  Proof.
    induction 1 as [|x l Hx Hl IH]; intros [|y l2]; simpl; try reflexivity.
    rewrite Hx, IH, then_cmp_opp. reflexivity.
  Qed.
  Hypothesis Heq : forall x y, cmp x y = Eq -> x = y.
  Lemma list_cmp_trans l :
    Forall (fun x => forall y z, cmp x y = Lt -> cmp y z = Lt -> cmp x z = Lt) l ->
    forall l2 l3, list_cmp cmp l l2 = Lt -> list_cmp cmp l2 l3 = Lt -> list_cmp cmp l l3 = Lt.
  Proof.
    induction 1 as [|x l Hx Hl IH]; intros [|y l2] [|z l3]; simpl; try congruence.
    rewrite !then_cmp_Lt. intros [H1|[H1 H1']] [H2|[H2 H2']].
    - left; eauto.
    - apply Heq in H2. subst z. left; assumption.
    - apply Heq in H1. subst y. left; assumption.
    - assert (x = y) by auto. subst y. right. eauto.
  Qed.
End ListCmpFacts.

Lemma val_cmp_eq x : forall y, val_cmp x y = Eq <-> x = y.
Proof.
  induction x as [z|b|b|s| | |v IH|l IH|l IH|i l IH|a b|a b] using val_ind2; intros y;
    destruct y; cbn [val_cmp vrank Nat.compare]; try (split; intros; discriminate).
  - rewrite Z.compare_eq_iff. split; congruence.
  - rewrite N.compare_eq_iff. split; congruence.
  - destruct b, b0; simpl; split; congruence.
  - rewrite list_cmp_eq; [split; congruence|].
    apply Forall_forall. intros. apply N.compare_eq_iff.
  - split; reflexivity.
  - split; reflexivity.
  - rewrite IH. split; congruence.
  - rewrite list_cmp_eq by assumption. split; congruence.
  - rewrite list_cmp_eq; [split; congruence|].
    eapply Forall_impl; [|exact IH]. intros [k v] [H1 H2] [k' v']. simpl in *.
    rewrite then_cmp_Eq, H1, H2. split; [intros [-> ->]; reflexivity|]. intro H; inversion H; auto.
  - rewrite then_cmp_Eq, N.compare_eq_iff, list_cmp_eq by assumption.
    split; [intros [-> ->]; reflexivity|]. intro H; inversion H; auto.
  - rewrite then_cmp_Eq, !N.compare_eq_iff.
    split; [intros [-> ->]; reflexivity|]. intro H; inversion H; auto.
  - rewrite then_cmp_Eq, Z.compare_eq_iff, N.compare_eq_iff.
    split; [intros [-> ->]; reflexivity|]. intro H; inversion H; auto.
Qed.

Lemma val_cmp_opp x : forall y, val_cmp y x = CompOpp (val_cmp x y).
Proof.
  induction x as [z|b|b|s| | |v IH|l IH|l IH|i l IH|a b|a b] using val_ind2; intros y;
    destruct y; cbn [val_cmp vrank Nat.compare CompOpp]; try reflexivity.
  - apply Z.compare_antisym.
  - apply N.compare_antisym.
  - destruct b, b0; reflexivity.
  - apply list_cmp_opp. apply Forall_forall. intros. apply N.compare_antisym.
  - apply IH.
  - apply list_cmp_opp. assumption.
  - apply list_cmp_opp. eapply Forall_impl; [|exact IH].
    intros [k v] [H1 H2] [k' v']. simpl in *. rewrite H1, H2, then_cmp_opp. reflexivity.
  - rewrite then_cmp_opp, <- N.compare_antisym, <- list_cmp_opp by assumption. reflexivity.
  - rewrite then_cmp_opp, <- !N.compare_antisym. reflexivity.
  - rewrite then_cmp_opp, <- N.compare_antisym, <- Z.compare_antisym. reflexivity.
Qed.

Lemma val_cmp_trans x : forall y z, val_cmp x y = Lt -> val_cmp y z = Lt -> val_cmp x z = Lt.
Proof.
  induction x as [z|b|b|s| | |v IH|l IH|l IH|i l IH|a b|a b] using val_ind2; intros y w;
    destruct y; cbn [val_cmp vrank Nat.compare]; try (intros; discriminate);
    destruct w; cbn [val_cmp vrank Nat.compare]; try (intros; discriminate); try reflexivity.
  - rewrite !Z.compare_lt_iff. lia.
  - rewrite !N.compare_lt_iff. lia.
  - destruct b, b0, b1; simpl; congruence.
  - apply list_cmp_trans; [intros; apply N.compare_eq_iff; assumption|].
    apply Forall_forall. intros a _ b c. rewrite !N.compare_lt_iff. lia.
  - apply IH.
  - apply list_cmp_trans; [intros ? ?; apply val_cmp_eq | assumption].
  - apply list_cmp_trans.
    + intros [k v] [k' v']. simpl. rewrite then_cmp_Eq. intros [H1 H2].
      apply val_cmp_eq in H1. apply val_cmp_eq in H2. congruence.
    + eapply Forall_impl; [|exact IH].
      intros [k v] [H1 H2] [k1 v1] [k2 v2]. simpl in *. rewrite !then_cmp_Lt.
      intros [A|[A A']] [B|[B B']].
      * left; eauto.
      * apply val_cmp_eq in B; subst; left; assumption.
      * apply val_cmp_eq in A; subst; left; assumption.
      * apply val_cmp_eq in A; subst. right; eauto.
  - rewrite !then_cmp_Lt, !N.compare_lt_iff, !N.compare_eq_iff.
    intros [A|[A A']] [B|[B B']]; try (left; lia). right. split; [lia|].
    eapply list_cmp_trans; eauto. intros ? ?; apply val_cmp_eq.
  - rewrite !then_cmp_Lt, !N.compare_lt_iff, !N.compare_eq_iff. lia.
  - rewrite !then_cmp_Lt, !N.compare_lt_iff, !Z.compare_lt_iff, !Z.compare_eq_iff. lia.
Qed.

Lemma val_cmp_refl x : val_cmp x x = Eq.
Proof. apply val_cmp_eq. reflexivity. Qed.

Lemma val_cmp_gt x y : val_cmp x y = Gt <-> vlt y x.
Proof.
  unfold vlt. rewrite (val_cmp_opp x y). destruct (val_cmp x y); simpl; split; congruence.
Qed.

Lemma vlt_trans x y z : vlt x y -> vlt y z -> vlt x z.
Proof. apply val_cmp_trans. Qed.
Lemma vlt_irrefl x : ~ vlt x x.
Proof. unfold vlt. rewrite val_cmp_refl. discriminate. Qed.

Lemma val_eqb_eq x y : val_eqb x y = true <-> x = y.
Proof.
  unfold val_eqb. rewrite <- val_cmp_eq. destruct (val_cmp x y); split; congruence.
Qed.
Lemma val_eqb_refl x : val_eqb x x = true.
Proof. apply val_eqb_eq. reflexivity. Qed.
Lemma val_eqb_neq x y : val_eqb x y = false <-> x <> y.
Proof.
  rewrite <- val_eqb_eq. destruct (val_eqb x y); split; congruence.
Qed.

(** ** Facts about insertion *)
Lemma ascending_NoDup l : ascending l -> NoDup l.
Proof.
  induction l as [|x l IH]; simpl; intros H; constructor; destruct H as [H1 H2]; auto.
  intro Hin. rewrite Forall_forall in H1. apply (vlt_irrefl x). auto.
Qed.

Lemma bset_insert_last x l :
  Forall (fun y => vlt y x) l -> bset_insert x l = l ++ [x].
Proof.
  induction 1 as [|y l Hy Hl IH]; [reflexivity|]. simpl.
  apply val_cmp_gt in Hy. rewrite Hy, IH. reflexivity.
Qed.
Lemma bmap_insert_last k v l :
  Forall (fun y => vlt y k) (map fst l) -> bmap_insert k v l = l ++ [(k, v)].
Proof.
  induction l as [|[k' v'] l IH]; [reflexivity|]. simpl. intro H. inversion H; subst.
  match goal with H : vlt _ _ |- _ => apply val_cmp_gt in H; rewrite H end.
  rewrite IH by assumption. reflexivity.
Qed.
Lemma hset_insert_last x l : ~ In x l -> hset_insert x l = l ++ [x].
Proof.
  induction l as [|y l IH]; [reflexivity|]. simpl. intro H.
  destruct (val_eqb x y) eqn:E; [apply val_eqb_eq in E; subst; tauto|].
  rewrite IH by tauto. reflexivity.
Qed.
Lemma hmap_insert_last k v l : ~ In k (map fst l) -> hmap_insert k v l = l ++ [(k, v)].
Proof.
  induction l as [|[k' v'] l IH]; [reflexivity|]. simpl. intro H.
  destruct (val_eqb k k') eqn:E; [apply val_eqb_eq in E; subst; tauto|].
  rewrite IH by tauto. reflexivity.
Qed.

Lemma ascending_app_inv l1 x l2 :
  ascending (l1 ++ x :: l2) -> Forall (fun y => vlt y x) l1.
Proof.
  induction l1 as [|y l1 IH]; simpl; [constructor|]. intros [H1 H2]. constructor; auto.
  apply Forall_app in H1 as [_ H1]. inversion H1; assumption.
Qed.

(** Adding the next element of a well formed collection appends it. *)
Lemma seq_add_inv k l1 x l2 :
  seq_inv k (l1 ++ x :: l2) -> seq_add k x l1 = l1 ++ [x].
Proof.
  destruct k; simpl; intro H; auto.
  - apply hset_insert_last. apply NoDup_remove_2 in H. rewrite in_app_iff in H. tauto.
  - apply bset_insert_last. eapply ascending_app_inv; eauto.
Qed.
Lemma map_add_inv k l1 x y l2 :
  map_inv k (l1 ++ (x, y) :: l2) -> map_add k x y l1 = l1 ++ [(x, y)].
Proof.
  destruct k; simpl; rewrite map_app; simpl; intro H.
  - apply hmap_insert_last. apply NoDup_remove_2 in H. rewrite in_app_iff in H. tauto.
  - apply bmap_insert_last. eapply ascending_app_inv; eauto.
Qed.

(** Insertion preserves the invariants. *)
Lemma bset_insert_In x l y : In y (bset_insert x l) <-> y = x \/ In y l.
Proof.
  induction l as [|z l IH]; simpl; [intuition|].
  destruct (val_cmp x z) eqn:E; simpl; [|intuition|rewrite IH; intuition].
  apply val_cmp_eq in E; subst. intuition.
Qed.
Lemma bset_insert_asc x l : ascending l -> ascending (bset_insert x l).
Proof.
  induction l as [|z l IH]; simpl; intro H; [repeat constructor|].
  destruct H as [H1 H2]. destruct (val_cmp x z) eqn:E; simpl; auto.
  - split; auto. constructor; [exact E|]. eapply Forall_impl; [|exact H1].
    intros a Ha. exact (vlt_trans _ _ _ E Ha).
  - split; auto. rewrite Forall_forall in *. intros y Hy. apply bset_insert_In in Hy as [->|Hy]; auto.
    apply val_cmp_gt; assumption.
Qed.
Lemma bmap_insert_keys k v l y : In y (map fst (bmap_insert k v l)) <-> y = k \/ In y (map fst l).
Proof.
  induction l as [|[k' v'] l IH]; simpl; [intuition|].
  destruct (val_cmp k k') eqn:E; simpl; [|intuition|rewrite IH; intuition].
  apply val_cmp_eq in E; subst. intuition.
Qed.
Lemma bmap_insert_asc k v l : ascending (map fst l) -> ascending (map fst (bmap_insert k v l)).
Proof.
  induction l as [|[k' v'] l IH]; simpl; intro H; [repeat constructor|].
  destruct H as [H1 H2]. destruct (val_cmp k k') eqn:E; simpl; auto.
  - split; auto. constructor; [exact E|]. eapply Forall_impl; [|exact H1].
    intros a Ha. exact (vlt_trans _ _ _ E Ha).
  - split; auto. rewrite Forall_forall in *. intros y Hy. apply bmap_insert_keys in Hy as [->|Hy]; auto.
    apply val_cmp_gt; assumption.
Qed.
Lemma hset_insert_In x l y : In y (hset_insert x l) <-> y = x \/ In y l.
Proof.
  induction l as [|z l IH]; simpl; [intuition|].
  destruct (val_eqb x z) eqn:E; simpl; [|rewrite IH; intuition].
  apply val_eqb_eq in E; subst. intuition.
Qed.
Lemma hset_insert_NoDup x l : NoDup l -> NoDup (hset_insert x l).
Proof.
  induction l as [|z l IH]; simpl; intro H; [repeat constructor; auto|].
  inversion H; subst. destruct (val_eqb x z) eqn:E; auto.
  apply val_eqb_neq in E. constructor; auto. rewrite hset_insert_In. intros [->|]; auto.
Qed.
Lemma hmap_insert_keys k v l y : In y (map fst (hmap_insert k v l)) <-> y = k \/ In y (map fst l).
Proof.
  induction l as [|[k' v'] l IH]; simpl; [intuition|].
  destruct (val_eqb k k') eqn:E; simpl; [|rewrite IH; intuition].
  apply val_eqb_eq in E; subst. intuition.
Qed.
Lemma hmap_insert_NoDup k v l : NoDup (map fst l) -> NoDup (map fst (hmap_insert k v l)).
Proof.
  induction l as [|[k' v'] l IH]; simpl; intro H; [repeat constructor; auto|].
  inversion H; subst. destruct (val_eqb k k') eqn:E; auto.
  apply val_eqb_neq in E. simpl. constructor; auto. rewrite hmap_insert_keys. intros [->|]; auto.
Qed.
Lemma seq_add_keeps k x l : seq_inv k l -> seq_inv k (seq_add k x l).
Proof. destruct k; simpl; auto; [apply hset_insert_NoDup | apply bset_insert_asc]. Qed.
Lemma map_add_keeps k x y l : map_inv k l -> map_inv k (map_add k x y l).
Proof. destruct k; simpl; [apply hmap_insert_NoDup | apply bmap_insert_asc]. Qed.

Lemma seq_add_In k x l y : In y (seq_add k x l) <-> y = x \/ In y l.
Proof.
  destruct k; simpl; try (rewrite in_app_iff; simpl; intuition; fail);
    [apply hset_insert_In | apply bset_insert_In].
Qed.
Lemma map_add_keys k x v l y : In y (map fst (map_add k x v l)) <-> y = x \/ In y (map fst l).
Proof. destruct k; simpl; [apply hmap_insert_keys | apply bmap_insert_keys]. Qed.

Lemma bmap_insert_In k v l p : In p (bmap_insert k v l) -> p = (k, v) \/ In p l.
Proof.
  induction l as [|[k' v'] l IH]; simpl; [intuition|].
  destruct (val_cmp k k') eqn:E; simpl.
  - apply val_cmp_eq in E; subst. intuition.
  - intuition.
  - intuition.
Qed.
Lemma hmap_insert_In k v l p : In p (hmap_insert k v l) -> p = (k, v) \/ In p l.
Proof.
  induction l as [|[k' v'] l IH]; simpl; [intuition|].
  destruct (val_eqb k k') eqn:E; simpl; [|intuition].
  apply val_eqb_eq in E; subst. intuition.
Qed.
Lemma map_add_In k x v l p : In p (map_add k x v l) -> p = (x, v) \/ In p l.
Proof. destruct k; simpl; [apply hmap_insert_In | apply bmap_insert_In]. Qed.

Lemma seq_add_len k x l : (length (seq_add k x l) <= S (length l))%nat.
Proof.
  destruct k; simpl; try (rewrite app_length; simpl; lia).
  - induction l as [|y l IH]; simpl; [lia|]. destruct (val_eqb x y); simpl; lia.
  - induction l as [|y l IH]; simpl; [lia|]. destruct (val_cmp x y); simpl; lia.
Qed.
Lemma map_add_len k x v l : (length (map_add k x v l) <= S (length l))%nat.
Proof.
  destruct k; simpl; induction l as [|[k' v'] l IH]; simpl; try lia.
  - destruct (val_eqb x k'); simpl; lia.
  - destruct (val_cmp x k'); simpl; lia.
Qed.

(** ** Decoding a whole sequence of elements or entries *)
Definition seq_of (k : seqk) (l acc : list val) : list val :=
  fold_left (fun a v => seq_add k v a) l acc.
Definition map_of (k : mapk) (l acc : list (val * val)) : list (val * val) :=
  fold_left (fun a e => map_add k (fst e) (snd e) a) l acc.

Lemma seq_of_inv k l acc : seq_inv k (acc ++ l) -> seq_of k l acc = acc ++ l.
Proof.
  revert acc; induction l as [|v l IH]; intros acc H; simpl.
  - rewrite app_nil_r. reflexivity.
  - unfold seq_of in *. simpl. rewrite (seq_add_inv _ _ _ _ H).
    replace (acc ++ v :: l) with ((acc ++ [v]) ++ l) in * by (rewrite <- app_assoc; reflexivity).
    apply IH. assumption.
Qed.
Lemma map_of_inv k l acc : map_inv k (acc ++ l) -> map_of k l acc = acc ++ l.
Proof.
  revert acc; induction l as [|[x y] l IH]; intros acc H; simpl.
  - rewrite app_nil_r. reflexivity.
  - unfold map_of in *. simpl. rewrite (map_add_inv _ _ _ _ _ H).
    replace (acc ++ (x, y) :: l) with ((acc ++ [(x, y)]) ++ l) in * by (rewrite <- app_assoc; reflexivity).
    apply IH. assumption.
Qed.

Lemma seq_of_keeps k l acc : seq_inv k acc -> seq_inv k (seq_of k l acc).
Proof.
  revert acc; induction l as [|v l IH]; intros acc H; [assumption|].
  unfold seq_of in *. simpl. apply IH. apply seq_add_keeps. assumption.
Qed.
Lemma map_of_keeps k l acc : map_inv k acc -> map_inv k (map_of k l acc).
Proof.
  revert acc; induction l as [|v l IH]; intros acc H; [assumption|].
  unfold map_of in *. simpl. apply IH. apply map_add_keeps. assumption.
Qed.
Lemma seq_of_In k l acc x : In x (seq_of k l acc) <-> In x acc \/ In x l.
Proof.
  revert acc; induction l as [|v l IH]; intros acc; unfold seq_of in *; simpl; [tauto|].
  rewrite IH, seq_add_In. intuition.
Qed.

Lemma map_inv_nil k : map_inv k []. Proof. destruct k; simpl; auto; constructor. Qed.
Lemma seq_inv_nil k : seq_inv k []. Proof. destruct k; simpl; auto; constructor. Qed.
Lemma map_inv_NoDup k l : map_inv k l -> NoDup (map fst l).
Proof. destruct k; simpl; auto using ascending_NoDup. Qed.

(** One insertion: the new binding replaces any old one, others are untouched. *)
Lemma map_add_spec k x y l : map_inv k l ->
  forall a b, In (a, b) (map_add k x y l) <-> (a = x /\ b = y) \/ (a <> x /\ In (a, b) l).
Proof.
  intros Hi a b.
  assert (HU : forall b', In (x, b') (map_add k x y l) -> b' = y).
  { intros b' Hb. destruct k; simpl in *.
    - revert Hb Hi. induction l as [|[k' v'] l IH]; simpl; [intuition congruence|]. intros Hb Hi.
      destruct (val_eqb x k') eqn:E; simpl in Hb.
      + apply val_eqb_eq in E; subst k'. inversion Hi; subst. destruct Hb as [Hb|Hb]; [congruence|].
        exfalso. apply H1. apply (in_map fst) in Hb. exact Hb.
      + apply val_eqb_neq in E. destruct Hb as [Hb|Hb]; [congruence|]. inversion Hi; subst. auto.
    - revert Hb Hi. induction l as [|[k' v'] l IH]; simpl; [intuition congruence|]. intros Hb [Hi1 Hi2].
      destruct (val_cmp x k') eqn:E; simpl in Hb.
      + apply val_cmp_eq in E; subst k'. destruct Hb as [Hb|Hb]; [congruence|].
        exfalso. rewrite Forall_forall in Hi1. apply (vlt_irrefl x). apply Hi1. apply (in_map fst) in Hb. exact Hb.
      + destruct Hb as [Hb|[Hb|Hb]]; [congruence| |].
        * inversion Hb; subst. rewrite val_cmp_refl in E. discriminate.
        * exfalso. rewrite Forall_forall in Hi1. apply (vlt_irrefl x). eapply vlt_trans; [exact E|].
          apply Hi1. apply (in_map fst) in Hb. exact Hb.
      + destruct Hb as [Hb|Hb]; [|auto]. inversion Hb; subst. rewrite val_cmp_refl in E. discriminate. }
  assert (HN : In (x, y) (map_add k x y l)).
  { assert (Hk : In x (map fst (map_add k x y l))) by (apply map_add_keys; left; reflexivity).
    apply in_map_iff in Hk as ([x' y'] & Hx & Hin). simpl in Hx. subst x'. rewrite (HU _ Hin) in Hin. assumption. }
  split.
  - intro H. destruct (val_eqb a x) eqn:E.
    + apply val_eqb_eq in E; subst a. left. split; [reflexivity|]. apply HU. assumption.
    + apply val_eqb_neq in E. right. split; [assumption|]. apply map_add_In in H as [H|H]; [congruence|assumption].
  - intros [[-> ->]|[Hne Hin]]; [assumption|].
    clear HU HN Hi. destruct k; simpl.
    + induction l as [|[k' v'] l IH]; simpl; [contradiction|].
      destruct Hin as [Hin|Hin].
      * inversion Hin; subst. destruct (val_eqb x a) eqn:E; [apply val_eqb_eq in E; congruence|]. left; reflexivity.
      * destruct (val_eqb x k'); right; auto.
    + induction l as [|[k' v'] l IH]; simpl; [contradiction|].
      destruct Hin as [Hin|Hin].
      * inversion Hin; subst. destruct (val_cmp x a) eqn:E; [apply val_cmp_eq in E; congruence| |].
        -- right; left; reflexivity.
        -- left; reflexivity.
      * destruct (val_cmp x k'); simpl; auto.
Qed.

(** The last binding of each key wins. *)
Definition last_binding (l : list (val * val)) (a b : val) : Prop :=
  exists l1 l2, l = l1 ++ (a, b) :: l2 /\ ~ In a (map fst l2).

Lemma map_of_spec k l acc : map_inv k acc ->
  forall a b, In (a, b) (map_of k l acc) <->
    last_binding l a b \/ (~ In a (map fst l) /\ In (a, b) acc).
Proof.
  revert acc; induction l as [|[x y] l IH]; intros acc Hi a b.
  - simpl. split; [tauto|]. intros [(l1 & l2 & E & _)|[_ H]]; [destruct l1; discriminate|assumption].
  - unfold map_of in *. simpl. rewrite IH by (apply map_add_keeps; assumption).
    rewrite map_add_spec by assumption. split.
    + intros [(l1 & l2 & -> & Hn)|[Hn [[-> ->]|[Hne Hin]]]].
      * left. exists ((x, y) :: l1), l2. auto.
      * left. exists [], l. auto.
      * right. split; [|assumption]. intros [H|H]; [congruence|auto].
    + intros [(l1 & l2 & E & Hn)|[Hn Hin]].
      * destruct l1 as [|e l1]; simpl in E; inversion E; subst.
        -- right. auto.
        -- left. exists l1, l2. auto.
      * right. split; [tauto|]. right. split; [|assumption]. intro; subst. apply Hn. left; reflexivity.
Qed.
