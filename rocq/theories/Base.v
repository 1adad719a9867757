(** Results, machine configuration, bytes, small list facts. *)
From Coq Require Export List NArith ZArith Bool Lia Arith.
From Coq Require Export ZifyBool ZifyNat ZifyN.
From Coq Require String Ascii.
Export String.StringSyntax.
Export ListNotations.
Local Open Scope N_scope.

(** Why a modelled Rust function panicked. *)
Inductive panic :=
| POverflow      (* arithmetic overflow with overflow checks on *)
| PSlice         (* slice index out of range *)
| PCapacity      (* with_capacity: capacity overflow / allocation failure *)
| PDuration      (* Duration::new: overflow in carry *)
| PTime          (* SystemTime + Duration: overflow *)
| PUnimplemented (* unimplemented!() *)
| PUnreachable   (* unreachable!() *)
| PUnwrap        (* unwrap on None/Err *)
| PNotCompiled   (* the derive macro would not have produced this code *)
| PIllTyped.     (* the value is not of the type (cannot happen in Rust) *)

(** Outcome of running a piece of Rust code with error type [E].
    [NoFuel]: the interpreter ran out of fuel (the Rust code would go on). *)
Inductive res (E A : Type) :=
| Ok (a : A)
| Err (e : E)
| Panic (p : panic)
| NoFuel.
Arguments Ok {E A} a.
Arguments Err {E A} e.
Arguments Panic {E A} p.
Arguments NoFuel {E A}.

(** Sequencing of outcomes: the [?] operator of Rust. *)
Definition rbind {E A B} (r : res E A) (f : A -> res E B) : res E B :=
  match r with
  | Ok a => f a
  | Err e => Err e
  | Panic p => Panic p
  | NoFuel => NoFuel
  end.

Definition rmap {E A B} (f : A -> B) (r : res E A) : res E B :=
  rbind r (fun a => Ok (f a)).

(** [returns f r]: the program [f], given enough fuel, ends with outcome [r]
    (and more fuel does not change that). *)
Definition returns {A} (f : nat -> A) (r : A) : Prop :=
  exists n, forall m, (n <= m)%nat -> f m = r.

(** [diverges f]: no amount of fuel is enough. *)
Definition diverges {E A} (f : nat -> res E A) : Prop :=
  forall n, f n = NoFuel.

Lemma returns_inj {A} (f : nat -> A) r1 r2 :
  returns f r1 -> returns f r2 -> r1 = r2.
Proof.
  intros [n1 H1] [n2 H2].
  rewrite <- (H1 (n1 + n2)%nat) by lia. apply H2. lia.
Qed.

(** Unsigned/length type of strings and byte strings: [list N]. *)
Definition str := list N.

Definition lenN {A} (l : list A) : N := N.of_nat (length l).

Lemma lenN_app {A} (l1 l2 : list A) : lenN (l1 ++ l2) = lenN l1 + lenN l2.
Proof. unfold lenN. rewrite app_length. lia. Qed.
Lemma lenN_cons {A} (x : A) l : lenN (x :: l) = 1 + lenN l.
Proof. unfold lenN. simpl length. lia. Qed.
Lemma lenN_nil {A} : lenN (@nil A) = 0.
Proof. reflexivity. Qed.

(** Literal strings in the model: code points of an ASCII literal. *)
Fixpoint chars (s : String.string) : str :=
  match s with
  | String.EmptyString => []
  | String.String a r => Ascii.N_of_ascii a :: chars r
  end.

Arguments chars s%string_scope.

Fixpoint str_eqb (a b : str) : bool :=
  match a, b with
  | [], [] => true
  | x :: a', y :: b' => (x =? y) && str_eqb a' b'
  | _, _ => false
  end.

Lemma str_eqb_eq a b : str_eqb a b = true <-> a = b.
Proof.
  revert b; induction a as [|x a IH]; intros [|y b]; simpl; split; intro H;
    try discriminate; auto.
  - apply andb_prop in H as [H1 H2]. apply N.eqb_eq in H1. apply IH in H2. congruence.
  - inversion H; subst. rewrite N.eqb_refl. simpl. apply IH. reflexivity.
Qed.
Lemma str_eqb_refl a : str_eqb a a = true.
Proof. apply str_eqb_eq. reflexivity. Qed.
Lemma str_eqb_neq a b : str_eqb a b = false <-> a <> b.
Proof.
  split; intro H.
  - intros ->. rewrite str_eqb_refl in H. discriminate.
  - destruct (str_eqb a b) eqn:E; [apply str_eqb_eq in E; congruence | reflexivity].
Qed.

(** Repeat a step [k] times, threading a state and stopping at the first step
    that does not succeed: [for _ in 0..k { step?; }].  Binary recursion so that
    a count of 2^60 with an early error still computes. *)
Section Iter.
  Context {S A E : Type}.
  Variable step : S -> A -> S * res E A.

  Definition seq2 (f g : S -> A -> S * res E A) (s : S) (a : A) : S * res E A :=
    match f s a with
    | (s', Ok a') => g s' a'
    | r => r
    end.

  Fixpoint iter_pos (p : positive) (s : S) (a : A) {struct p} : S * res E A :=
    match p with
    | xH => step s a
    | xO q => seq2 (iter_pos q) (iter_pos q) s a
    | xI q => seq2 step (seq2 (iter_pos q) (iter_pos q)) s a
    end.

  Definition iter_N (k : N) (s : S) (a : A) : S * res E A :=
    match k with
    | N0 => (s, Ok a)
    | Npos p => iter_pos p s a
    end.

  Fixpoint iter_nat_m (k : nat) (s : S) (a : A) : S * res E A :=
    match k with
    | O => (s, Ok a)
    | Datatypes.S k' => seq2 step (iter_nat_m k') s a
    end.

  Lemma iter_nat_m_app k1 k2 s a :
    iter_nat_m (k1 + k2) s a = seq2 (iter_nat_m k1) (iter_nat_m k2) s a.
  Proof.
    revert s a; induction k1 as [|k1 IH]; intros s a; [reflexivity|].
    simpl. unfold seq2 at 1 2. simpl. unfold seq2.
    destruct (step s a) as [s' [a'|e|p|]]; auto.
    rewrite IH. unfold seq2. reflexivity.
  Qed.

  Lemma iter_pos_nat p s a : iter_pos p s a = iter_nat_m (Pos.to_nat p) s a.
  Proof.
    revert s a; induction p as [q IH|q IH|]; intros s a.
    - rewrite Pos2Nat.inj_xI. simpl iter_nat_m.
      simpl iter_pos. unfold seq2 at 1 3.
      destruct (step s a) as [s' [a'|e|pp|]]; auto.
      replace (Pos.to_nat q + (Pos.to_nat q + 0))%nat with (Pos.to_nat q + Pos.to_nat q)%nat by lia.
      rewrite iter_nat_m_app. unfold seq2. rewrite IH.
      destruct (iter_nat_m (Pos.to_nat q) s' a') as [s2 [a2|e|pp|]]; auto.
    - rewrite Pos2Nat.inj_xO. simpl iter_pos.
      replace (2 * Pos.to_nat q)%nat with (Pos.to_nat q + Pos.to_nat q)%nat by lia.
      rewrite iter_nat_m_app. unfold seq2. rewrite IH.
      destruct (iter_nat_m (Pos.to_nat q) s a) as [s2 [a2|e|pp|]]; auto.
    - change (Pos.to_nat 1) with 1%nat. simpl. unfold seq2.
      destruct (step s a) as [s' [a'|e|pp|]]; reflexivity.
  Qed.

  Lemma iter_N_nat k s a : iter_N k s a = iter_nat_m (N.to_nat k) s a.
  Proof. destruct k as [|p]; [reflexivity|]. simpl. apply iter_pos_nat. Qed.
End Iter.

Lemma iter_nat_m_ext {S A E} (f g : S -> A -> S * res E A) k :
  (forall s a, f s a = g s a) -> forall s a, iter_nat_m f k s a = iter_nat_m g k s a.
Proof.
  intro H. induction k as [|k IH]; intros s a; [reflexivity|].
  simpl. unfold seq2. rewrite H. destruct (g s a) as [s' [a'|e|p|]]; auto.
Qed.

(** [nth]-style read of a sub-slice. *)
Definition slice {A} (o n : N) (d : list A) : list A :=
  firstn (N.to_nat n) (skipn (N.to_nat o) d).

Lemma slice_mid {A} (pre mid post : list A) :
  slice (lenN pre) (lenN mid) (pre ++ mid ++ post) = mid.
Proof.
  unfold slice, lenN. rewrite !Nnat.Nat2N.id.
  rewrite skipn_app, skipn_all, Nat.sub_diag. simpl.
  rewrite firstn_app, firstn_all, Nat.sub_diag. simpl. apply app_nil_r.
Qed.

Lemma slice_length {A} (o n : N) (d : list A) :
  o + n <= lenN d -> lenN (slice o n d) = n.
Proof.
  intro H. unfold slice, lenN in *. rewrite firstn_length, skipn_length. lia.
Qed.
