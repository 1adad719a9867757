(** Specification for C50: what it means that values are released exactly once.

    A log records, oldest event first, when values (each with its own number) came
    into being and when they were dropped. *)
From Verif Require Import Base.

Inductive ev := Made (i : nat) | Dropped (i : nat).

(** Every value is made once, dropped at most once, and only after it was made. *)
Definition orderly (l : list ev) : Prop :=
  NoDup l /\ forall i l1 l2, l = l1 ++ Dropped i :: l2 -> In (Made i) l1.

(** Made and not dropped. *)
Definition alive (l : list ev) (i : nat) : Prop :=
  In (Made i) l /\ ~ In (Dropped i) l.

(** What an attempt to read something ended with. *)
Inductive ores (E A : Type) :=
| OOk (a : A)
| OErr (e : E)
| OPanic (p : panic)
| ONoFuel
| OUB.       (* undefined behaviour: an uninitialised slot was used as a value, or
                a value was dropped that was not alive *)
Arguments OOk {E A} a.
Arguments OErr {E A} e.
Arguments OPanic {E A} p.
Arguments ONoFuel {E A}.
Arguments OUB {E A}.

(** An object: a value, and the numbers of the droppable values it owns. *)
Definition obj (A : Type) : Type := A * list nat.

(** A deserializer that makes and drops values: it has a parser state and a log. *)
Definition om (S E A : Type) : Type := S -> list ev -> (S * list ev) * ores E A.

(** A deserializer that is honest about ownership, whatever happened before it
    is called: no undefined behaviour; values that were alive before are left
    alone; on success the new values alive are exactly those the result owns;
    on an error nothing new is alive (nothing leaks, nothing is dropped twice). *)
Definition owning {S E A} (r : om S E (obj A)) : Prop :=
  forall s l, orderly l ->
  match r s l with
  | (_, l', o) =>
    (exists evs, l' = l ++ evs) /\ orderly l' /\
    match o with
    | OOk (_, ids) =>
      NoDup ids /\ (forall i, In i ids -> ~ In (Made i) l) /\
      forall i, alive l' i <-> alive l i \/ In i ids
    | OErr _ => forall i, alive l' i <-> alive l i
    | OPanic _ | ONoFuel => forall i, alive l i -> alive l' i
    | OUB => False
    end
  end.

(** [k] items, each followed by its separator, are read from state [s]. *)
Inductive reads {St E A} (item : St -> St * res E A) (sep : St -> St * res E unit)
  : nat -> St -> St -> Prop :=
| reads_none s : reads item sep 0 s s
| reads_more k s s1 s2 s3 a u :
    reads item sep k s s1 -> item s1 = (s2, Ok a) -> sep s2 = (s3, Ok u) ->
    reads item sep (S k) s s3.

(** A run with slots ends as a run without them. *)
Definition same_outcome {E A B} (f : A -> B) (o : ores E (obj A)) (r : res E B) : Prop :=
  match o, r with
  | OOk (a, _), Ok b => b = f a
  | OErr e, Err e' => e = e'
  | OPanic p, Panic p' => p = p'
  | ONoFuel, NoFuel => True
  | _, _ => False
  end.
