(** Specification side: a later version of a program's declarations, in which
    enums have got more variants. *)
From Verif Require Import Base Types.

(** The later version of a declaration: the same one or, for an enum, one with
    further variants after the old ones. *)
Definition grown (d d' : decl) : Prop :=
  match d with
  | DEnum vs => exists more, d' = DEnum (vs ++ more)
  | _ => d' = d
  end.
(** The later version of a program keeps every declaration and may add new ones. *)
Definition env_grown (G G' : env) : Prop :=
  forall i d, nth_error G i = Some d -> exists d', nth_error G' i = Some d' /\ grown d d'.
