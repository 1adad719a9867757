(** Positions in a text, without reference to the readers. *)
From Verif Require Import Base Utf8 Types TyAll.
Local Open Scope N_scope.

(** Number of line ends in [p]. *)
Definition line_ends (p : str) : N := lenN (filter (fun c => c =? 10) p).
(** [k] characters follow the last line end of [p] (or its beginning). *)
Definition column (p : str) (k : N) : Prop :=
  exists a b, p = a ++ b /\ (a = [] \/ exists a', a = a' ++ [10]) /\ ~ In 10 b /\ k = lenN b.
(** No tuple type is written in [t] or in a declaration. *)
Definition not_tuple (t : ty) : Prop := match t with TTup _ => False | _ => True end.
Definition tuple_free (G : env) (t : ty) : Prop := env_all not_tuple G /\ ty_all not_tuple t.
