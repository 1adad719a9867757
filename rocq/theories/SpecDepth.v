(** Specification side of "how deep the calls go": the nesting of values and of types.
    Nothing here refers to the models of the readers. *)
From Verif Require Import Base Types.
Local Open Scope nat_scope.

(** How deep a value is nested: containers, structs and variants, one inside the
    other (the Some of an Option and the Box are in the place of their contents). *)
Definition deepest (l : list nat) : nat := fold_right Nat.max 0 l.
Fixpoint nesting (v : val) : nat :=
  match v with
  | VSome w => nesting w
  | VSeq l | VEnum _ l => S (deepest (map nesting l))
  | VMap l => S (deepest (map (fun e => Nat.max (nesting (fst e)) (nesting (snd e))) l))
  | _ => 0
  end.
(** How deep a type expression is nested. *)
Fixpoint height (t : ty) : nat :=
  match t with
  | TOpt t' | TSeq _ t' | TArr _ t' | TBox t' | TProxy _ t' => S (height t')
  | TMap _ a b => S (Nat.max (height a) (height b))
  | TTup ts => S (deepest (map height ts))
  | _ => 0
  end.
(** The type expressions of a definition. *)
Definition decl_types (d : decl) : list ty :=
  match d with
  | DStruct _ _ fs | DTuple _ fs => map f_ty fs
  | DEnum vs => flat_map (fun v => match v_body v with BUnit => [] | BTuple ts => ts | BStruct fs => map f_ty fs end) vs
  | DProxy _ t => [t]
  end.
