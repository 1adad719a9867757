(** Specification side of "decoding a text always ends": which types the derive
    macros and library implementations cover, and which recursive types consume
    input before they recurse. *)
From Verif Require Import Base Types TyAll Text.

(** The type has an implementation for the format: no 128-bit integers, tuples
    of two to four elements, field proxies for JSON only, every name declared. *)
Definition text_node (fm : fmt) (G : env) (t : ty) : Prop :=
  match t with
  | TInt k => k <> U128 /\ k <> I128
  | TTup ts => (2 <= length ts <= 4)%nat
  | TProxy _ _ => fm = Json
  | TNamed i => (i < length G)%nat
  | _ => True
  end.
(** The derive macro accepts the declaration. *)
Definition text_decl (fm : fmt) (d : decl) : Prop :=
  match d with
  | DTuple _ fs => Forall (fun f => f_hasproxy f = false) fs /\ (fm = Ron -> fs <> [])
  | DProxy _ _ => fm = Json
  | _ => True
  end.
Definition text_ty (fm : fmt) (G : env) (t : ty) : Prop := ty_all (text_node fm G) t.
Definition text_env (fm : fmt) (G : env) : Prop :=
  env_all (text_node fm G) G /\ Forall (text_decl fm) G.

(** Names reached in a type before any token is consumed: options, boxes and
    proxies read their contents directly. *)
Fixpoint at_once (t : ty) : list nat :=
  match t with
  | TOpt t' | TBox t' | TProxy _ t' => at_once t'
  | TNamed i => [i]
  | _ => []
  end.
(** Structs and enums consume a bracket or a name first; a container proxy and a
    [transparent] newtype (JSON only) do not. *)
Definition decl_at_once (fm : fmt) (d : decl) : list nat :=
  match d, fm with
  | DTuple true [f], Json => at_once (f_ty f)
  | DProxy _ t, _ => at_once t
  | _, _ => []
  end.
(** No declaration reaches itself at once. *)
Definition text_guarded (fm : fmt) (G : env) : Prop :=
  exists rank : nat -> nat, forall i d j,
    nth_error G i = Some d -> In j (decl_at_once fm d) -> (rank j < rank i)%nat.

(** Types without a struct or struct-like variant that has fields: the only
    place where the reader skips a member it does not know. *)
Definition no_skip_decl (d : decl) : Prop :=
  match d with
  | DStruct _ _ fs => fs = []
  | DEnum vs => Forall (fun v => match v_body v with BStruct fs => fs = [] | _ => True end) vs
  | _ => True
  end.
(** Duration and SystemTime do not occur. *)
Definition no_time (t : ty) : Prop := match t with TDur | TTime => False | _ => True end.
