(** Specification side of "what is read from an input is no larger than the input
    pays for": the size of a value, and the types for which the size is bounded.
    Nothing here refers to the models of the readers. *)
From Verif Require Import Base Types TyAll Text SpecText SpecDoc.
Local Open Scope N_scope.

(** ** Sizes *)
(** One cell for every scalar, every character, every container (sequence, struct,
    map, variant), and every unit and None; the Some of an Option and the Box are in
    the place of their contents. *)
Fixpoint cells (v : val) : N :=
  match v with
  | VStr s => 1 + lenN s
  | VSome w => cells w
  | VSeq l | VEnum _ l => 1 + fold_right (fun w n => cells w + n) 0 l
  | VMap l => 1 + fold_right (fun e n => cells (fst e) + cells (snd e) + n) 0 l
  | _ => 1
  end.
Definition cells_of (l : list val) : N := fold_right (fun w n => cells w + n) 0 l.
(** The contents only: numbers, booleans, characters, variants, dates and the
    presence of an optional value. *)
Fixpoint contents (v : val) : N :=
  match v with
  | VZ _ | VF _ | VBool _ | VDur _ _ | VTime _ _ => 1
  | VStr s => lenN s
  | VUnit | VNone => 0
  | VSome w => 1 + contents w
  | VSeq l => fold_right (fun w n => contents w + n) 0 l
  | VMap l => fold_right (fun e n => contents (fst e) + contents (snd e) + n) 0 l
  | VEnum _ l => 1 + fold_right (fun w n => contents w + n) 0 l
  end.

(** ** Types *)
(** No user conversions: what a proxy makes of its input is the user's business. *)
Definition no_proxy (t : ty) : Prop := match t with TProxy _ _ => False | _ => True end.
Definition no_proxy_decl (d : decl) : Prop := match d with DProxy _ _ => False | _ => True end.
(** Skipped fields come back as [Default::default()]: empty. *)
Definition fields_of (d : decl) : list field :=
  match d with
  | DStruct _ _ fs | DTuple _ fs => fs
  | DEnum vs => flat_map (fun v => match v_body v with BStruct fs => fs | _ => [] end) vs
  | DProxy _ _ => []
  end.
Definition skipped_empty (d : decl) : Prop :=
  Forall (fun f => f_skip f = true -> contents (f_tydefault f) = 0) (fields_of d).

(** Binary format: at least one byte is read for a value of the type. *)
Inductive solid (G : env) : ty -> Prop :=
| so_int k : solid G (TInt k)
| so_f32 : solid G TF32
| so_f64 : solid G TF64
| so_bool : solid G TBool
| so_str : solid G TStr
| so_opt t : solid G (TOpt t)
| so_seq k t : solid G (TSeq k t)
| so_map k a b : solid G (TMap k a b)
| so_arr n t : (0 < n)%nat -> solid G t -> solid G (TArr n t)
| so_tup ts t : In t ts -> solid G t -> solid G (TTup ts)
| so_box t : solid G t -> solid G (TBox t)
| so_dur : solid G TDur
| so_time : solid G TTime
| so_struct i dflt nul fs f : nth_error G i = Some (DStruct dflt nul fs) -> In f fs -> f_skip f = false -> solid G (f_ty f) -> solid G (TNamed i)
| so_tuple i tr fs f : nth_error G i = Some (DTuple tr fs) -> In f fs -> solid G (f_ty f) -> solid G (TNamed i)
| so_enum i vs : nth_error G i = Some (DEnum vs) -> solid G (TNamed i)
| so_proxy p t : solid G t -> solid G (TProxy p t)
| so_dproxy i p t : nth_error G i = Some (DProxy p t) -> solid G t -> solid G (TNamed i).
(** The elements of sequences and one of the two halves of the entries of maps. *)
Definition solid_elements (G : env) (t : ty) : Prop :=
  match t with
  | TSeq _ t' => solid G t'
  | TMap _ a b => solid G a \/ solid G b
  | _ => True
  end.
(** No struct contains itself except in an Option, a collection or a variant. *)
Inductive finite (G : env) : ty -> Prop :=
| fi_int k : finite G (TInt k)
| fi_f32 : finite G TF32
| fi_f64 : finite G TF64
| fi_bool : finite G TBool
| fi_str : finite G TStr
| fi_unit : finite G TUnit
| fi_opt t : finite G (TOpt t)
| fi_seq k t : finite G (TSeq k t)
| fi_map k a b : finite G (TMap k a b)
| fi_arr n t : finite G t -> finite G (TArr n t)
| fi_tup ts : Forall (finite G) ts -> finite G (TTup ts)
| fi_box t : finite G t -> finite G (TBox t)
| fi_dur : finite G TDur
| fi_time : finite G TTime
| fi_struct i dflt nul fs : nth_error G i = Some (DStruct dflt nul fs) -> Forall (fun f => f_skip f = true \/ finite G (f_ty f)) fs -> finite G (TNamed i)
| fi_tuple i tr fs : nth_error G i = Some (DTuple tr fs) -> Forall (fun f => f_skip f = true \/ finite G (f_ty f)) fs -> finite G (TNamed i)
| fi_enum i vs : nth_error G i = Some (DEnum vs) -> finite G (TNamed i).

(** What is asked of every type written in the program, for a linear bound. *)
Definition bin_linear (G : env) (t : ty) : Prop := no_proxy t /\ finite G t /\ solid_elements G t.

(** Text formats: what a field costs when nothing is written for it (its default,
    or None). *)
Definition spare (f : field) : N :=
  N.max 1 (N.max (cells (f_tydefault f)) (match f_default f with Some v => cells v | None => 0 end)).
Definition spares (fs : list field) : N := fold_right (fun f n => spare f + n) 0 fs.
(** The fields that nothing need be written for cost at most [D], in any struct or
    struct-like variant. *)
Definition spare_at_most (D : N) (d : decl) : Prop :=
  match d with
  | DStruct _ _ fs => spares fs <= D
  | DEnum vs => Forall (fun v => match v_body v with BStruct fs => spares fs <= D | _ => True end) vs
  | _ => True
  end.
(** A [transparent] tuple struct is in the place of its field. *)
Definition no_transparent (d : decl) : Prop := match d with DTuple tr _ => tr = false | _ => True end.
