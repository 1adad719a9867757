(** Specification side of C86: which collections are paid for by the input. *)
From Verif Require Import Base Types SpecBinAcc.
Local Open Scope N_scope.

Section Pays.
  Variable G : env.
  (** Every value of the type takes at least a byte. *)
  Inductive takes_byte : ty -> Prop :=
  | k_int k : takes_byte (TInt k) | k_f32 : takes_byte TF32 | k_f64 : takes_byte TF64 | k_bool : takes_byte TBool
  | k_str : takes_byte TStr | k_dur : takes_byte TDur | k_time : takes_byte TTime
  | k_opt t : takes_byte (TOpt t) | k_seq k t : takes_byte (TSeq k t) | k_map k tk tv : takes_byte (TMap k tk tv)
  | k_arr n t : n <> 0%nat -> takes_byte t -> takes_byte (TArr n t)
  | k_tup ts t : In t ts -> takes_byte t -> takes_byte (TTup ts)
  | k_box t : takes_byte t -> takes_byte (TBox t)
  | k_proxy p t : takes_byte t -> takes_byte (TProxy p t)
  | k_struct i df nl fs f : nth_error G i = Some (DStruct df nl fs) -> In f fs -> f_skip f = false ->
      takes_byte (f_ty f) -> takes_byte (TNamed i)
  | k_tuple i tr fs f : nth_error G i = Some (DTuple tr fs) -> In f fs -> f_skip f = false ->
      takes_byte (f_ty f) -> takes_byte (TNamed i)
  | k_enum i vs : nth_error G i = Some (DEnum vs) -> takes_byte (TNamed i)
  | k_dproxy i p t : nth_error G i = Some (DProxy p t) -> takes_byte t -> takes_byte (TNamed i).

  (** Collections hold items (or keys, or values) that take at least a byte. *)
  Inductive pays : ty -> Prop :=
  | y_int k : pays (TInt k) | y_f32 : pays TF32 | y_f64 : pays TF64 | y_bool : pays TBool | y_str : pays TStr
  | y_unit : pays TUnit | y_dur : pays TDur | y_time : pays TTime | y_named i : pays (TNamed i)
  | y_opt t : pays t -> pays (TOpt t)
  | y_seq k t : takes_byte t -> pays t -> pays (TSeq k t)
  | y_map k tk tv : takes_byte tk \/ takes_byte tv -> pays tk -> pays tv -> pays (TMap k tk tv)
  | y_arr n t : pays t -> pays (TArr n t)
  | y_tup ts : Forall pays ts -> pays (TTup ts)
  | y_box t : pays t -> pays (TBox t)
  | y_proxy p t : pays t -> pays (TProxy p t).

  (** The types written in a declaration. *)
  Definition decl_tys (d : decl) : list ty :=
    match d with
    | DStruct _ _ fs | DTuple _ fs => map f_ty fs
    | DProxy _ t => [t]
    | DEnum vs => flat_map (fun v => body_tys (v_body v)) vs
    end.
  Definition all_pay : Prop := forall d t, In d G -> In t (decl_tys d) -> pays t.
End Pays.
