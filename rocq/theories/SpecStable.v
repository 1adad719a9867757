(** Which types keep every value they read: what was read from a text, written
    and read again is the same value. *)
From Verif Require Import Base Utf8 Types TyAll Text SpecText SpecValid.
Local Open Scope N_scope.

(** Integers of 64 bits are finite as floats. *)
Definition flt_ints (F : flt) : Prop := forall z, (- 2 ^ 63 <= z < 2 ^ 64)%Z ->
  finite64 (f64_of_z F z) /\ finite32 (f32_of_f64 F (f64_of_z F z)).

(** The conversions of a proxy undo each other. *)
Definition faithful (p : proxy) : Prop := forall w, p_to p (p_from p w) = w.

(** Floats: no literal of the text overflows to infinity.  Arrays: the writer
    panics on an empty one with overflow checks. *)
Definition stable_node (F : flt) (c : cfg) (text : str) (t : ty) : Prop :=
  match t with
  | TF64 => forall s b, infix s text -> f64_parse F s = Some b -> finite64 b
  | TF32 => forall s b, infix s text -> f64_parse F s = Some b -> finite32 (f32_of_f64 F b)
  | TArr m _ => m = O -> overflow_checks c = false
  | TProxy p _ => faithful p
  | _ => True
  end.
(** A field that may be missing has a default that can itself be written and read;
    the default of an option whose [None] is not written is [None]. *)
Definition stable_field (c : cfg) (G : env) (fm : fmt) (dflt null : bool) (f : field) : Prop :=
  wf_field f /\
  (f_skip f = false ->
    (f_isopt f = true -> null = true \/ omitted_value f = VNone) /\
    (f_default f <> None \/ f_isopt f = true \/ dflt = true ->
       exists n, field_value (text_value c G fm n) (looks_none G fm n) null f (omitted_value f))).
Definition stable_decl (c : cfg) (G : env) (fm : fmt) (d : decl) : Prop :=
  match d with
  | DStruct dflt cnull fs =>
    NoDup (map key_of_field (filter (fun f => negb (f_skip f)) fs)) /\
    Forall (fun f => f_skip f = false -> good_name fm (key_of_field f)) fs /\
    Forall (fun f => stable_field c G fm dflt (none_as_null fm cnull f) f) fs
  | DTuple _ fs => fm = Ron -> existsb f_skip fs = false
  | DProxy p _ => faithful p
  | DEnum vs =>
    NoDup (map (key_of_variant fm) vs) /\
    Forall (fun v => good_name fm (key_of_variant fm v) /\ (fm = Ron -> v_name v <> chars "None") /\
      match v_body v with
      | BUnit => True
      | BTuple ts => ts <> []
      | BStruct fs =>
        NoDup (map f_name fs) /\
        Forall (fun f => f_skip f = false /\ f_rename f = None /\ good_name fm (f_name f)) fs /\
        Forall (stable_field c G fm false false) fs
      end) vs
  end.
Definition stable_env (F : flt) (c : cfg) (G : env) (fm : fmt) (text : str) : Prop :=
  env_all (stable_node F c text) G /\ Forall (stable_decl c G fm) G.
