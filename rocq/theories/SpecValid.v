(** What a value read from a text promises: the invariants of the Rust types. *)
From Verif Require Import Base Utf8 Types Text SpecText.
Local Open Scope N_scope.

(** Rust's floats are 64 or 32 bits wide. *)
Record flt_bits (F : flt) : Prop := {
  parse64_bits : forall s b, f64_parse F s = Some b -> b < 2 ^ 64;
  of_z_bits : forall z, f64_of_z F z < 2 ^ 64;
  of_f64_bits : forall b, f32_of_f64 F b < 2 ^ 32
}.

(** [s] occurs in [text]. *)
Definition infix (s text : str) : Prop := exists a b, text = a ++ s ++ b.

(** A field of a struct: a skipped one has the value it is restored to; the other
    ones have a value of their type, or the value for missing fields if the field
    may be missing ([dflt]: the container has [default]).  A proxy on a field
    written [Option<..>] converts the contents of the option. *)
Definition field_valid (fit : ty -> val -> Prop) (dflt : bool) (f : field) (v : val) : Prop :=
  if f_skip f then v = omitted_value f
  else (v = omitted_value f /\ (f_default f <> None \/ f_isopt f = true \/ dflt = true)) \/
       (if f_isopt f && f_hasproxy f then exists w, v = VSome w /\ fit (f_ty f) w else fit (f_ty f) v).

(** [v] is a value of type [t], by a derivation of height at most [n]. *)
Fixpoint text_valid (c : cfg) (G : env) (n : nat) (t : ty) (v : val) {struct n} : Prop :=
  match n with
  | O => False
  | S n' =>
    let fit := text_valid c G n' in
    match t, v with
    | TInt k, VZ z => int_ok c k z
    | TF32, VF b => b < 2 ^ 32
    | TF64, VF b => b < 2 ^ 64
    | TBool, VBool _ => True
    | TStr, VStr s => Forall scalar s
    | TUnit, VUnit => True
    | TOpt _, VNone => True
    | TOpt t', VSome w => fit t' w
    | TSeq k t', VSeq l => Forall (fit t') l /\ seq_inv k l
    | TMap k tk tv, VMap l => Forall (fun e => fit tk (fst e) /\ fit tv (snd e)) l /\ map_inv k l
    | TArr m t', VSeq l => length l = m /\ Forall (fit t') l
    | TTup ts, VSeq l => Forall2 fit ts l
    | TBox t', w => fit t' w
    | TDur, VDur s ns => s < 2 ^ 64 /\ ns < 1000000000
    | TTime, VTime s ns => (0 <= s < 2 ^ 64)%Z /\ (s <= Z.of_N (time_max c))%Z /\ ns < 1000000000
    | TProxy p t', w => exists u, fit t' u /\ w = p_from p u
    | TNamed i, w =>
      match nth_error G i, w with
      | Some (DStruct dflt _ fs), VSeq l => Forall2 (field_valid fit dflt) fs l
      | Some (DTuple _ fs), VSeq l => Forall2 (fun f => fit (f_ty f)) fs l
      | Some (DProxy p t'), w' => exists u, fit t' u /\ w' = p_from p u
      | Some (DEnum vs), VEnum tag l =>
        match nth_error vs (N.to_nat tag) with
        | None => False
        | Some vr =>
          match v_body vr with
          | BUnit => l = []
          | BTuple ts => Forall2 fit ts l
          | BStruct fs => Forall2 (field_valid fit false) fs l
          end
        end
      | _, _ => False
      end
    | _, _ => False
    end
  end.
