(** Specification side of "serialize_json emits JSON": the types it is claimed for. *)
From Verif Require Import Base Utf8 Types TyAll Text SpecText.
Local Open Scope N_scope.

(** Map keys are strings (possibly boxed). *)
Fixpoint string_key (t : ty) : Prop := match t with TStr => True | TBox t' => string_key t' | _ => False end.
Definition json_node (t : ty) : Prop := match t with TMap _ tk _ => string_key tk | _ => True end.
(** No control characters in a name ([text_value] excludes quotes and backslashes). *)
Definition printable (s : str) : Prop := Forall (fun x => 32 <= x) s.
(** Names need no escaping; the last field of a struct-like variant is not an
    [Option] (see C20_refuted_trailing_comma). *)
Definition json_decl (d : decl) : Prop :=
  match d with
  | DStruct _ _ fs => Forall (fun f => printable (key_of_field f)) fs
  | DEnum vs => Forall (fun v => printable (key_of_variant Json v) /\
      match v_body v with
      | BStruct fs => Forall (fun f => printable (f_name f)) fs /\ forall p f, fs = p ++ [f] -> f_isopt f = false
      | _ => True
      end) vs
  | _ => True
  end.
Definition json_env (G : env) : Prop := env_all json_node G /\ Forall json_decl G.

(** ** "serialization never panics": all values of a type, without any of the
    conditions a round trip needs (skipped fields and times before the epoch
    included; lengths are not bounded).  [txt]: the text formats apply the proxy of
    an [Option] field to the contents, the binary format to the option itself. *)
Fixpoint shaped (txt : bool) (c : cfg) (G : env) (n : nat) (t : ty) (v : val) {struct n} : Prop :=
  match n with
  | O => False
  | S n' =>
    let sh := shaped txt c G n' in
    let field_sh := fun f v =>
      if txt && f_isopt f then
        match v, f_ty f with
        | VNone, _ => True
        | VSome w, TOpt t' => sh t' w
        | VSome w, TProxy p t' => sh (TProxy p t') w
        | _, _ => False
        end
      else sh (f_ty f) v in
    match t, v with
    | TInt k, VZ z => int_ok c k z
    | TF32, VF _ | TF64, VF _ | TBool, VBool _ | TStr, VStr _ | TUnit, VUnit | TOpt _, VNone => True
    | TOpt t', VSome w => sh t' w
    | TSeq _ t', VSeq l => Forall (sh t') l
    | TMap _ tk tv, VMap l => Forall (fun e => sh tk (fst e) /\ sh tv (snd e)) l
    | TArr m t', VSeq l => length l = m /\ Forall (sh t') l
    | TTup ts, VSeq l => Forall2 sh ts l
    | TBox t', w => sh t' w
    | TDur, VDur _ _ | TTime, VTime _ _ => True
    | TProxy p t', w => sh t' (p_to p w)
    | TNamed i, w =>
      match nth_error G i, w with
      | Some (DStruct _ _ fs), VSeq l => Forall2 (fun f v => f_skip f = false -> field_sh f v) fs l
      | Some (DTuple _ fs), VSeq l => Forall2 (fun f v => sh (f_ty f) v) fs l
      | Some (DProxy p t'), w' => sh t' (p_to p w')
      | Some (DEnum vs), VEnum tag l =>
        match nth_error vs (N.to_nat tag) with
        | None => False
        | Some vr =>
          match v_body vr with
          | BUnit => l = []
          | BTuple ts => Forall2 sh ts l
          | BStruct fs => Forall2 field_sh fs l
          end
        end
      | _, _ => False
      end
    | _, _ => False
    end
  end.
(** No [[T; 0]] in a build with overflow checks. *)
Definition some_array (c : cfg) (t : ty) : Prop :=
  match t with TArr m _ => overflow_checks c = false \/ m <> 0%nat | _ => True end.
(** No tuple variant without fields ([A()]): the macros do not compile it. *)
Definition full_variants (d : decl) : Prop :=
  match d with DEnum vs => Forall (fun v => v_body v <> BTuple []) vs | _ => True end.
