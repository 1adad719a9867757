(** Specification side of "what is written is one line". *)
From Verif Require Import Base Utf8 Types Text.
Local Open Scope N_scope.

(** Characters that are not ASCII control characters. *)
Definition visible (x : N) : Prop := 32 <= x /\ x <> 127.
(** Characters that are not NUL, tab, line feed or carriage return. *)
Definition in_line (x : N) : Prop := x <> 0 /\ x <> 9 /\ x <> 10 /\ x <> 13.
(** The names in the text: field names, names of variants, and their [rename]s. *)
Definition field_names (P : N -> Prop) (f : field) : Prop :=
  Forall P (f_name f) /\ (forall r, f_rename f = Some r -> Forall P r).
Definition variant_names (P : N -> Prop) (v : variant) : Prop :=
  Forall P (v_name v) /\ (forall r, v_rename v = Some r -> Forall P r) /\
  match v_body v with BStruct fs => Forall (field_names P) fs | _ => True end.
Definition decl_names (P : N -> Prop) (d : decl) : Prop :=
  match d with
  | DStruct _ _ fs => Forall (field_names P) fs
  | DEnum vs => Forall (variant_names P) vs
  | _ => True
  end.
(** Floats are printed in printable ASCII (as std does). *)
Definition flt_visible (F : flt) : Prop :=
  forall b, Forall (fun x => 32 <= x < 127) (f32_show F b) /\ Forall (fun x => 32 <= x < 127) (f64_show F b).

(** Several texts, each ended by a line feed, and the lines of a text. *)
Definition as_lines (l : list str) : str := flat_map (fun x => x ++ [10]) l.
Fixpoint lines_of (cur : str) (s : str) : list str :=
  match s with
  | [] => match cur with [] => [] | _ => [cur] end
  | x :: r => if x =? 10 then cur :: lines_of [] r else lines_of (cur ++ [x]) r
  end.
