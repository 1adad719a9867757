(** Specification side of the text formats: which values a type has there, what
    is assumed of Rust's float printing and parsing.  Independent of the model
    of the writers and readers (it uses only the types of Types.v and the
    characters of Text.v). *)
From Verif Require Import Base Utf8 Types Text.
Local Open Scope N_scope.

(** ** Floats *)
Definition finite64 (b : N) : Prop := b < 2 ^ 64 /\ (b / 2 ^ 52) mod 2048 <> 2047.
Definition finite32 (b : N) : Prop := b < 2 ^ 32 /\ (b / 2 ^ 23) mod 256 <> 255.

Definition all_digits (d : str) : Prop := d <> [] /\ Forall (fun c => 48 <= c <= 57) d.
(** -?d+(.d+)?(e-?d+)? with a fraction or an exponent: the shape of Rust's
    [{:?}] output for finite floats. *)
Definition float_text (s : str) : Prop :=
  exists sg ip fr ex, s = sg ++ ip ++ fr ++ ex /\
    (sg = [] \/ sg = [c_minus]) /\
    all_digits ip /\ (ip = [48] \/ cur ip <> 48) /\
    (fr = [] \/ exists d, fr = c_dot :: d /\ all_digits d) /\
    (ex = [] \/ exists es d, ex = 101 :: es ++ d /\ (es = [] \/ es = [c_minus]) /\ all_digits d) /\
    (fr <> [] \/ ex <> []).

(** What the theorems assume of Rust's standard library: finite floats print in
    that shape and parsing the text gives the float back (for f32: after
    conversion from the f64 parsed). *)
Record flt_ok (F : flt) : Prop := {
  show64_text : forall b, finite64 b -> float_text (f64_show F b);
  show64_parse : forall b, finite64 b -> f64_parse F (f64_show F b) = Some b;
  show32_text : forall b, finite32 b -> float_text (f32_show F b);
  show32_parse : forall b, finite32 b ->
    exists d, f64_parse F (f32_show F b) = Some d /\ f32_of_f64 F d = b
}.

(** ** Names *)
(** Names are written between quotes without escaping in JSON, bare in RON. *)
Definition json_name (s : str) : Prop :=
  Forall (fun c => c <> c_quote /\ c <> c_bslash /\ c <> 0) s.
Definition ron_name (s : str) : Prop :=
  s <> [] /\ is_alpha (cur s) = true /\ forallb (fun c => is_alpha c || is_digit c) s = true /\
  s <> chars "true" /\ s <> chars "false".
Definition good_name (fm : fmt) (s : str) : Prop :=
  match fm with Json => json_name s | Ron => ron_name s end.

(** The name a field or variant has in the text: the [rename] attribute or the
    Rust name; RON ignores [rename] on variants. *)
Definition key_of_field (f : field) : str :=
  match f_rename f with Some r => r | None => f_name f end.
Definition key_of_variant (fm : fmt) (v : variant) : str :=
  match fm, v_rename v with Json, Some r => r | _, _ => v_name v end.

(** A field's attributes are consistent with its type: [proxy] iff the type is a
    proxied one, written [Option<..>] only if it is an option. *)
Definition wf_field (f : field) : Prop :=
  match f_ty f with
  | TOpt _ => f_hasproxy f = false
  | TProxy _ _ => f_hasproxy f = true
  | _ => f_hasproxy f = false /\ f_isopt f = false
  end.

(** ** Which values look like an absent option *)
(** Does the text of [v] read as the absent option ([null], [None])?  In JSON:
    unit, a [None] itself, and wrappers of those; in RON: a [None] itself, its
    wrappers, and enum variants named None. *)
Fixpoint looks_none (G : env) (fm : fmt) (n : nat) (t : ty) (v : val) : bool :=
  match n with
  | O => false
  | S n' =>
    match t, v with
    | TUnit, _ => match fm with Json => true | Ron => false end
    | TOpt _, VNone => true
    | TOpt t', VSome w => looks_none G fm n' t' w
    | TBox t', w => looks_none G fm n' t' w
    | TProxy p t', w => looks_none G fm n' t' (p_to p w)
    | TNamed i, w =>
      match nth_error G i, w, fm with
      | Some (DTuple true [f]), VSeq [w0], Json => looks_none G fm n' (f_ty f) w0
      | Some (DProxy p t'), _, Json => looks_none G fm n' t' (p_to p w)
      | Some (DEnum vs), VEnum tag _, Ron =>
        match nth_error vs (N.to_nat tag) with
        | Some vr => str_eqb (v_name vr) (chars "None")
        | None => false
        end
      | _, _, _ => false
      end
    | _, _ => false
    end
  end.

(** ** The values for which a round trip is claimed *)

(** A named field ([null]: its [None] is written as null).  A skipped field must
    hold the value it is restored to; a [None] that is left out must be what a
    missing field is restored to; a [Some] must not look like [None]. *)
Definition omitted_value (f : field) : val :=
  match f_default f with Some d => d | None => f_tydefault f end.
Definition none_as_null (fm : fmt) (cnull : bool) (f : field) : bool :=
  match fm with Json => (f_null f || cnull) && negb (f_hasproxy f) | Ron => false end.
Definition field_value (fit : ty -> val -> Prop) (none : ty -> val -> bool)
    (null : bool) (f : field) (v : val) : Prop :=
  wf_field f /\
  if f_skip f then v = omitted_value f
  else if f_isopt f then
    match v with
    | VNone => null = true \/ omitted_value f = VNone
    | VSome w =>
      match f_ty f with
      | TOpt t => fit t w /\ none t w = false
      | t => fit t w
      end
    | _ => False
    end
  else fit (f_ty f) v.

Fixpoint text_value (c : cfg) (G : env) (fm : fmt) (n : nat) (t : ty) (v : val) {struct n} : Prop :=
  match n with
  | O => False
  | S n' =>
    let fit := text_value c G fm n' in
    let none := looks_none G fm n' in
    match t, v with
    | TInt k, VZ z => k <> U128 /\ k <> I128 /\ int_ok c k z
    | TF32, VF b => finite32 b
    | TF64, VF b => finite64 b
    | TBool, VBool _ => True
    | TStr, VStr s => Forall scalar s
    | TUnit, VUnit => True
    | TOpt _, VNone => True
    | TOpt t', VSome w => fit t' w /\ none t' w = false
    | TSeq k t', VSeq l => Forall (fit t') l /\ seq_inv k l
    | TMap k tk tv, VMap l => Forall (fun e => fit tk (fst e) /\ fit tv (snd e)) l /\ map_inv k l
    | TArr m t', VSeq l => length l = m /\ Forall (fit t') l /\ (m = O -> overflow_checks c = false)
    | TTup ts, VSeq l => (2 <= length ts <= 4)%nat /\ Forall2 fit ts l
    | TBox t', w => fit t' w
    | TDur, VDur s ns => s < 2 ^ 64 /\ ns < 1000000000
    | TTime, VTime s ns => (0 <= s < 2 ^ 64)%Z /\ (s <= Z.of_N (time_max c))%Z /\ ns < 1000000000
    | TProxy p t', w => fm = Json /\ fit t' (p_to p w) /\ p_from p (p_to p w) = w
    | TNamed i, w =>
      match nth_error G i, w with
      | Some (DStruct _ cnull fs), VSeq l =>
        NoDup (map key_of_field (filter (fun f => negb (f_skip f)) fs)) /\
        Forall (fun f => f_skip f = false -> good_name fm (key_of_field f)) fs /\
        Forall2 (fun f => field_value fit none (none_as_null fm cnull f) f) fs l
      | Some (DTuple tr fs), VSeq l =>
        Forall2 (fun f w => f_hasproxy f = false /\ fit (f_ty f) w) fs l /\
        (fm = Ron -> fs <> [] /\ existsb f_skip fs = false)
      | Some (DProxy p t'), w' => fm = Json /\ fit t' (p_to p w') /\ p_from p (p_to p w') = w'
      | Some (DEnum vs), VEnum tag l =>
        NoDup (map (key_of_variant fm) vs) /\
        match nth_error vs (N.to_nat tag) with
        | None => False
        | Some vr =>
          good_name fm (key_of_variant fm vr) /\
          match v_body vr with
          | BUnit => l = []
          | BTuple ts => ts <> [] /\ Forall2 fit ts l
          | BStruct fs =>
            (* [rename] and [skip] on the fields of a variant are not honoured by the writer *)
            NoDup (map f_name fs) /\
            Forall (fun f => f_skip f = false /\ f_rename f = None /\ good_name fm (f_name f)) fs /\
            Forall2 (field_value fit none false) fs l
          end
        end
      | _, _ => False
      end
    | _, _ => False
    end
  end.
