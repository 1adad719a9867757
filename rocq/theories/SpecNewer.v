(** Specification side of "a newer version of a program reads what the old one read":
    how declarations may change, and what becomes of the values.  Nothing here refers
    to the model of the parsers. *)
From Verif Require Import Base Utf8 Types Text TextModel SpecText SpecGram SpecTok SpecDoc SpecAcc SpecRonAcc.
Local Open Scope N_scope.

(** Integer types: the same, or one with a wider range.  [signed_too]: a signed type
    may be replaced by a wider signed one (for texts without numbers from 2^63 on,
    which the library wraps around: C83_ex_wrap). *)
Definition int_wider (signed_too : bool) (k k' : ik) : Prop :=
  k = k' \/
  (k <> Usize /\ k' <> Usize /\ k' <> U128 /\ k' <> I128 /\
   if ik_signed k then signed_too = true /\ ik_signed k' = true /\ (ik_bytes k < ik_bytes k')%nat
   else (ik_bytes k < ik_bytes k')%nat).
(** Types that are never read from [null] (JSON), or from a word [None] (RON). *)
Definition no_null (fm : fmt) (G : env) (t : ty) : bool :=
  match t with
  | TInt _ | TF32 | TF64 | TBool | TStr | TSeq _ _ | TMap _ _ _ | TArr _ _ | TTup _ | TDur => true
  | TUnit => match fm with Json => false | Ron => true end
  | TNamed i =>
    match nth_error G i with
    | Some (DStruct _ _ _) | Some (DTuple false _) => true
    | Some (DEnum vs) =>
      match fm with
      | Json => true
      | Ron => forallb (fun v => match v_body v with BUnit => false | _ => negb (str_eqb (key_of_variant Ron v) (chars "None")) end) vs
      end
    | _ => false
    end
  | _ => false
  end.
(** Keys of maps and elements of sets. *)
Definition key_wider (so : bool) (t t' : ty) : Prop :=
  match t, t' with
  | TInt k, TInt k' => int_wider so k k'
  | TBool, TBool | TStr, TStr => True
  | _, _ => False
  end.
Definition in_order (k : seqk) : Prop := k = SVec \/ k = SList.

(** ** Types *)
Inductive ty_newer (so : bool) (fm : fmt) (G : env) : ty -> ty -> Prop :=
| tn_int k k' : int_wider so k k' -> ty_newer so fm G (TInt k) (TInt k')
| tn_num k : k <> Usize -> (ik_signed k = true -> so = true) -> ty_newer so fm G (TInt k) TF64   (* an integer as a float *)
| tn_f32 : ty_newer so fm G TF32 TF32
| tn_f64 : ty_newer so fm G TF64 TF64
| tn_bool : ty_newer so fm G TBool TBool
| tn_str : ty_newer so fm G TStr TStr
| tn_unit : ty_newer so fm G TUnit TUnit
| tn_dur : ty_newer so fm G TDur TDur
| tn_time : ty_newer so fm G TTime TTime
| tn_some t t' : no_null fm G t = true -> ty_newer so fm G t t' -> ty_newer so fm G t (TOpt t')   (* T becomes Option<T> *)
| tn_opt t t' : ty_newer so fm G t t' -> ty_newer so fm G (TOpt t) (TOpt t')
| tn_box t t' : ty_newer so fm G t t' -> ty_newer so fm G (TBox t) (TBox t')
| tn_boxed t t' : ty_newer so fm G t t' -> ty_newer so fm G t (TBox t')
| tn_unboxed t t' : ty_newer so fm G t t' -> ty_newer so fm G (TBox t) t'
| tn_seq k k' t t' : in_order k -> in_order k' -> ty_newer so fm G t t' -> ty_newer so fm G (TSeq k t) (TSeq k' t')
| tn_arr n t t' : ty_newer so fm G t t' -> ty_newer so fm G (TArr n t) (TArr n t')
| tn_list n k t t' : fm = Json -> in_order k ->   (* arrays and lists have different brackets in RON *)
    ty_newer so fm G t t' -> ty_newer so fm G (TArr n t) (TSeq k t')
| tn_set k t t' : key_wider so t t' -> ty_newer so fm G (TSeq k t) (TSeq k t')
| tn_map k tk tk' t t' : key_wider so tk tk' -> ty_newer so fm G t t' -> ty_newer so fm G (TMap k tk t) (TMap k tk' t')
| tn_tup ts ts' : Forall2 (ty_newer so fm G) ts ts' -> ty_newer so fm G (TTup ts) (TTup ts')
| tn_proxy p t t' : ty_newer so fm G t t' -> ty_newer so fm G (TProxy p t) (TProxy p t')
| tn_named i : ty_newer so fm G (TNamed i) (TNamed i).

(** ** Declarations *)
Section Decls.
  Variables (so : bool) (fm : fmt) (G : env) (fresh : str -> Prop).
  (** [f'] is the field [f] of the old version. *)
  Definition field_kept (dflt dflt' : bool) (f f' : field) : Prop :=
    f_skip f = false /\ key_of_field f = key_of_field f' /\
    f_isopt f && f_hasproxy f = false /\ f_isopt f' && f_hasproxy f' = false /\
    ty_newer so fm G (f_ty f) (f_ty f') /\
    (absent_value dflt f <> None -> absent_value dflt' f' <> None).
  (** A new field: in JSON its name is fresh; in RON, which has no unknown members, it only
      differs from the old names. *)
  Definition field_new (fs : list field) (f' : field) : Prop :=
    match fm with
    | Json => fresh (key_of_field f')
    | Ron => forall f, In f fs -> f_skip f = false -> key_of_field f <> key_of_field f'
    end.
  (** Fields may be reordered, retyped, and added if they have a default value; in JSON
      also removed, but one of several fields must stay. *)
  Definition fields_newer (dflt dflt' : bool) (fs fs' : list field) : Prop :=
    match fm with
    | Json => fs' = [] -> fs = []
    | Ron => forall f, In f fs -> f_skip f = false -> exists f', In f' fs' /\ f_skip f' = false /\ key_of_field f = key_of_field f'
    end /\
    Forall (fun f' => f_skip f' = false -> (exists f, In f fs /\ field_kept dflt dflt' f f') \/
                      (field_new fs f' /\ absent_value dflt' f' <> None)) fs'.
  Definition body_newer (b b' : vbody) : Prop :=
    match b, b' with
    | BUnit, BUnit => True
    | BTuple ts, BTuple ts' => Forall2 (ty_newer so fm G) ts ts'
    | BStruct fs, BStruct fs' => fields_newer false false fs fs'
    | _, _ => False
    end.
  Definition decl_newer (d d' : decl) : Prop :=
    match d, d' with
    | DStruct dflt _ fs, DStruct dflt' _ fs' => fields_newer dflt dflt' fs fs'
    | DTuple tr fs, DTuple tr' fs' => tr = tr' /\ existsb f_hasproxy fs' = false /\
        Forall2 (fun f f' => ty_newer so fm G (f_ty f) (f_ty f')) fs fs'
    (* variants may be added and moved *)
    | DEnum vs, DEnum vs' => Forall (fun v => exists v', In v' vs' /\ key_of_variant fm v = key_of_variant fm v' /\
        body_newer (v_body v) (v_body v')) vs
    | DProxy p t, DProxy p' t' => p = p' /\ ty_newer so fm G t t'
    | _, _ => False
    end.
  (** Every declaration is still there; others may be added. *)
  Definition env_newer (G' : env) : Prop :=
    forall i d, nth_error G i = Some d -> exists d', nth_error G' i = Some d' /\ decl_newer d d'.
End Decls.

(** ** Values: the value [v] that the old version reads becomes [v']. *)
Inductive each (R : ty -> ty -> val -> val -> Prop) : list ty -> list ty -> list val -> list val -> Prop :=
| each_nil : each R [] [] [] []
| each_cons t t' v v' ts ts' l l' : R t t' v v' -> each R ts ts' l l' -> each R (t :: ts) (t' :: ts') (v :: l) (v' :: l').
(** A field of the new version has its value from the field of the same name, or, if
    that had a default value, its default, or it is new and has its default. *)
Inductive field_becomes (R : ty -> ty -> val -> val -> Prop) (new : field -> Prop) (dflt dflt' : bool) (fs : list field) (l : list val) (f' : field) : val -> Prop :=
| fb_skip : f_skip f' = true -> field_becomes R new dflt dflt' fs l f' (omitted_value f')
| fb_kept f v v' : f_skip f' = false -> In (f, v) (combine fs l) -> f_skip f = false -> key_of_field f = key_of_field f' ->
    R (f_ty f) (f_ty f') v v' -> field_becomes R new dflt dflt' fs l f' v'
| fb_absent f v v' : f_skip f' = false -> In (f, v) (combine fs l) -> f_skip f = false -> key_of_field f = key_of_field f' ->
    absent_value dflt f = Some v -> absent_value dflt' f' = Some v' -> field_becomes R new dflt dflt' fs l f' v'
| fb_new v' : f_skip f' = false -> new f' -> absent_value dflt' f' = Some v' -> field_becomes R new dflt dflt' fs l f' v'.

Inductive becomes (F : flt) (fm : fmt) (fresh : str -> Prop) (G G' : env) : ty -> ty -> val -> val -> Prop :=
| bc_int k k' z : becomes F fm fresh G G' (TInt k) (TInt k') (VZ z) (VZ z)
| bc_num k z : becomes F fm fresh G G' (TInt k) TF64 (VZ z) (VF (f64_of_z F z))
| bc_f32 b : becomes F fm fresh G G' TF32 TF32 (VF b) (VF b)
| bc_f64 b : becomes F fm fresh G G' TF64 TF64 (VF b) (VF b)
| bc_bool b : becomes F fm fresh G G' TBool TBool (VBool b) (VBool b)
| bc_str s : becomes F fm fresh G G' TStr TStr (VStr s) (VStr s)
| bc_unit : becomes F fm fresh G G' TUnit TUnit VUnit VUnit
| bc_dur s n : becomes F fm fresh G G' TDur TDur (VDur s n) (VDur s n)
| bc_time s n : becomes F fm fresh G G' TTime TTime (VTime s n) (VTime s n)
| bc_some t t' v v' : no_null fm G t = true -> becomes F fm fresh G G' t t' v v' -> becomes F fm fresh G G' t (TOpt t') v (VSome v')
| bc_none t t' : becomes F fm fresh G G' (TOpt t) (TOpt t') VNone VNone
| bc_opt t t' v v' : becomes F fm fresh G G' t t' v v' -> becomes F fm fresh G G' (TOpt t) (TOpt t') (VSome v) (VSome v')
| bc_box t t' v v' : becomes F fm fresh G G' t t' v v' -> becomes F fm fresh G G' (TBox t) (TBox t') v v'
| bc_boxed t t' v v' : becomes F fm fresh G G' t t' v v' -> becomes F fm fresh G G' t (TBox t') v v'
| bc_unboxed t t' v v' : becomes F fm fresh G G' t t' v v' -> becomes F fm fresh G G' (TBox t) t' v v'
| bc_seq k k' t t' l l' : in_order k -> in_order k' -> Forall2 (becomes F fm fresh G G' t t') l l' ->
    becomes F fm fresh G G' (TSeq k t) (TSeq k' t') (VSeq l) (VSeq l')
| bc_arr n t t' l l' : Forall2 (becomes F fm fresh G G' t t') l l' -> becomes F fm fresh G G' (TArr n t) (TArr n t') (VSeq l) (VSeq l')
| bc_list n k t t' l l' : in_order k -> Forall2 (becomes F fm fresh G G' t t') l l' ->
    becomes F fm fresh G G' (TArr n t) (TSeq k t') (VSeq l) (VSeq l')
| bc_set k t t' l : becomes F fm fresh G G' (TSeq k t) (TSeq k t') (VSeq l) (VSeq l)
| bc_map k tk tk' t t' l l' : Forall2 (fun e e' => fst e = fst e' /\ becomes F fm fresh G G' t t' (snd e) (snd e')) l l' ->
    becomes F fm fresh G G' (TMap k tk t) (TMap k tk' t') (VMap l) (VMap l')
| bc_tup ts ts' l l' : each (becomes F fm fresh G G') ts ts' l l' -> becomes F fm fresh G G' (TTup ts) (TTup ts') (VSeq l) (VSeq l')
| bc_proxy p t t' v v' : becomes F fm fresh G G' t t' v v' -> becomes F fm fresh G G' (TProxy p t) (TProxy p t') (p_from p v) (p_from p v')
| bc_struct i dflt dflt' cn cn' fs fs' l l' : nth_error G i = Some (DStruct dflt cn fs) -> nth_error G' i = Some (DStruct dflt' cn' fs') ->
    Forall2 (field_becomes (becomes F fm fresh G G') (field_new fm fresh fs) dflt dflt' fs l) fs' l' ->
    becomes F fm fresh G G' (TNamed i) (TNamed i) (VSeq l) (VSeq l')
| bc_tuple i tr fs fs' l l' : nth_error G i = Some (DTuple tr fs) -> nth_error G' i = Some (DTuple tr fs') ->
    each (becomes F fm fresh G G') (map f_ty fs) (map f_ty fs') l l' ->
    becomes F fm fresh G G' (TNamed i) (TNamed i) (VSeq l) (VSeq l')
| bc_unit_variant i vs vs' tag tag' v v' : nth_error G i = Some (DEnum vs) -> nth_error G' i = Some (DEnum vs') ->
    nth_error vs tag = Some v -> nth_error vs' tag' = Some v' -> key_of_variant fm v = key_of_variant fm v' ->
    v_body v = BUnit -> v_body v' = BUnit ->
    becomes F fm fresh G G' (TNamed i) (TNamed i) (VEnum (N.of_nat tag) []) (VEnum (N.of_nat tag') [])
| bc_tuple_variant i vs vs' tag tag' v v' ts ts' l l' : nth_error G i = Some (DEnum vs) -> nth_error G' i = Some (DEnum vs') ->
    nth_error vs tag = Some v -> nth_error vs' tag' = Some v' -> key_of_variant fm v = key_of_variant fm v' ->
    v_body v = BTuple ts -> v_body v' = BTuple ts' -> each (becomes F fm fresh G G') ts ts' l l' ->
    becomes F fm fresh G G' (TNamed i) (TNamed i) (VEnum (N.of_nat tag) l) (VEnum (N.of_nat tag') l')
| bc_struct_variant i vs vs' tag tag' v v' fs fs' l l' : nth_error G i = Some (DEnum vs) -> nth_error G' i = Some (DEnum vs') ->
    nth_error vs tag = Some v -> nth_error vs' tag' = Some v' -> key_of_variant fm v = key_of_variant fm v' ->
    v_body v = BStruct fs -> v_body v' = BStruct fs' -> Forall2 (field_becomes (becomes F fm fresh G G') (field_new fm fresh fs) false false fs l) fs' l' ->
    becomes F fm fresh G G' (TNamed i) (TNamed i) (VEnum (N.of_nat tag) l) (VEnum (N.of_nat tag') l')
| bc_dproxy i p t t' v v' : nth_error G i = Some (DProxy p t) -> nth_error G' i = Some (DProxy p t') -> becomes F fm fresh G G' t t' v v' ->
    becomes F fm fresh G G' (TNamed i) (TNamed i) (p_from p v) (p_from p v').

(** ** Texts *)
(** The string literals of a JSON text are not among the names of new fields, and (if
    signed integers are widened) the integers are below 2^63. *)
Definition plain_toks (so : bool) (fm : fmt) (fresh : str -> Prop) (xs : list lexeme) : Prop :=
  (fm = Json -> forall b k, In (XS b k) xs -> ~ fresh k) /\
  (so = true -> forall s sg d, In (XN s) xs -> int_literal (unplus s) sg d -> (signed_value sg d < 2 ^ 63)%Z).
Definition plain_text (F : flt) (so : bool) (fm : fmt) (fresh : str -> Prop) (text : str) : Prop :=
  forall xs r, tokens fm F xs text r -> plain_toks so fm fresh xs.
