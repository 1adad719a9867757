(** C74: types whose values pass through every format, and routes of documents
    in several formats.  Nothing here mentions the writers and readers: the
    conditions are on the declarations a user writes. *)
From Verif Require Import Base Utf8 Types TyAll Text SpecText.
Local Open Scope N_scope.

(** [solid G t]: no value of [t] is written like an absent option. *)
Inductive solid (G : env) : ty -> Prop :=
| so_leaf t : match t with
    | TInt _ | TF32 | TF64 | TBool | TStr | TSeq _ _ | TMap _ _ _ | TArr _ _ | TTup _ | TDur | TTime => True
    | _ => False end -> solid G t
| so_box t : solid G t -> solid G (TBox t)
| so_struct i a b fs : nth_error G i = Some (DStruct a b fs) -> solid G (TNamed i)
| so_tuple i fs : nth_error G i = Some (DTuple false fs) -> solid G (TNamed i)
| so_newtype i f : nth_error G i = Some (DTuple true [f]) -> solid G (f_ty f) -> solid G (TNamed i)
| so_enum i vs : nth_error G i = Some (DEnum vs) -> Forall (fun v => v_name v <> chars "None") vs -> solid G (TNamed i).

(** The types written: no 128-bit integers (they have no text form), no option
    of something that can look absent, no array of length 0, tuples of 2 to 4
    elements, no proxies (the RON derives have none). *)
Definition portable_node (G : env) (t : ty) : Prop :=
  match t with
  | TInt k => k <> U128 /\ k <> I128
  | TOpt t' => solid G t'
  | TArr m _ => m <> O
  | TTup ts => (2 <= length ts <= 4)%nat
  | TProxy _ _ => False
  | _ => True
  end.

(** A name both formats can write. *)
Definition portable_name (s : str) : Prop := json_name s /\ ron_name s.

(** A field: no proxy; marked optional only if its type is an option; an
    optional field is restored as [None] when it is missing; a skipped one has no
    [default] of its own (binary would not use it). *)
Definition portable_field (f : field) : Prop :=
  f_hasproxy f = false /\
  (f_isopt f = true -> (exists t, f_ty f = TOpt t) /\ (f_skip f = false -> omitted_value f = VNone)) /\
  (f_skip f = true -> f_default f = None).
Definition portable_decl (d : decl) : Prop :=
  match d with
  | DStruct _ _ fs =>
    NoDup (map key_of_field (filter (fun f => negb (f_skip f)) fs)) /\
    Forall (fun f => f_skip f = false -> portable_name (key_of_field f)) fs /\ Forall portable_field fs
  | DTuple _ fs => fs <> [] /\ existsb f_skip fs = false /\ Forall portable_field fs
  | DEnum vs =>
    lenN vs <= 65536 /\ NoDup (map (key_of_variant Json) vs) /\ NoDup (map v_name vs) /\
    Forall (fun v => json_name (key_of_variant Json v) /\ ron_name (v_name v) /\
      match v_body v with
      | BUnit => True
      | BTuple ts => ts <> []
      | BStruct fs => NoDup (map f_name fs) /\
          Forall (fun f => f_skip f = false /\ f_rename f = None /\ portable_name (f_name f) /\ portable_field f) fs
      end) vs
  | DProxy _ _ => False
  end.
(** [t], with the declarations [G], is a portable type. *)
Definition portable (G : env) (t : ty) : Prop :=
  ty_all (portable_node G) t /\ env_all (portable_node G) G /\ Forall portable_decl G.

(** [part G t v t' w]: the value [w] of type [t'] occurs in the value [v] of type [t]. *)
Inductive part (G : env) : ty -> val -> ty -> val -> Prop :=
| pa_here t v : part G t v t v
| pa_some t w t' u : part G t w t' u -> part G (TOpt t) (VSome w) t' u
| pa_item k t l w t' u : In w l -> part G t w t' u -> part G (TSeq k t) (VSeq l) t' u
| pa_key k tk tv l a b t' u : In (a, b) l -> part G tk a t' u -> part G (TMap k tk tv) (VMap l) t' u
| pa_value k tk tv l a b t' u : In (a, b) l -> part G tv b t' u -> part G (TMap k tk tv) (VMap l) t' u
| pa_slot m t l w t' u : In w l -> part G t w t' u -> part G (TArr m t) (VSeq l) t' u
| pa_tuple ts l i t w t' u : nth_error ts i = Some t -> nth_error l i = Some w -> part G t w t' u ->
    part G (TTup ts) (VSeq l) t' u
| pa_box t w t' u : part G t w t' u -> part G (TBox t) w t' u
| pa_struct n a b fs l i f w t' u : nth_error G n = Some (DStruct a b fs) -> nth_error fs i = Some f ->
    nth_error l i = Some w -> f_skip f = false -> part G (f_ty f) w t' u -> part G (TNamed n) (VSeq l) t' u
| pa_tstruct n a fs l i f w t' u : nth_error G n = Some (DTuple a fs) -> nth_error fs i = Some f ->
    nth_error l i = Some w -> part G (f_ty f) w t' u -> part G (TNamed n) (VSeq l) t' u
| pa_tvariant n vs tag vr ts l i t w t' u : nth_error G n = Some (DEnum vs) -> nth_error vs (N.to_nat tag) = Some vr ->
    v_body vr = BTuple ts -> nth_error ts i = Some t -> nth_error l i = Some w -> part G t w t' u ->
    part G (TNamed n) (VEnum tag l) t' u
| pa_svariant n vs tag vr fs l i f w t' u : nth_error G n = Some (DEnum vs) -> nth_error vs (N.to_nat tag) = Some vr ->
    v_body vr = BStruct fs -> nth_error fs i = Some f -> nth_error l i = Some w -> part G (f_ty f) w t' u ->
    part G (TNamed n) (VEnum tag l) t' u.

(** No infinity and no NaN occurs in [v]. *)
Definition finite_floats (G : env) (t : ty) (v : val) : Prop :=
  forall b, (part G t v TF64 (VF b) -> finite64 b) /\ (part G t v TF32 (VF b) -> finite32 b).

(** Every string and collection in [v] is one that memory can hold ([alloc_max]:
    what [with_capacity] accepts). *)
Definition in_memory (c : cfg) (G : env) (t : ty) (v : val) : Prop :=
  forall t' w, part G t v t' w ->
    match t', w with
    | TStr, VStr s => lenN (utf8_enc s) < usize_mod c
    | TSeq k e, VSeq l => lenN l < usize_mod c /\ (k = SVec \/ k = SHSet -> lenN l <= alloc_max c e)
    | TMap k e _, VMap l => lenN l < usize_mod c /\ (k = MHash -> lenN l <= alloc_max c e)
    | _, _ => True
    end.

(** Whatever a missing field is restored to is a value of its type ([dflt]: the
    struct has [default]). *)
Definition default_ok (c : cfg) (G : env) (dflt : bool) (f : field) : Prop :=
  f_skip f = false -> f_default f <> None \/ f_isopt f = true \/ dflt = true -> has_type c G (f_ty f) (omitted_value f).
Definition defaults_ok (c : cfg) (G : env) : Prop :=
  Forall (fun d => match d with
    | DStruct dflt _ fs => Forall (default_ok c G dflt) fs
    | DEnum vs => Forall (fun v => match v_body v with BStruct fs => Forall (default_ok c G false) fs | _ => True end) vs
    | _ => True
    end) G.

(** The three formats; a document is a list of bytes or of characters. *)
Inductive format := Bin | Txt (fm : fmt).

(** What a writer and a reader do, for every format: [wr f v doc] -- writing
    [v] gives [doc]; [rd f doc v] -- reading [doc] gives [v]. *)
Section Route.
  Variables (wr : format -> val -> list N -> Prop) (rd : format -> list N -> val -> Prop).
  (** [v] is written in the first format of the route and read back, what was
      read is written in the next, ...; [w] is read at the end. *)
  Inductive route : list format -> val -> val -> Prop :=
  | ro_done v : route [] v v
  | ro_hop f fs v doc w u : wr f v doc -> rd f doc w -> route fs w u -> route (f :: fs) v u.
End Route.
