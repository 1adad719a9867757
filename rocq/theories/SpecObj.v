(** Specification side: what a text means for a type, part by part. *)
From Verif Require Import Base Utf8 Types BinModel Text TextModel TextFuel SpecText SpecGram TextRun.
Local Open Scope N_scope.

(** The whole of [text] is a value of type [t], namely [v].  In RON parsing stops
    after the name of a variant without fields (and after [None]), and ignores what
    follows: [A(1)] is accepted where [A] alone is a value. *)
Definition entire (F : flt) (c : cfg) (G : env) (fm : fmt) (t : ty) (text : str) (v : val) : Prop :=
  parses F c G fm t text (Ok v) /\
  (fm = Ron -> forall s g a w, text = s ++ g ++ 40 :: a ++ [41] -> ron_word s -> gap g -> ~ parses F c G fm t s (Ok w)).

Section Objects.
  Variables (F : flt) (c : cfg) (G : env) (fm : fmt).

  (** [text] is a value of the field [f], namely [v]. *)
  Definition field_entire (f : field) (text : str) (v : val) : Prop :=
    if f_isopt f && f_hasproxy f then exists w, v = VSome w /\ entire F c G fm (f_ty f) text w
    else entire F c G fm (f_ty f) text v.
  (** The last member named [k] has the text [x]. *)
  Definition last_member (k x : str) (ms : list (str * str)) : Prop :=
    exists pre post, ms = pre ++ (k, x) :: post /\ ~ In k (map fst post).
  (** What a field that is not in the text is set to, if it may be missing: its
      default; the default of its type if the field or the container says so or if it
      is an option. *)
  Definition when_absent (dflt : bool) (f : field) : option val :=
    match f_default f with
    | Some d => Some d
    | None => if f_isopt f || dflt then Some (f_tydefault f) else None
    end.
  (** The value of one field, given the members. *)
  Definition field_of (dflt : bool) (ms : list (str * str)) (f : field) (v : val) : Prop :=
    if f_skip f then v = omitted_value f
    else (exists x, last_member (key_of_field f) x ms /\ field_entire f x v) \/
         (~ In (key_of_field f) (map fst ms) /\ when_absent dflt f = Some v).
  (** [k] is the name of a field that is not skipped. *)
  Definition known (fs : list field) (k : str) : Prop :=
    exists f, In f fs /\ f_skip f = false /\ key_of_field f = k.
  (** Every member that names a field is a value of that field (also one that a later
      member of the same name replaces). *)
  Definition members_ok (fs : list field) (ms : list (str * str)) : Prop :=
    forall k x f, In (k, x) ms -> In f fs -> f_skip f = false -> key_of_field f = k -> exists w, field_entire f x w.
  (** Members no field is named after: ignored in JSON, unless there are no fields at all. *)
  Definition extra_ok (fs : list field) (ms : list (str * str)) : Prop :=
    match fm with
    | Json => fs = [] -> ms = []
    | Ron => forall k x, In (k, x) ms -> known fs k
    end.
  Definition named_value (dflt : bool) (fs : list field) (ms : list (str * str)) (vs : list val) : Prop :=
    Forall2 (field_of dflt ms) fs vs /\ members_ok fs ms /\ extra_ok fs ms.
  (** The elements of a tuple: as many texts as types, each a value of its type. *)
  Definition tuple_value (ts : list ty) (xs : list str) (vs : list val) : Prop :=
    length ts = length xs /\ Forall2 (fun tx v => entire F c G fm (fst tx) (snd tx) v) (combine ts xs) vs.
  Definition unique_keys (fs : list field) : Prop :=
    NoDup (map key_of_field (filter (fun f => negb (f_skip f)) fs)).
End Objects.
