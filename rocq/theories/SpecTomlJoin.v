(** Specification side of "TOML documents can be joined and their entries reordered".
    Nothing here refers to the model of the parser. *)
From Verif Require Import Base Utf8 Types Text TextModel SpecText SpecGram TomlModel SpecToml SpecTomlAcc.
Local Open Scope N_scope.

(** Two lists of assignments leave the same values. *)
Definition same_values (l l' : list (str * toml)) : Prop := forall k v, last_value l k v <-> last_value l' k v.
(** Two documents assign the same values before the first [[k]] header, and under the
    headers of each key, one after another. *)
Definition alike (es es' : list entry) : Prop :=
  same_values (settings [] es) (settings [] es') /\ forall k, Forall2 same_values (of_key k (sections es)) (of_key k (sections es')).

(** The text [p] is the entries [es], and after them comes at least a blank, a line end
    or a comment with its line end: so the last value is finished and no array or
    comment is open. *)
Definition lines (F : flt) (show : N -> str) (p : str) (es : list entry) : Prop :=
  exists w, entries_at F show p es w /\ tgap w /\ w <> [].
(** The entries [es'] do not depend on the table header in force where they begin:
    they begin with a header themselves, or there was no header. *)
Definition fresh (es es' : list entry) : Prop :=
  (forall e, In e es -> exists k v, e = ESet k v) \/ es' = [] \/ exists k r, es' = ETable k :: r \/ es' = ETables k :: r.
