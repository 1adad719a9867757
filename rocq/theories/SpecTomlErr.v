(** Specification side of "every error of the TOML parser": where the text stops being
    a document, what is reported and on which line.  From the model only types (tokens,
    values, messages) and the characters of bare keys ([q_ident]) are used. *)
From Verif Require Import Base Utf8 Types Text TextModel SpecText SpecGram TomlModel SpecToml SpecTomlAcc.
Local Open Scope N_scope.

(** ** Texts that begin with no token.  [what] is the word of the message, [r] what is
    left where the tokenizer gave up. *)
(** A string that is not closed before the end of the text (or a NUL character): the
    text after the opening quotes.  The character after a backslash, or after quotes
    that are not three, is not looked at. *)
Inductive short_open : str -> str -> Prop :=
| so_end r : cur r = 0 -> short_open r r
| so_plain x t r : x <> 34 -> x <> 92 -> x <> 0 -> short_open t r -> short_open (x :: t) r
| so_esc x t r : short_open t r -> short_open (92 :: x :: t) r
| so_cut : short_open [92] [].
Inductive long_open : str -> str -> Prop :=
| lo_end r : cur r = 0 -> long_open r r
| lo_plain x t r : x <> 34 -> x <> 92 -> x <> 0 -> long_open t r -> long_open (x :: t) r
| lo_esc x t r : long_open t r -> long_open (92 :: x :: t) r
| lo_cut : long_open [92] []
| lo_quotes q x t r : Forall (eq 34) q -> q <> [] -> length q <> 3%nat -> x <> 34 -> long_open t r -> long_open (q ++ x :: t) r
| lo_quotes_cut q : Forall (eq 34) q -> q <> [] -> length q <> 3%nat -> long_open q [].
Inductive open_string : str -> str -> Prop :=
| os_short q b r : q = [34] \/ q = [34; 34] -> cur b <> 34 -> short_open b r -> open_string (q ++ b) r
| os_long b r : long_open b r -> open_string ([34; 34; 34] ++ b) r.

(** A number that is none: what comes after sign, [nan]/[inf] and digits. *)
Inductive bad_after (F : flt) : bool -> str -> str -> str -> str -> str -> str -> Prop :=
(* a fraction the standard library does not take *)
| ba_float neg s p d e w r : spread e w -> ~ num_char (cur r) -> f64_parse F (s ++ 46 :: e) = None ->
    bad_after F neg s p d (46 :: w ++ r) (chars "number") r
(* a word that starts with digits and runs into a character that does not end it *)
| ba_word neg s p d x w r : q_ident x = true -> x <> 45 -> Forall key_char w -> ~ key_char (cur r) -> ~ word_end r ->
    bad_after F neg s p d (x :: w ++ r) (chars "tokenizer") r
(* no digits, or too large an integer *)
| ba_int (neg : bool) s p d r : q_ident (cur r) = false -> cur r <> 46 ->
    p <> [] \/ d = [] \/ (if neg then 2 ^ 63 < decimal d else 2 ^ 63 <= decimal d) -> bad_after F neg s p d r (chars "tokenizer") r.
Inductive bad_number (F : flt) : str -> str -> str -> Prop :=
| bn_num sg (neg : bool) p d u l what r : sign sg neg -> (sg = [] -> 48 <= cur (p ++ u) <= 57) -> nan_inf p (u ++ l) -> spread d u -> ~ num_char (cur l) ->
    ~ ((p = chars "nan" \/ p = chars "inf") /\ word_end (u ++ l)) ->
    bad_after F neg (minus neg ++ p ++ d) p d l what r -> bad_number F (sg ++ p ++ u ++ l) what r.

(** The text begins, after blanks and comments, with no token. *)
Inductive bad_token (F : flt) : str -> str -> str -> Prop :=
| bt_char g r : tgap g -> r <> [] -> ~ In (cur r) [32; 9; 10; 13; 0; 44; 91; 93; 61; 35; 43; 34] -> q_ident (cur r) = false -> bad_token F (g ++ r) (chars "tokenizer") r
| bt_number g l what r : tgap g -> bad_number F l what r -> bad_token F (g ++ l) what r
| bt_string g l r : tgap g -> open_string l r -> bad_token F (g ++ l) (chars "string") r
| bt_word g x w r : tgap g -> q_ident x = true -> ~ 48 <= x <= 57 -> x <> 45 -> Forall key_char w -> ~ key_char (cur r) -> ~ word_end r ->
    bad_token F (g ++ x :: w ++ r) (chars "tokenizer") r.

(** ** Texts that begin with no entry *)
Section Grammar.
  Variable F : flt.
  Variable show : N -> str.
  (** At [l] a token of [P] is wanted and not found: [m] names what is there instead. *)
  Inductive wants (P : ttok -> Prop) : str -> qmsg -> str -> Prop :=
  | wn_bad l what r : bad_token F l what r -> wants P l (QParse what) r
  | wn_tok l t r : first_token F l t r -> ~ P t -> wants P l (QTok t) r.
  Definition starts_value (t : ttok) : Prop := t = QOpen \/ exists v, tok_value F t v.
  (** In an array. *)
  Inductive values_err : str -> qmsg -> str -> Prop :=
  | ve_here l m r : wants (fun t => starts_value t \/ In t [QClose; QComma; QEof]) l m r -> values_err l m r
  | ve_inner l l1 m r : first_token F l QOpen l1 -> values_err l1 m r -> values_err l m r
  | ve_comma l l1 m r : first_token F l QComma l1 -> values_err l1 m r -> values_err l m r
  | ve_value l v l1 m r : value_at F l v l1 -> values_err l1 m r -> values_err l m r.
  (** Where a value is wanted. *)
  Inductive value_err : str -> qmsg -> str -> Prop :=
  | vx_here l m r : wants starts_value l m r -> value_err l m r
  | vx_arr l l1 m r : first_token F l QOpen l1 -> values_err l1 m r -> value_err l m r.
  Definition is_key (t : ttok) : Prop := exists k, tok_key show t k.
  Definition is_str (t : ttok) : Prop := exists s, t = QStr s.
  (** Where an entry or the end is wanted. *)
  Inductive entry_err : str -> qmsg -> str -> Prop :=
  | xe_start l m r : wants (fun t => t = QOpen \/ t = QEof \/ is_key t) l m r -> entry_err l m r
  (* key = value *)
  | xe_eq l t l1 m r : first_token F l t l1 -> is_key t -> wants (eq QEq) l1 m r -> entry_err l m r
  | xe_value l t l1 l2 m r : first_token F l t l1 -> is_key t -> first_token F l1 QEq l2 -> value_err l2 m r -> entry_err l m r
  (* [name] *)
  | xe_name l l1 m r : first_token F l QOpen l1 -> wants (fun t => t = QOpen \/ exists k, t = QStr k \/ t = QIdent k) l1 m r -> entry_err l m r
  | xe_close l l1 t k l2 m r : first_token F l QOpen l1 -> first_token F l1 t l2 -> t = QStr k \/ t = QIdent k -> wants (eq QClose) l2 m r -> entry_err l m r
  (* [[name]] *)
  | xe_names l l1 l2 m r : first_token F l QOpen l1 -> first_token F l1 QOpen l2 -> wants (fun t => is_key t /\ ~ is_str t) l2 m r -> entry_err l m r
  | xe_close1 l l1 l2 t l3 m r : first_token F l QOpen l1 -> first_token F l1 QOpen l2 -> first_token F l2 t l3 -> is_key t -> ~ is_str t ->
      wants (eq QClose) l3 m r -> entry_err l m r
  | xe_close2 l l1 l2 t l3 l4 m r : first_token F l QOpen l1 -> first_token F l1 QOpen l2 -> first_token F l2 t l3 -> is_key t -> ~ is_str t ->
      first_token F l3 QClose l4 -> wants (eq QClose) l4 m r -> entry_err l m r.
  (** [text] begins with the entries [es]; after them, at [l], there is neither an
      entry nor the end; the reader gave up before [r]. *)
  Definition toml_error (text : str) (es : list entry) (m : qmsg) (r : str) : Prop :=
    exists l, entries_at F show text es l /\ entry_err l m r.
End Grammar.
(** The line of an error: the line breaks before the place where the reader gave up,
    and that place itself, if it is a line break. *)
Definition error_line (text r : str) (n : N) : Prop := exists p, text = p ++ r /\ n = newlines (p ++ firstn 1 r).
