(** Specification side of "the texts the TOML parser accepts": its tokens and its
    grammar, with the departures from TOML it has.  From the model only types
    (tokens, values), the characters of bare keys ([q_ident]) and, for keys that are
    numbers, their decimal form ([dec], [dec_z]) are used. *)
From Verif Require Import Base Utf8 Types Text TextModel SpecText SpecGram TomlModel SpecToml.
Local Open Scope N_scope.

(** ** Tokens *)
(** What ends a word: the end, a NUL character, a blank, [=] or a closing bracket. *)
Definition word_end (r : str) : Prop := r = [] \/ In (cur r) [32; 9; 13; 10; 0; 61; 93].
(** The words that are not identifiers. *)
Inductive word_token : str -> ttok -> Prop :=
| wt_true : word_token (chars "true") (QBool true)
| wt_false : word_token (chars "false") (QBool false)
| wt_inf : word_token (chars "inf") (QInf false)
| wt_nan : word_token (chars "nan") (QNan false)
| wt_ident w : ~ special w -> word_token w (QIdent w).

(** The contents of a string: a backslash stands for nothing, the character after it
    for itself. *)
Inductive short_body : str -> str -> Prop :=
| sb_end : short_body [] []
| sb_plain x t s : x <> 34 -> x <> 92 -> x <> 0 -> short_body t s -> short_body (x :: t) (x :: s)
| sb_esc x t s : short_body t s -> short_body (92 :: x :: t) (x :: s).
(** ... between three quotes: also quotes, if not exactly three in a row, together
    with the character after them, whatever it is. *)
Inductive long_body : str -> str -> Prop :=
| lb_end : long_body [] []
| lb_plain x t s : x <> 34 -> x <> 92 -> x <> 0 -> long_body t s -> long_body (x :: t) (x :: s)
| lb_esc x t s : long_body t s -> long_body (92 :: x :: t) (x :: s)
| lb_quotes q x t s : Forall (eq 34) q -> q <> [] -> length q <> 3%nat -> x <> 34 -> long_body t s ->
    long_body (q ++ x :: t) (q ++ x :: s).
(** A string: after one quote or two quotes some contents and a quote; after three
    quotes the contents and three quotes, and then one more character is lost. *)
Inductive string_at : str -> str -> str -> Prop :=
| sa_short q b s r : q = [34] \/ q = [34; 34] -> short_body b s -> b <> [] -> string_at (q ++ b ++ 34 :: r) s r
| sa_long b s r : long_body b s -> cur r <> 34 -> string_at ([34; 34; 34] ++ b ++ [34; 34; 34] ++ r) s (tl r).

(** A number: a sign; as much of [nan] or [inf] as is there; digits and underscores. *)
Definition nan_inf (p l : str) : Prop :=
  p = [] /\ cur l <> 110 /\ cur l <> 105 \/
  p <> [] /\ exists q, (p ++ q = chars "nan" \/ p ++ q = chars "inf") /\ (q = [] \/ cur l <> cur q).
Definition num_char (x : N) : Prop := 48 <= x <= 57 \/ x = 95.
Inductive number_at (F : flt) : str -> ttok -> str -> Prop :=
(* +nan, -inf *)
| na_word sg neg p r t : sign sg neg -> sg <> [] -> (p = chars "nan" /\ t = QNan neg \/ p = chars "inf" /\ t = QInf neg) -> word_end r ->
    number_at F (sg ++ p ++ r) t r
(* the rest, according to what follows the digits [u] ([d] without underscores) *)
| na_num sg neg p d u l t r : sign sg neg -> (sg = [] -> 48 <= cur (p ++ u) <= 57) -> nan_inf p (u ++ l) -> spread d u -> ~ num_char (cur l) ->
    after_digits F neg (minus neg ++ p ++ d) p d l t r -> number_at F (sg ++ p ++ u ++ l) t r
with after_digits (F : flt) : bool -> str -> str -> str -> str -> ttok -> str -> Prop :=
(* a fraction *)
| ad_float neg s p d e w b r : spread e w -> ~ num_char (cur r) -> f64_parse F (s ++ 46 :: e) = Some b -> after_digits F neg s p d (46 :: w ++ r) (QF64 b) r
(* a date *)
| ad_date neg s p d w r : Forall date_char w -> ~ date_char (cur r) -> after_digits F neg s p d (45 :: w ++ r) (QDate (s ++ 45 :: w)) r
(* a word that starts with digits *)
| ad_word neg s p d x w t r : q_ident x = true -> x <> 45 -> Forall key_char w -> word_token (s ++ x :: w) t -> word_end r ->
    after_digits F neg s p d (x :: w ++ r) t r
(* an integer *)
| ad_pos s d r : d <> [] -> decimal d < 2 ^ 63 -> q_ident (cur r) = false -> cur r <> 46 -> after_digits F false s [] d r (QU64 (decimal d)) r
| ad_neg s d r : d <> [] -> decimal d <= 2 ^ 63 -> q_ident (cur r) = false -> cur r <> 46 -> after_digits F true s [] d r (QI64 (- Z.of_N (decimal d))) r.

(** [first_token l t r]: the first token of [l] is [t] and [r] is what is left. *)
Inductive first_token (F : flt) : str -> ttok -> str -> Prop :=
| ft_end g r : tgap g -> cur r = 0 -> first_token F (g ++ r) QEof r
| ft_end_comment g body r : tgap g -> Forall (fun x => x <> 10 /\ x <> 0) body -> cur r = 0 -> first_token F (g ++ 35 :: body ++ r) QEof r
| ft_punct g x t r : tgap g -> In (x, t) [(44, QComma); (91, QOpen); (93, QClose); (61, QEq)] -> first_token F (g ++ x :: r) t r
| ft_number g l t r : tgap g -> number_at F l t r -> first_token F (g ++ l) t r
| ft_string g l s r : tgap g -> string_at l s r -> first_token F (g ++ l) (QStr s) r
| ft_word g x w t r : tgap g -> q_ident x = true -> ~ 48 <= x <= 57 -> x <> 45 -> Forall key_char w -> word_token (x :: w) t -> word_end r ->
    first_token F (g ++ x :: w ++ r) t r.

(** ** Grammar *)
Section Grammar.
  Variable F : flt.
  Variable show : N -> str.   (* the standard library's [f64::to_string] *)
  (** The value of a token. *)
  Inductive tok_value : ttok -> toml -> Prop :=
  | tw_str s : tok_value (QStr s) (TVStr s)
  | tw_u64 n : tok_value (QU64 n) (TVNum (f64_of_z F (Z.of_N n)))
  | tw_i64 z : tok_value (QI64 z) (TVNum (f64_of_z F z))
  | tw_f64 b : tok_value (QF64 b) (TVNum b)
  | tw_bool b : tok_value (QBool b) (TVBool b)
  | tw_nan neg : tok_value (QNan neg) (TVNum (nan64 neg))
  | tw_inf neg : tok_value (QInf neg) (TVNum (inf64 neg))
  | tw_date s : tok_value (QDate s) (TVDate s).
  (** The key a token stands for: its text, normalised if it is a number. *)
  Inductive tok_key : ttok -> str -> Prop :=
  | tq_ident s : tok_key (QIdent s) s
  | tq_str s : tok_key (QStr s) s
  | tq_date s : tok_key (QDate s) s
  | tq_u64 n : tok_key (QU64 n) (dec n)
  | tq_i64 z : tok_key (QI64 z) (dec_z z)
  | tq_f64 b : tok_key (QF64 b) (show b)
  | tq_true : tok_key (QBool true) (chars "true")
  | tq_false : tok_key (QBool false) (chars "false")
  | tq_nan : tok_key (QNan false) (chars "nan")
  | tq_mnan : tok_key (QNan true) (chars "-nan")
  | tq_inf : tok_key (QInf false) (chars "inf")
  | tq_minf : tok_key (QInf true) (chars "-inf").
  (** A value: a token, or an array: values and commas in any order up to the closing
      bracket or the end of the text. *)
  Inductive value_at : str -> toml -> str -> Prop :=
  | va_tok l t v r : first_token F l t r -> tok_value t v -> value_at l v r
  | va_arr l l1 vs r : first_token F l QOpen l1 -> values_at l1 vs r -> value_at l (TVArr vs) r
  with values_at : str -> list toml -> str -> Prop :=
  | ia_close l r : first_token F l QClose r -> values_at l [] r
  | ia_end l r : first_token F l QEof r -> values_at l [] r
  | ia_comma l l1 vs r : first_token F l QComma l1 -> values_at l1 vs r -> values_at l vs r
  | ia_value l v l1 vs r : value_at l v l1 -> values_at l1 vs r -> values_at l (v :: vs) r.
  (** An entry; line breaks play no role. *)
  Inductive entry_at : str -> entry -> str -> Prop :=
  | ea_set l t k l1 l2 v r : first_token F l t l1 -> tok_key t k -> first_token F l1 QEq l2 -> value_at l2 v r -> entry_at l (ESet k v) r
  | ea_table l l1 t k l2 r : first_token F l QOpen l1 -> first_token F l1 t l2 -> t = QStr k \/ t = QIdent k -> first_token F l2 QClose r ->
      entry_at l (ETable k) r
  | ea_tables l l1 l2 t k l3 l4 r : first_token F l QOpen l1 -> first_token F l1 QOpen l2 -> first_token F l2 t l3 -> tok_key t k -> (forall s, t <> QStr s) ->
      first_token F l3 QClose l4 -> first_token F l4 QClose r -> entry_at l (ETables k) r.
  (** The text begins with these entries. *)
  Inductive entries_at : str -> list entry -> str -> Prop :=
  | es_nil l : entries_at l [] l
  | es_cons l e l1 es r : entry_at l e l1 -> entries_at l1 es r -> entries_at l (e :: es) r.
  (** The text consists of these entries (up to a NUL character, if there is one). *)
  Definition toml_text (text : str) (es : list entry) : Prop := exists l r, entries_at text es l /\ first_token F l QEof r.
End Grammar.
Scheme value_at_mind := Minimality for value_at Sort Prop with values_at_mind := Minimality for values_at Sort Prop.
Combined Scheme value_at_mutind from value_at_mind, values_at_mind.
