(** Specification side: the texts the two tokenizers (JSON, RON) take, exactly: what
    they skip, what a token looks like and where it ends.  Nothing here refers to
    the model of the tokenizers. *)
From Verif Require Import Base Utf8 Types Text SpecText SpecGram.
Local Open Scope N_scope.

(** ** What is skipped between tokens *)
(** The comment [/* body /]: the closing slash is the first one after a star (the
    opening star counts: [/*/] is a whole comment). *)
Definition comment_body (body : str) : Prop :=
  Forall (fun x => x <> 0) body /\ (forall a b, 42 :: body <> a ++ [42; 47] ++ b).
Inductive space (fm : fmt) : str -> Prop :=
| sp_nil : space fm []
| sp_ws x g : ws_char x -> space fm g -> space fm (x :: g)
| sp_line body g : Forall (fun x => x <> 10 /\ x <> 0) body -> space fm g -> space fm ([47; 47] ++ body ++ [10] ++ g)
| sp_block body b g : comment_body body -> 42 :: body = b ++ [42] -> space fm g -> space fm ([47; 42] ++ body ++ [47] ++ g)
(* a character literal is read and forgotten (RON) *)
| sp_char x g : fm = Ron -> x <> 92 -> space fm g -> space fm ([39; x; 39] ++ g)
| sp_char_esc x g : fm = Ron -> space fm g -> space fm ([39; 92; x; 39] ++ g).
(** No more token: the end of the text, or a NUL, maybe in a comment that has no end
    (a block comment without end is an error in JSON). *)
Definition over (r : str) : Prop := r = [] \/ exists r', r = 0 :: r'.
Definition at_end (fm : fmt) (r : str) : Prop :=
  exists g e, r = g ++ e /\ space fm g /\
    (over e \/
     (exists body e', e = [47; 47] ++ body ++ e' /\ Forall (fun x => x <> 10 /\ x <> 0) body /\ over e') \/
     (fm = Ron /\ exists body e', e = [47; 42] ++ body ++ e' /\ comment_body body /\ over e')).

(** ** Tokens *)
(** Punctuation, words, number literals, string literals (the text between the
    quotes and what it stands for). *)
Inductive lexeme := XP (c : N) | XW (w : str) | XN (s : str) | XS (b s : str).
Definition spelled (x : lexeme) : str :=
  match x with XP c => [c] | XW w => w | XN s => s | XS b _ => quoted b end.
Definition next_char (r : str) : N := match r with [] => 0 | x :: _ => x end.
Definition digits (d : str) : Prop := Forall (fun x => 48 <= x <= 57) d.
(** The parts of a number literal as the tokenizer cuts it out of the text: sign,
    digits, fraction, exponent; digits may be missing. *)
Definition literal_parts (fm : fmt) (sg ip fr ex : str) : Prop :=
  (sg = [] \/ sg = [45] \/ sg = [43]) /\ digits ip /\
  (fr = [] \/ exists d, fr = 46 :: d /\ digits d) /\
  (ex = [] \/ exists e m d, ex = e :: m ++ d /\ (e = 101 \/ e = 69) /\ (m = [] \/ m = [45]) /\ digits d) /\
  (* it starts with a sign or a digit; in RON also with the point *)
  (sg = [] -> ip = [] -> fm = Ron /\ fr <> []).
(** The literal does not go on in [r]. *)
Definition literal_stops (fr ex r : str) : Prop :=
  ~ 48 <= next_char r <= 57 /\
  (fr = [] -> ex = [] -> next_char r <> 46) /\
  (ex = [] -> next_char r <> 101 /\ next_char r <> 69) /\
  (forall e, ex = [e] -> next_char r <> 45).
(** It is a number: an integer that fits in u64 or, negative, in i64; with fraction
    or exponent, one that [str::parse::<f64>] (of the standard library, [F]) takes. *)
Definition literal_value (F : flt) (sg ip fr ex : str) : Prop :=
  match fr, ex with
  | [], [] => ip <> [] /\ (if str_eqb sg [45] then decimal ip <= 2 ^ 63 else decimal ip < 2 ^ 64)
  | _, _ => f64_parse F (sg ++ ip ++ fr ++ ex) <> None
  end.
(** [x] is a token in front of the text [r]. *)
Definition token_before (fm : fmt) (F : flt) (x : lexeme) (r : str) : Prop :=
  match x with
  | XP c => In c [44; 58; 91; 93; 123; 125] \/ fm = Ron /\ In c [40; 41]
  | XW w => word fm w /\ ~ letter (next_char r) /\ (fm = Ron -> ~ 48 <= next_char r <= 57)
  | XN s => exists sg ip fr ex, s = sg ++ ip ++ fr ++ ex /\ literal_parts fm sg ip fr ex /\
      literal_stops fr ex r /\ literal_value F sg ip fr ex
  | XS b s => chars_of b s
  end.
(** The text [text] starts with the tokens [xs]; [r] is left. *)
Inductive tokens (fm : fmt) (F : flt) : list lexeme -> str -> str -> Prop :=
| tk_nil r : tokens fm F [] r r
| tk_cons g x xs text r : space fm g -> token_before fm F x text -> tokens fm F xs text r ->
    tokens fm F (x :: xs) (g ++ spelled x ++ text) r.
