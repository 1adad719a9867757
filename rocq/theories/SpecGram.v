(** Specification side: the texts of the two formats as their documentation and
    RFC 8259 describe them.  Nothing here refers to the model of the parsers. *)
From Verif Require Import Base Utf8 Types Text SpecText.
Local Open Scope N_scope.

(** ** Space and comments *)
Definition ws_char (x : N) : Prop := x = 32 \/ x = 9 \/ x = 10 \/ x = 13.
(** Whitespace, [// ...] up to the end of the line, [/* ... */].  No NUL; a block
    comment may not start with a slash (for this library [/*/] is a whole comment). *)
Inductive gap : str -> Prop :=
| gap_nil : gap []
| gap_ws x g : ws_char x -> gap g -> gap (x :: g)
| gap_line body g : Forall (fun x => x <> 10 /\ x <> 0) body -> gap g -> gap ([47; 47] ++ body ++ [10] ++ g)
| gap_block body g : Forall (fun x => x <> 0) body -> (forall r, body <> 47 :: r) ->
    (forall a b, body <> a ++ [42; 47] ++ b) -> gap g -> gap ([47; 42] ++ body ++ [42; 47] ++ g).
(** RFC 8259: whitespace only. *)
Definition rfc_ws (s : str) : Prop := Forall ws_char s.

(** ** String literals *)
Definition hex_digit (x d : N) : Prop :=
  (48 <= x <= 57 /\ d = x - 48) \/ (97 <= x <= 102 /\ d = x - 87) \/ (65 <= x <= 70 /\ d = x - 55).
Definition hex_quad (s : str) (n : N) : Prop :=
  exists a b c d x y z w, s = [a; b; c; d] /\ hex_digit a x /\ hex_digit b y /\ hex_digit c z /\ hex_digit d w /\
    n = x * 4096 + y * 256 + z * 16 + w.
Definition high_surrogate (n : N) : Prop := 0xd800 <= n < 0xdc00.
Definition low_surrogate (n : N) : Prop := 0xdc00 <= n < 0xe000.
(** The two-character escapes of RFC 8259: backslash, then this character, stands for that one. *)
Definition escape (e x : N) : Prop :=
  In (e, x) [(34, 34); (92, 92); (47, 47); (98, 8); (102, 12); (110, 10); (114, 13); (116, 9)].
(** The text between the quotes of a literal, and the characters it stands for. *)
Section Chars.
  (** [esc e x]: a backslash and [e] stand for [x]. *)
  Variable esc : N -> N -> Prop.
  Inductive chars_by : str -> str -> Prop :=
  | ch_end : chars_by [] []
  | ch_plain x t s : x <> 34 -> x <> 92 -> x <> 0 -> chars_by t s -> chars_by (x :: t) (x :: s)
  | ch_esc e x t s : esc e x -> chars_by t s -> chars_by (92 :: e :: t) (x :: s)
  | ch_hex h n t s : hex_quad h n -> ~ high_surrogate n -> ~ low_surrogate n -> chars_by t s ->
      chars_by ([92; 117] ++ h ++ t) (n :: s)
  | ch_pair h1 a h2 b t s : hex_quad h1 a -> hex_quad h2 b -> high_surrogate a -> low_surrogate b -> chars_by t s ->
      chars_by ([92; 117] ++ h1 ++ [92; 117] ++ h2 ++ t) ((a - 0xd800) * 1024 + (b - 0xdc00) + 0x10000 :: s).
End Chars.
Arguments ch_end {esc}. Arguments ch_plain {esc}. Arguments ch_esc {esc}. Arguments ch_hex {esc}. Arguments ch_pair {esc}.
(** This library knows the escapes of RFC 8259, [\0] for NUL, and takes any other
    character after a backslash (but [u]) for itself. *)
Definition lib_escape (e x : N) : Prop :=
  escape e x \/ (e = 48 /\ x = 0) \/ (e = x /\ ~ In e [98; 102; 110; 114; 116; 117; 48; 0]).
Notation chars_of := (chars_by lib_escape).
Definition quoted (body : str) : str := 34 :: body ++ [34].
(** RFC 8259: its escapes only, and no raw control characters. *)
Definition rfc_body (body : str) : Prop := (exists s, chars_by escape body s) /\ Forall (fun x => 32 <= x) body.
Definition any_body (body : str) : Prop := exists s, chars_of body s.

(** ** Numbers *)
(** sign, integer part, fraction, exponent *)
Definition number_parts (sg ip fr ex : str) : Prop :=
  (sg = [] \/ sg = [45]) /\ all_digits ip /\
  (fr = [] \/ exists d, fr = 46 :: d /\ all_digits d) /\
  (ex = [] \/ exists e es d, ex = e :: es ++ d /\ (e = 101 \/ e = 69) /\ (es = [] \/ es = [45] \/ es = [43]) /\ all_digits d).
Definition no_leading_zero (ip : str) : Prop := ip = [48] \/ forall r, ip <> 48 :: r.
Definition no_plus (ex : str) : Prop := ~ In 43 ex.
(** RFC 8259 numbers. *)
Definition rfc_number (s : str) : Prop :=
  exists sg ip fr ex, s = sg ++ ip ++ fr ++ ex /\ number_parts sg ip fr ex /\ no_leading_zero ip.
(** Value of a string of decimal digits. *)
Fixpoint decimal_from (a : N) (d : str) : N := match d with [] => a | x :: r => decimal_from (10 * a + (x - 48)) r end.
Definition decimal (d : str) : N := decimal_from 0 d.
(** The numbers this library has a token for: no plus sign in the exponent;
    integers fit in u64 or, negative, in i64; the others are accepted by
    [str::parse::<f64>] (of the standard library, [F]). *)
Definition number_ok (F : flt) (s : str) : Prop :=
  exists sg ip fr ex, s = sg ++ ip ++ fr ++ ex /\ number_parts sg ip fr ex /\ no_plus ex /\
    (fr = [] -> ex = [] -> match sg with [] => decimal ip < 2 ^ 64 | _ => decimal ip <= 2 ^ 63 end) /\
    (fr <> [] \/ ex <> [] -> f64_parse F s <> None).

(** ** Words *)
Definition letter (x : N) : Prop := 65 <= x <= 90 \/ 97 <= x <= 122 \/ x = 95.
Definition json_word (s : str) : Prop := s = chars "null" \/ s = chars "true" \/ s = chars "false".
Definition ron_word (s : str) : Prop :=
  exists x r, s = x :: r /\ letter x /\ Forall (fun y => letter y \/ 48 <= y <= 57) r.
Definition word (fm : fmt) (s : str) : Prop := match fm with Json => json_word s | Ron => ron_word s end.

(** ** JSON texts (RFC 8259, section 2 to 7); [sp] is what may stand between tokens. *)
Section Grammar.
  Variables sp num body : str -> Prop.
  Inductive json : str -> Prop :=
  | js_word s : json_word s -> json s
  | js_num s : num s -> json s
  | js_str b : body b -> json (quoted b)
  | js_arr0 g : sp g -> json (91 :: g ++ [93])
  | js_arr s : elements s -> json (91 :: s ++ [93])
  | js_obj0 g : sp g -> json (123 :: g ++ [125])
  | js_obj s : members s -> json (123 :: s ++ [125])
  with elements : str -> Prop :=
  | el_one a x b : sp a -> json x -> sp b -> elements (a ++ x ++ b)
  | el_more a x b s : sp a -> json x -> sp b -> elements s -> elements (a ++ x ++ b ++ [44] ++ s)
  with members : str -> Prop :=
  | me_one a k b c x d : sp a -> body k -> sp b -> sp c -> json x -> sp d ->
      members (a ++ quoted k ++ b ++ [58] ++ c ++ x ++ d)
  | me_more a k b c x d s : sp a -> body k -> sp b -> sp c -> json x -> sp d -> members s ->
      members (a ++ quoted k ++ b ++ [58] ++ c ++ x ++ d ++ [44] ++ s).
End Grammar.
Scheme json_mind := Minimality for json Sort Prop
  with elements_mind := Minimality for elements Sort Prop
  with members_mind := Minimality for members Sort Prop.
Combined Scheme json_mutind from json_mind, elements_mind, members_mind.

(** A JSON text by the standard. *)
Definition rfc_json : str -> Prop := json rfc_ws rfc_number rfc_body.

(** ** Values in either format, by their brackets only *)
(** A character that ends a number or a word. *)
Definition ends (r : str) : Prop := r = [] \/ In (cur r) [32; 9; 10; 13; 44; 58; 93; 125; 41; 40; 47].
Definition brackets (fm : fmt) (o cl : N) : Prop :=
  (o = 91 /\ cl = 93) \/ (o = 123 /\ cl = 125) \/ (fm = Ron /\ o = 40 /\ cl = 41).
Section Values.
  Variables (F : flt) (fm : fmt).
  (** Tokens, space and bracketed groups in any order. *)
  Inductive inside : str -> Prop :=
  | in_nil : inside []
  | in_gap g r : gap g -> inside r -> inside (g ++ r)
  | in_mark x r : x = 44 \/ x = 58 -> inside r -> inside (x :: r)
  | in_str b r : any_body b -> inside r -> inside (quoted b ++ r)
  | in_num s r : number_ok F s -> ends r -> inside r -> inside (s ++ r)
  | in_word s r : word fm s -> ends r -> inside r -> inside (s ++ r)
  | in_group o cl a r : brackets fm o cl -> inside a -> inside r -> inside (o :: a ++ [cl] ++ r).
  (** One value: a scalar, or a bracketed group, in RON possibly after a name. *)
  Inductive value_text : str -> Prop :=
  | va_str b : any_body b -> value_text (quoted b)
  | va_num s : number_ok F s -> value_text s
  | va_word s : word fm s -> value_text s
  | va_group o cl a : brackets fm o cl -> inside a -> value_text (o :: a ++ [cl])
  | va_named s g a : fm = Ron -> word Ron s -> s <> chars "true" -> s <> chars "false" -> gap g -> inside a ->
      value_text (s ++ g ++ 40 :: a ++ [41]).
End Values.

(** ** Texts as sequences of tokens *)
Section Spaced.
  Variables (F : flt) (fm : fmt).
  Definition mark (x : N) : Prop := In x [58; 44; 91; 93; 123; 125] \/ fm = Ron /\ In x [40; 41].
  (** Any number without a plus sign in the exponent, in range or not. *)
  Definition number (s : str) : Prop := exists sg ip fr ex, s = sg ++ ip ++ fr ++ ex /\ number_parts sg ip fr ex /\ no_plus ex.
  Definition any_word (s : str) : Prop :=
    exists x r, s = x :: r /\ letter x /\ Forall (fun y => letter y \/ fm = Ron /\ 48 <= y <= 57) r.
  (** The tokens [ls] one after the other with space and comments in between; a
      line comment on the last line needs no line end. *)
  Inductive spaced : list str -> str -> Prop :=
  | sp_end g : gap g -> spaced [] g
  | sp_comment g body : gap g -> Forall (fun x => x <> 10 /\ x <> 0) body -> spaced [] (g ++ [47; 47] ++ body)
  | sp_mark g x ls r : gap g -> mark x -> spaced ls r -> spaced ([x] :: ls) (g ++ x :: r)
  | sp_str g b ls r : gap g -> any_body b -> spaced ls r -> spaced (quoted b :: ls) (g ++ quoted b ++ r)
  | sp_num g s ls r : gap g -> number s -> ends r -> spaced ls r -> spaced (s :: ls) (g ++ s ++ r)
  | sp_word g s ls r : gap g -> any_word s -> ends r -> spaced ls r -> spaced (s :: ls) (g ++ s ++ r).
End Spaced.

(** ** Objects: the members as (name, text of the value), in order *)
Section Objects.
  Variables (F : flt) (fm : fmt).
  Definition name_text (k s : str) : Prop :=
    match fm with
    | Json => exists b, chars_of b k /\ s = quoted b
    | Ron => s = k /\ ron_word k /\ k <> chars "true" /\ k <> chars "false"
    end.
  Definition member_text (m : str * str) (s : str) : Prop :=
    exists a k b c d, s = a ++ k ++ b ++ [58] ++ c ++ snd m ++ d /\
      name_text (fst m) k /\ gap a /\ gap b /\ gap c /\ gap d /\ value_text F fm (snd m).
  Inductive members_text : list (str * str) -> str -> Prop :=
  | mt_one m s : member_text m s -> members_text [m] s
  | mt_more m s ms r : member_text m s -> members_text ms r -> members_text (m :: ms) (s ++ [44] ++ r).
  Definition obj_open : N := match fm with Json => 123 | Ron => 40 end.
  Definition obj_close : N := match fm with Json => 125 | Ron => 41 end.
  (** ... between brackets, possibly with one comma after the last (not in RFC 8259). *)
  Definition object_text (ms : list (str * str)) (text : str) : Prop :=
    exists g1 g2 s, text = g1 ++ obj_open :: s ++ [obj_close] ++ g2 /\ gap g1 /\ gap g2 /\
      (members_text ms s \/ (exists s' g, members_text ms s' /\ gap g /\ s = s' ++ [44] ++ g) \/ ms = [] /\ gap s).
End Objects.
