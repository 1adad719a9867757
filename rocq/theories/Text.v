(** The tokenizers of the two text formats with a recursive-descent reader:
    src/serde_json.rs and src/serde_ron.rs.

    Characters are Unicode scalar values ([N]).  A [Chars] iterator together with
    the look-ahead field [cur] is represented by the list of characters that
    starts at [cur]; [cur = '\0'] both for a NUL in the text and past its end,
    exactly as in the code ([next], serde_json.rs:202-214, serde_ron.rs:193-205).
    The line/column counters depend only on the characters seen so far; they are
    recomputed when a scanning step finishes ([move]). *)
From Verif Require Import Base Utf8 Types.
Local Open Scope N_scope.

(** Which of the two formats. *)
Inductive fmt := Json | Ron.

(** DeJsonTok, serde_json.rs:107-125, and DeRonTok, serde_ron.rs:97-116. *)
Inductive tok :=
| KStr | KIdent | KChar (c : N) | KU64 (n : N) | KI64 (z : Z) | KF64 (bits : N) | KBool (b : bool)
| KBareIdent | KNull | KColon | KCurlyOpen | KCurlyClose | KBlockOpen | KBlockClose
| KParenOpen | KParenClose | KComma | KBof | KEof.

(** A token together with the text it leaves in [strbuf] / [identbuf]. *)
Inductive ltok := LStr (s : str) | LId (s : str) | LP (t : tok).
Definition ltok_kind (l : ltok) : tok :=
  match l with LStr _ => KStr | LId _ => KIdent | LP t => t end.

(** What scanning the token leaves in [strbuf] and [identbuf]; the words [true],
    [false] (and JSON's [null]) also pass through [identbuf]. *)
Definition ltok_str (l : ltok) (old : str) : str :=
  match l with LStr x => x | _ => old end.
Definition ltok_id (l : ltok) (old : str) : str :=
  match l with
  | LId x => x
  | LP (KBool true) => chars "true"
  | LP (KBool false) => chars "false"
  | LP KNull => chars "null"
  | _ => old
  end.

(** DeJsonErrReason, serde_json.rs:142-150; DeRonErrReason, serde_ron.rs:133-141
    (WrongType is never constructed by the code). *)
Inductive tmsg :=
| UnexpectedKey (s : str) | UnexpectedToken (t : tok) (s : str) | MissingKey (s : str)
| NoSuchEnum (s : str) | OutOfRange (s : str) | CannotParse (s : str).
Record terr := { e_line : N; e_col : N; e_reason : tmsg }.

(** ** Characters *)
Definition c_nl := 10.  Definition c_cr := 13.  Definition c_tab := 9.  Definition c_sp := 32.
Definition c_quote := 34. Definition c_slash := 47. Definition c_star := 42. Definition c_bslash := 92.
Definition c_minus := 45. Definition c_plus := 43. Definition c_dot := 46. Definition c_apos := 39.
Definition c_comma := 44. Definition c_colon := 58. Definition c_lbr := 91. Definition c_rbr := 93.
Definition c_lcur := 123. Definition c_rcur := 125. Definition c_lpar := 40. Definition c_rpar := 41.

Definition is_ws (c : N) : bool := (c =? c_nl) || (c =? c_cr) || (c =? c_tab) || (c =? c_sp).
Definition is_digit (c : N) : bool := (48 <=? c) && (c <=? 57).
Definition is_alpha (c : N) : bool :=
  ((97 <=? c) && (c <=? 122)) || ((65 <=? c) && (c <=? 90)) || (c =? 95).
(** Characters that continue an identifier: serde_json.rs:583-585, serde_ron.rs:575-578. *)
Definition id_char (fm : fmt) (c : N) : bool :=
  match fm with Json => is_alpha c | Ron => is_alpha c || is_digit c end.

(** [self.cur] *)
Definition cur (l : str) : N := match l with [] => 0 | c :: _ => c end.

Fixpoint drop_while (p : N -> bool) (l : str) : str :=
  match l with
  | [] => []
  | c :: r => if p c then drop_while p r else l
  end.
Fixpoint take_while (p : N -> bool) (l : str) : str :=
  match l with
  | [] => []
  | c :: r => if p c then c :: take_while p r else []
  end.

(** ** Numbers *)

(** Value of a string of decimal digits. *)
Definition digits_val (l : str) : N := fold_left (fun a c => 10 * a + (c - 48)) l 0.

(** std: [str::parse::<u64>()]: an optional sign '+', at least one digit, no overflow. *)
Definition parse_u64 (s : str) : option N :=
  let d := match s with c :: r => if c =? c_plus then r else s | [] => [] end in
  match d with
  | [] => None
  | _ => if forallb is_digit d && (digits_val d <? 2 ^ 64) then Some (digits_val d) else None
  end.
(** std: [str::parse::<i64>()], on a string starting with '-'. *)
Definition parse_i64 (s : str) : option Z :=
  match s with
  | c :: (_ :: _) as d =>
    let d := match s with _ :: r => r | [] => [] end in
    if (c =? c_minus) && forallb is_digit d && (digits_val d <=? 2 ^ 63)
    then Some (- Z.of_N (digits_val d))%Z else None
  | _ => None
  end.

(** std's float primitives on bit patterns: [f64_parse] is [str::parse::<f64>],
    [f64_show]/[f32_show] are [format!("{:?}")], [f64_of_z] is [as f64] from an
    integer, [f32_of_f64] is [as f32].  They are a parameter; [flt_ok]
    (SpecText.v) is the part of their documented behaviour the theorems use. *)
Record flt := {
  f64_parse : str -> option N;
  f64_show : N -> str;
  f32_show : N -> str;
  f64_of_z : Z -> N;
  f32_of_f64 : N -> N
}.

(** Number scan, serde_json.rs:521-556 and serde_ron.rs:513-548: the text pushed
    to [numbuf], what is left, and whether it is a float. *)
Definition scan_num (l : str) : str * str * bool :=
  let '(b0, l0) := if (cur l =? c_minus) || (cur l =? c_plus) then ([cur l], tl l) else ([], l) in
  let b1 := take_while is_digit l0 in
  let l1 := drop_while is_digit l0 in
  let '(b2, l2, f2) :=
    if cur l1 =? c_dot
    then (c_dot :: take_while is_digit (tl l1), drop_while is_digit (tl l1), true)
    else ([], l1, false) in
  let '(b3, l3, f3) :=
    if (cur l2 =? 101) || (cur l2 =? 69)
    then
      let l' := tl l2 in
      let '(s, l'') := if cur l' =? c_minus then ([c_minus], tl l') else ([], l') in
      (cur l2 :: s ++ take_while is_digit l'', drop_while is_digit l'', true)
    else ([], l2, f2) in
  (b0 ++ b1 ++ b2 ++ b3, l3, f3).

(** Turning [numbuf] into a token, serde_json.rs:557-580, serde_ron.rs:549-571.
    The first character tells whether the number is negative. *)
Definition num_tok (F : flt) (buf : str) (is_float : bool) : option tok :=
  if is_float then option_map KF64 (f64_parse F buf)
  else if cur buf =? c_minus then option_map KI64 (parse_i64 buf)
  else option_map KU64 (parse_u64 buf).

(** ** Strings *)

(** One hexadecimal digit, serde_json.rs:694-699, serde_ron.rs:696-701. *)
Definition hexval (c : N) : option N :=
  if is_digit c then Some (c - 48)
  else if (97 <=? c) && (c <=? 102) then Some (c - 97 + 10)
  else if (65 <=? c) && (c <=? 70) then Some (c - 65 + 10)
  else None.

(** [xdigit4], serde_json.rs:689-703, serde_ron.rs:691-705: [k] digits; on failure the bad character is current. *)
Fixpoint xdigits (k : nat) (acc : N) (l : str) : str * option N :=
  match k with
  | O => (l, Some acc)
  | S k' =>
    match hexval (cur l) with
    | Some d => xdigits k' (acc * 16 + d) (tl l)
    | None => (l, None)
    end
  end.

(** [hex_unescape_char], serde_json.rs:657-686, serde_ron.rs:659-688; the list
    starts after the 'u'. *)
Definition hex_unescape (l : str) : str * option N :=
  match xdigits 4 0 l with
  | (l1, None) => (l1, None)
  | (l1, Some a) =>
    if (a <? 0xd800) || (0xdfff <? a) then (l1, Some a)
    else if (a <? 0xdc00) && (cur l1 =? c_bslash) then
      let l2 := tl l1 in
      if cur l2 =? 117 then
        match xdigits 4 0 (tl l2) with
        | (l3, None) => (l3, None)
        | (l3, Some b) =>
          if (0xdc00 <=? b) && (b <? 0xe000)
          then (l3, Some ((a - 0xd800) * 1024 + (b - 0xdc00) + 0x10000))
          else (l3, None)
        end
      else (l2, None)
    else (l1, None)
  end.

(** Single character escapes, serde_json.rs:614-632, serde_ron.rs:613-632: the character pushed. *)
Definition unescape (c : N) : N :=
  if c =? 110 then 10 else if c =? 114 then 13 else if c =? 116 then 9
  else if c =? 98 then 8 else if c =? 102 then 12 else if c =? 48 then 0 else c.

(** The body of a string literal after the opening quote, serde_json.rs:611-643,
    serde_ron.rs:610-642.  [None]: err_parse("string"). [n] bounds the number of
    rounds; [length l] is always enough. *)
Fixpoint scan_str (n : nat) (l : str) : str * option str :=
  match n with
  | O => (l, None)
  | S n' =>
    match l with
    | [] => (l, None)
    | c :: r =>
      if c =? c_quote then (r, Some [])
      else if c =? c_bslash then
        if cur r =? 0 then (r, None)
        else if cur r =? 117 then
          match hex_unescape (tl r) with
          | (l2, Some ch) =>
            match scan_str n' l2 with
            | (l3, Some s) => (l3, Some (ch :: s))
            | e => e
            end
          | (l2, None) => (l2, None)
          end
        else
          match scan_str n' (tl r) with
          | (l3, Some s) => (l3, Some (unescape (cur r) :: s))
          | e => e
          end
      else if c =? 0 then (l, None)
      else
        match scan_str n' r with
        | (l3, Some s) => (l3, Some (c :: s))
        | e => e
        end
    end
  end.

(** ** Tokens *)

(** What one scan for a token yields: a token, or an error with the token kind
    left in [tok] and the reason. *)
Inductive lexout := LTok (t : ltok) | LErr (k : tok) (m : tmsg).

(** JSON block comment after "/*", serde_json.rs:469-482: [None] if unterminated. *)
Fixpoint json_comment (last : N) (l : str) : option str :=
  match l with
  | [] => None
  | c :: r =>
    if c =? 0 then None
    else if (last =? c_star) && (c =? c_slash) then Some r
    else json_comment c r
  end.
(** RON block comment starting at the '*' itself, serde_ron.rs:497-507: runs to
    the end of the text if unterminated. *)
Fixpoint ron_comment (last_star : bool) (l : str) : str :=
  match l with
  | [] => []
  | c :: r =>
    if c =? 0 then l
    else if (c =? c_slash) && last_star then r
    else ron_comment (c =? c_star) r
  end.

(** Punctuation common to both, and the parentheses of RON. *)
Definition punct (fm : fmt) (c : N) : option tok :=
  if c =? c_colon then Some KColon
  else if c =? c_comma then Some KComma
  else if c =? c_lbr then Some KBlockOpen
  else if c =? c_rbr then Some KBlockClose
  else if c =? c_lcur then Some KCurlyOpen
  else if c =? c_rcur then Some KCurlyClose
  else match fm with
       | Json => None
       | Ron => if c =? c_lpar then Some KParenOpen else if c =? c_rpar then Some KParenClose else None
       end.

(** First character of a number: serde_json.rs:520, serde_ron.rs:512. *)
Definition num_start (fm : fmt) (c : N) : bool :=
  (c =? c_minus) || (c =? c_plus) || is_digit c ||
  match fm with Json => false | Ron => c =? c_dot end.

Section Scan.
  Variable F : flt.

  Definition id_tok (fm : fmt) (id : str) (k : tok) : lexout :=
    if str_eqb id (chars "true") then LTok (LP (KBool true))
    else if str_eqb id (chars "false") then LTok (LP (KBool false))
    else match fm with
         | Ron => LTok (LId id)
         | Json =>
           if str_eqb id (chars "null") then LTok (LP KNull)
           else LErr KBareIdent (UnexpectedToken KBareIdent
                  (chars "Got ##" ++ id ++ chars "## needed true, false, null"))
         end.

  (** [next_tok]: serde_json.rs:452-649, serde_ron.rs:436-651.  [k] is the token
      kind held in [tok]; the result is where the scan stopped and its outcome.
      [n] bounds the number of comments (and, RON, character literals) passed;
      [S (length l)] is always enough. *)
  Fixpoint scan (fm : fmt) (n : nat) (k : tok) (l0 : str) {struct n} : str * lexout :=
    match n with
    | O => (l0, LErr k (CannotParse []))
    | S n' =>
      let l := drop_while is_ws l0 in
      let c := cur l in
      let r := tl l in
      if c =? 0 then (l, LTok (LP KEof))
      else if c =? c_slash then
        if cur r =? c_slash then
          scan fm n' k (drop_while (fun c => negb (c =? c_nl) && negb (c =? 0)) r)
        else if cur r =? c_star then
          match fm with
          | Json =>
            match json_comment c_star (tl r) with
            | Some r' => scan fm n' k r'
            | None => (drop_while (fun c => negb (c =? 0)) r,
                       LErr k (UnexpectedToken k (chars "MultiLineCommentClose")))
            end
          | Ron => scan fm n' k (ron_comment false r)
          end
        else (r, match fm with
                 | Json => LErr k (UnexpectedToken k (chars "CommentOpen"))
                 | Ron => LErr k (CannotParse (chars "comment"))
                 end)
      else match punct fm c with
      | Some t => (r, LTok (LP t))
      | None =>
        if num_start fm c then
          let '(buf, l', fl) := scan_num l in
          (l', match num_tok F buf fl with
               | Some t => LTok (LP t)
               | None => LErr k (CannotParse (chars "number"))
               end)
        else if is_alpha c then
          (drop_while (id_char fm) l, id_tok fm (take_while (id_char fm) l) k)
        else if c =? c_quote then
          match scan_str (length r) r with
          | (l', Some s) => (l', LTok (LStr s))
          | (l', None) => (l', LErr k (CannotParse (chars "string")))
          end
        else match fm with
        | Ron =>
          if c =? c_apos then
            (* character literal, serde_ron.rs:594-606: the token is set, but the
               loop goes on to the next one *)
            let l1 := if cur r =? c_bslash then tl r else r in
            let l2 := tl l1 in
            if cur l2 =? c_apos then scan fm n' (KChar (cur l1)) (tl l2)
            else (l2, LErr k (UnexpectedToken k (chars "char")))
          else (l, LErr k (UnexpectedToken k (chars "tokenizer")))
        | Json => (l, LErr k (UnexpectedToken k (chars "tokenizer")))
        end
      end
    end.
End Scan.

(** ** The interface the readers use, and the concrete state behind it *)

(** What the generated and hand-written readers do with a [De*State]: look at
    [tok], [strbuf], [identbuf] and the position, take [strbuf] ([as_string]),
    and advance ([next_tok]). *)
Record lexer (S : Type) := {
  l_tok : S -> tok;
  l_str : S -> str;
  l_id : S -> str;
  l_pos : S -> N * N;
  l_take : S -> S;
  l_next : S -> S * res terr unit
}.
Arguments l_tok {S} l s. Arguments l_str {S} l s. Arguments l_id {S} l s.
Arguments l_pos {S} l s. Arguments l_take {S} l s. Arguments l_next {S} l s.

(** DeJsonState, serde_json.rs:130-138; DeRonState, serde_ron.rs:121-129.  The
    field [numbuf] is written and read within one scan only and is not kept. *)
Record dst := {
  s_inp : str;      (* cur followed by what the iterator still holds *)
  s_tok : tok;
  s_str : str;
  s_id : str;
  s_line : N;
  s_col : N
}.

(** Line and column after one more character: serde_json.rs:205-210; in RON the
    column is always reset, serde_ron.rs:196-201. *)
Definition pos_step (fm : fmt) (p : N * N) (c : N) : N * N :=
  if c =? c_nl then (fst p + 1, 0)
  else match fm with Json => (fst p, snd p + 1) | Ron => (fst p, 0) end.

(** Position after advancing from [l] to its suffix [l']: every character that
    became current on the way is counted. *)
Definition pos_move (fm : fmt) (p : N * N) (l l' : str) : N * N :=
  fold_left (pos_step fm) (firstn (length l - length l') (tl l)) p.

Definition mk_err (p : N * N) (m : tmsg) : terr :=
  {| e_line := fst p; e_col := snd p; e_reason := m |}.

Definition lex_next (F : flt) (fm : fmt) (s : dst) : dst * res terr unit :=
  let '(l', o) := scan F fm (S (length (s_inp s))) (s_tok s) (s_inp s) in
  let p := pos_move fm (s_line s, s_col s) (s_inp s) l' in
  match o with
  | LTok t =>
    ({| s_inp := l'; s_tok := ltok_kind t;
        s_str := ltok_str t (s_str s);
        s_id := ltok_id t (s_id s);
        s_line := fst p; s_col := snd p |}, Ok tt)
  | LErr k m =>
    ({| s_inp := l'; s_tok := k; s_str := s_str s; s_id := s_id s;
        s_line := fst p; s_col := snd p |}, Err (mk_err p m))
  end.

Definition text_lexer (F : flt) (fm : fmt) : lexer dst := {|
  l_tok := s_tok;
  l_str := s_str;
  l_id := s_id;
  l_pos := fun s => (s_line s, s_col s);
  l_take := fun s => {| s_inp := s_inp s; s_tok := s_tok s; s_str := []; s_id := s_id s;
                        s_line := s_line s; s_col := s_col s |};
  l_next := lex_next F fm
|}.

(** [De*State::default()] followed by the first [next]: serde_json.rs:83-85, serde_ron.rs:74-76. *)
Definition start (fm : fmt) (text : str) : dst :=
  let p := pos_move fm (0, 0) (0 :: text) text in
  {| s_inp := text; s_tok := KBof; s_str := []; s_id := [];
     s_line := fst p; s_col := snd p |}.
