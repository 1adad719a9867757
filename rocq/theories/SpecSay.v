(** Specification side of "what an error message says": for the JSON and RON readers,
    what each message claims about the text and the type, and where it points to.
    Nothing here refers to the model of the parsers. *)
From Verif Require Import Base Utf8 Types BinModel Text SpecText SpecGram SpecTok SpecDoc SpecAcc SpecErr SpecPos.
Local Open Scope N_scope.

(** ** Types inside a type *)
Definition types_of (d : decl) : list ty :=
  match d with
  | DStruct _ _ fs | DTuple _ fs => map f_ty fs
  | DEnum vs => flat_map (fun v => match v_body v with BUnit => [] | BTuple ts => ts | BStruct fs => map f_ty fs end) vs
  | DProxy _ t => [t]
  end.
Definition component (G : env) (t u : ty) : Prop :=
  match t with
  | TOpt a | TBox a | TProxy _ a | TSeq _ a | TArr _ a => u = a
  | TMap _ a b => u = a \/ u = b
  | TTup ts => In u ts
  | TNamed i => exists d, nth_error G i = Some d /\ In u (types_of d)
  | _ => False
  end.
(** [u] is [t] or a type used, directly or not, to define it. *)
Inductive part (G : env) (t : ty) : ty -> Prop :=
| pa_self : part G t t
| pa_in u w : part G t u -> component G u w -> part G t w.

(** ** Tokens *)
(** What the messages call the token [x]. *)
Inductive kind_of (F : flt) (fm : fmt) : lexeme -> tok -> Prop :=
| kn_comma : kind_of F fm (XP 44) KComma
| kn_colon : kind_of F fm (XP 58) KColon
| kn_block : kind_of F fm (XP 91) KBlockOpen
| kn_endblock : kind_of F fm (XP 93) KBlockClose
| kn_curly : kind_of F fm (XP 123) KCurlyOpen
| kn_endcurly : kind_of F fm (XP 125) KCurlyClose
| kn_paren : fm = Ron -> kind_of F fm (XP 40) KParenOpen
| kn_endparen : fm = Ron -> kind_of F fm (XP 41) KParenClose
| kn_true : kind_of F fm (XW (chars "true")) (KBool true)
| kn_false : kind_of F fm (XW (chars "false")) (KBool false)
| kn_null : fm = Json -> kind_of F fm (XW (chars "null")) KNull
| kn_name w : fm = Ron -> w <> chars "true" -> w <> chars "false" -> kind_of F fm (XW w) KIdent
| kn_str b s : kind_of F fm (XS b s) KStr
| kn_nat s v : nat_means (unplus s) v -> kind_of F fm (XN s) (KU64 v)
| kn_neg d : all_digits d -> kind_of F fm (XN (45 :: d)) (KI64 (- Z.of_N (decimal d)))
| kn_flt s b : In 46 s \/ In 101 s \/ In 69 s -> f64_parse F s = Some b -> kind_of F fm (XN s) (KF64 b).
(** The tokens [xs] were read, [r] is left, [k] is the last token read; [rest] is
    what follows it.  At the end of the text it is the token [Eof]. *)
Definition current (F : flt) (fm : fmt) (xs : list lexeme) (r : str) (k : tok) (rest : str) : Prop :=
  (exists ys x, xs = ys ++ [x] /\ kind_of F fm x k /\ rest = r) \/
  (at_end fm r /\ k = KEof /\ over rest /\ exists g, r = g ++ rest).
(** The last name read: a string literal in JSON, a word in RON. *)
Definition name_in (fm : fmt) (x : lexeme) : option str :=
  match fm, x with Json, XS _ s => Some s | Ron, XW w => Some w | _, _ => None end.
Definition last_name (fm : fmt) (xs : list lexeme) (s : str) : Prop :=
  exists a x b, xs = a ++ x :: b /\ name_in fm x = Some s /\ Forall (fun y => name_in fm y = None) b.

(** ** Brackets *)
Inductive bracket := Square | Curly | Round.
Definition opens (b : bracket) : tok * str :=
  match b with Square => (KBlockOpen, chars "[") | Curly => (KCurlyOpen, chars "{") | Round => (KParenOpen, chars "(") end.
Definition closes (b : bracket) : tok * str :=
  match b with Square => (KBlockClose, chars "]") | Curly => (KCurlyClose, chars "}") | Round => (KParenClose, chars ")") end.
Definition for_items (fm : fmt) := match fm with Json => Square | Ron => Round end.
Definition for_fields (fm : fmt) := match fm with Json => Curly | Ron => Round end.
(** The fields [fs] of a struct, or of a variant of an enum; [dflt]: absent fields
    have their default by a container attribute. *)
Definition has_fields (G : env) (t : ty) (dflt : bool) (fs : list field) : Prop :=
  exists i, t = TNamed i /\
    ((exists nl, nth_error G i = Some (DStruct dflt nl fs)) \/
     exists vs v, nth_error G i = Some (DEnum vs) /\ In v vs /\ v_body v = BStruct fs /\ dflt = false).
Inductive written_in (G : env) (fm : fmt) : ty -> bracket -> Prop :=
| wi_unit : fm = Ron -> written_in G fm TUnit Round
| wi_seq q t : written_in G fm (TSeq q t) Square
| wi_map q a b : written_in G fm (TMap q a b) Curly
| wi_dur : written_in G fm TDur Curly
| wi_time : written_in G fm TTime Curly
| wi_arr n t : written_in G fm (TArr n t) (for_items fm)
| wi_tup ts : written_in G fm (TTup ts) (for_items fm)
| wi_fields t dflt fs : has_fields G t dflt fs -> written_in G fm t (for_fields fm)
| wi_tuple i tr fs : nth_error G i = Some (DTuple tr fs) -> written_in G fm (TNamed i) (for_items fm)
| wi_empty i tr : fm = Json -> nth_error G i = Some (DTuple tr []) -> written_in G fm (TNamed i) Curly
| wi_variant i vs v ts : nth_error G i = Some (DEnum vs) -> In v vs -> v_body v = BTuple ts -> written_in G fm (TNamed i) (for_items fm)
| wi_enum i vs : fm = Json -> nth_error G i = Some (DEnum vs) -> written_in G fm (TNamed i) Curly.
(** Types with a colon in their text. *)
Inductive has_colon (G : env) (fm : fmt) : ty -> Prop :=
| hc_map q a b : has_colon G fm (TMap q a b)
| hc_dur : has_colon G fm TDur
| hc_time : has_colon G fm TTime
| hc_fields t dflt fs : has_fields G t dflt fs -> has_colon G fm t
| hc_enum i vs : fm = Json -> nth_error G i = Some (DEnum vs) -> has_colon G fm (TNamed i).

(** ** Messages *)
Definition a_clock (t : ty) : Prop := t = TDur \/ t = TTime.
(** Least and greatest value of the integer types (usize counts as u64). *)
Definition greatest (k : ik) : N :=
  match k with U8 => 2 ^ 8 - 1 | U16 => 2 ^ 16 - 1 | U32 => 2 ^ 32 - 1 | I8 => 2 ^ 7 - 1 | I16 => 2 ^ 15 - 1 | I32 => 2 ^ 31 - 1 | I64 => 2 ^ 63 - 1 | _ => 2 ^ 64 - 1 end.
(** [m] says that [v] is too great for [k]; that [-v] is too small. *)
Definition too_great (m : str) (v : N) (k : ik) : Prop :=
  exists a b, m = a ++ chars ">" ++ b /\ numeral a v /\ numeral b (greatest k).
Definition too_small (m : str) (v : N) (k : ik) : Prop :=
  exists a b, m = 45 :: a ++ chars "<-" ++ b /\ numeral a v /\ numeral b (greatest k + 1).
Definition no_unsigned (k : tok) : Prop := forall v, k <> KU64 v.
Definition no_integer (k : tok) : Prop := no_unsigned k /\ forall z, k <> KI64 z.
Definition no_number (k : tok) : Prop := no_integer k /\ forall b, k <> KF64 b.
Definition unit_variant (v : variant) : Prop := v_body v = BUnit.

(** Read as a value of type [t], the last token [k] of [xs] gives rise to the message [m]. *)
Inductive says (G : env) (fm : fmt) (xs : list lexeme) (k : tok) : ty -> tmsg -> Prop :=
(* the wrong kind of token *)
| sy_unsigned q : ik_signed q = false -> no_unsigned k -> says G fm xs k (TInt q) (UnexpectedToken k (chars "unsigned integer"))
| sy_signed q : ik_signed q = true -> no_integer k -> says G fm xs k (TInt q) (UnexpectedToken k (chars "signed integer"))
| sy_float t : t = TF32 \/ t = TF64 -> no_number k -> says G fm xs k t (UnexpectedToken k (chars "floating point"))
| sy_bool : (forall b, k <> KBool b) -> (fm = Ron -> no_unsigned k) -> says G fm xs k TBool (UnexpectedToken k (chars "boolean"))
| sy_string t : t = TStr \/ a_clock t -> k <> KStr -> says G fm xs k t (UnexpectedToken k (chars "string"))
| sy_null : fm = Json -> k <> KNull -> says G fm xs k TUnit (UnexpectedToken k (chars "null"))
| sy_open t b : written_in G fm t b -> k <> fst (opens b) -> says G fm xs k t (UnexpectedToken k (snd (opens b)))
| sy_close t b : written_in G fm t b -> k <> fst (closes b) -> says G fm xs k t (UnexpectedToken k (snd (closes b)))
| sy_comma t b : written_in G fm t b -> k <> KComma -> k <> fst (closes b) -> says G fm xs k t (UnexpectedToken k (chars ", or " ++ snd (closes b)))
| sy_colon t : has_colon G fm t -> k <> KColon -> says G fm xs k t (UnexpectedToken k (chars ":"))
| sy_variant i vs : nth_error G i = Some (DEnum vs) -> fm = Json -> k <> KStr -> says G fm xs k (TNamed i) (UnexpectedToken k (chars "String"))
| sy_name i vs : nth_error G i = Some (DEnum vs) -> fm = Ron -> k <> KIdent -> says G fm xs k (TNamed i) (UnexpectedToken k (chars "Identifier"))
| sy_enum i vs : nth_error G i = Some (DEnum vs) -> fm = Json ->
    (k = KStr -> Forall (fun v => ~ unit_variant v) vs) -> (k = KCurlyOpen -> Forall unit_variant vs) ->
    says G fm xs k (TNamed i) (UnexpectedToken k (chars "String or {"))
(* an integer out of range *)
| sy_great q v m : k = KU64 v -> greatest q < v -> (ik_signed q = true -> v < 2 ^ 63) -> too_great m v q -> says G fm xs k (TInt q) (OutOfRange m)
| sy_small q v m : k = KI64 (- Z.of_N v) -> ik_signed q = true -> greatest q + 1 < v -> too_small m v q -> says G fm xs k (TInt q) (OutOfRange m)
(* names *)
| sy_missing t dflt fs f : has_fields G t dflt fs -> In f fs -> f_skip f = false -> f_isopt f = false -> f_default f = None -> dflt = false ->
    says G fm xs k t (MissingKey (f_name f))
| sy_unknown_key t dflt fs ys s : fm = Ron -> has_fields G t dflt fs -> xs = ys ++ [XW s] -> k = KIdent ->
    (forall f, In f fs -> f_skip f = false -> key_of_field f <> s) -> says G fm xs k t (UnexpectedKey s)
| sy_unknown_variant i vs s : nth_error G i = Some (DEnum vs) -> last_name fm xs s ->
    match fm with
    | Json => Forall (fun v => unit_variant v -> key_of_variant Json v <> s) vs \/ Forall (fun v => ~ unit_variant v -> key_of_variant Json v <> s) vs
    | Ron => Forall (fun v => key_of_variant Ron v <> s) vs
    end -> says G fm xs k (TNamed i) (NoSuchEnum s)
(* durations *)
| sy_dur_unsigned t : a_clock t -> no_unsigned k -> says G fm xs k t (UnexpectedToken k (chars "unsigned integer"))
| sy_dur_nanos t v m : a_clock t -> k = KU64 v -> 2 ^ 32 <= v -> too_great m v U32 -> says G fm xs k t (OutOfRange m)
| sy_dur_twice t w : a_clock t -> w = chars "secs" \/ w = chars "nanos" -> (exists b, In (XS b w) xs) ->
    says G fm xs k t (CannotParse (chars "Duration can only have one " ++ w ++ chars " field"))
| sy_dur_other t w : a_clock t -> w <> chars "secs" -> w <> chars "nanos" -> (exists b, In (XS b w) xs) ->
    says G fm xs k t (CannotParse (chars "Duration can only have secs or nanos fields, got " ++ w))
| sy_dur_secs t : a_clock t -> says G fm xs k t (CannotParse (chars "Duration must have secs field"))
| sy_dur_range t : a_clock t -> says G fm xs k t (OutOfRange (chars "Duration nanos must be at most 1,000,000,000")).

(** ** What is not a token *)
(** Neither the end nor a token comes next. *)
Definition unreadable (F : flt) (fm : fmt) (r : str) : Prop :=
  ~ at_end fm r /\ forall g x r', space fm g -> token_before fm F x r' -> r <> g ++ spelled x ++ r'.
(** The message about it: by the first character that is not skipped. *)
Definition starts_number (fm : fmt) (x : N) : Prop := x = 45 \/ x = 43 \/ 48 <= x <= 57 \/ fm = Ron /\ x = 46.
Inductive lexical (fm : fmt) : str -> tmsg -> Prop :=
| lx_string r : lexical fm (34 :: r) (CannotParse (chars "string"))
| lx_number x r : starts_number fm x -> lexical fm (x :: r) (CannotParse (chars "number"))
| lx_word w r k : fm = Json -> w <> [] -> Forall letter w -> ~ letter (next_char r) -> ~ json_word w -> k = KBareIdent ->
    lexical fm (w ++ r) (UnexpectedToken k (chars "Got ##" ++ w ++ chars "## needed true, false, null"))
| lx_open r k : fm = Json -> (forall body b r', comment_body body -> 42 :: body = b ++ [42] -> r <> body ++ [47] ++ r') -> lexical fm ([47; 42] ++ r) (UnexpectedToken k (chars "MultiLineCommentClose"))
| lx_slash r k : fm = Json -> next_char r <> 47 -> next_char r <> 42 -> lexical fm (47 :: r) (UnexpectedToken k (chars "CommentOpen"))
| lx_slash_ron r : fm = Ron -> next_char r <> 47 -> next_char r <> 42 -> lexical fm (47 :: r) (CannotParse (chars "comment"))
| lx_char r k : fm = Ron -> (forall x r', x <> 92 -> r <> x :: 39 :: r') -> (forall x r', r <> 92 :: x :: 39 :: r') -> lexical fm (39 :: r) (UnexpectedToken k (chars "char"))
| lx_other x r k : x <> 0 -> ~ ws_char x -> x <> 34 -> ~ starts_number fm x -> ~ letter x -> x <> 47 ->
    ~ In x [44; 58; 91; 93; 123; 125] -> (fm = Ron -> ~ In x [39; 40; 41]) ->
    lexical fm (x :: r) (UnexpectedToken k (chars "tokenizer")).

(** ** The whole *)
(** The error points right behind the current token: its line and column are those
    of the first character of [rest]. *)
Definition points_at (fm : fmt) (text rest : str) (e : terr) : Prop :=
  exists p, text = p ++ rest /\ e_line e = line_ends (p ++ firstn 1 rest) /\
    match fm with Json => column (p ++ firstn 1 rest) (e_col e) | Ron => e_col e = 0 end.
(** What [e], from reading [text] as a [t], says is so. *)
Inductive true_of (F : flt) (G : env) (fm : fmt) (t : ty) (text : str) (e : terr) : Prop :=
(* the tokens [xs], then something of a wrong kind for a type [u] inside [t] *)
| to_wrong xs r k rest u : tokens fm F xs text r -> current F fm xs r k rest -> part G t u -> says G fm xs k u (e_reason e) ->
    points_at fm text rest e -> true_of F G fm t text e
(* the tokens [xs], then something that is not a token; the error points somewhere
   behind [xs].  In a tuple the complaint may be replaced by one about text further
   on, or about a comma. *)
| to_lexical xs r rest q : tokens fm F xs text r -> unreadable F fm r -> r = q ++ rest -> points_at fm text rest e ->
    (exists g r', r = g ++ r' /\ space fm g /\ lexical fm r' (e_reason e)) \/
    (exists ts, part G t (TTup ts)) /\
      ((exists g r', r = g ++ r' /\ lexical fm r' (e_reason e)) \/
       exists k, k <> KComma /\ k <> fst (closes (for_items fm)) /\ e_reason e = UnexpectedToken k (chars ", or " ++ snd (closes (for_items fm)))) ->
    true_of F G fm t text e.
