(** Specification for C69 and C70: the small part of Rust that the JSON and RON derive
    macros write, how it is written, and what it does when it runs.

    Trusted here: that rustc gives these programs this meaning.  Values of items,
    [place], [spat], [ishape], [shape_of], [instance], [assoc], [collect] and
    [find_shape] are those of SpecGen.v. *)
From Verif Require Import Base Types Text BinModel DeriveModel SpecDerive SpecGen TextModel.
Local Open Scope N_scope.

(** ** Syntax *)

(** Serializers ([J] for both formats). *)
Inductive jexp :=
| JPl (p : place)                     (* p *)
| JInto (q : str) (p : place)         (* {let proxy: Q = Into::into(&p);proxy} *)
| JMapInto (q : str) (p : place).     (* {p.as_ref().map(|f| {let proxy: Q = Into::into(f);proxy})} *)
Inductive jbase :=
| JWs (k : nat)                       (* a new line and k blanks *)
| JSp                                 (* a blank *)
| JSemi                               (* ; *)
| JPush (c : N)                       (* s.out.push('c'); *)
| JPushStr (t : str)                  (* s.out.push_str("t"); *)
| JPre | JPost | JConl                (* s.st_pre(); s.st_post(d); s.conl(); *)
| JField (sp : bool) (t : str)        (* s.field(d+1, "t"); with or without the blank *)
| JLabel (t : str)                    (* s.label("t"); *)
| JSer (deep : bool) (e : jexp)       (* e.ser_json(d+1, s); or with d *)
| JNull                               (* Option::<i32>::ser_json(&None, d+1, s); *)
| JFalse                              (* let mut first_field_was_serialized = false; *)
| JTrue                               (* first_field_was_serialized = true; *)
| JSep (k1 k2 : nat).                 (* if first_field_was_serialized { s.conl(); }; *)
Inductive jst :=
| JB (b : jbase)
| JIfSome (sp : bool) (x : str) (l : list jbase)          (* if x.is_some(){ l } *)
| JIfLet (e : jexp) (l : list jbase) (els : list jbase).  (* if let Some(t) = &e { l } else {{ els }} *)
Inductive jprog :=
| JBlock (tail : bool) (l : list jst)
| JMatch (arms : list (str * spat * list jst))   (* match self { Self::V pat => { .. } .. } *)
| JVia (p : str).                     (* let proxy: P = self.into(); proxy.ser_json(d, s); *)

(** Deserializers. *)
Inductive tclos := KId | KFrom (p : str) | KSomeFrom (p : str).
                                      (* t, From::<&P>::from(&t), Some(From::<&P>::from(&t)) *)
Inductive tinit :=
| UElse (x e : str) (c : tclos)       (* x.map_or_else(|| e, |t| c) *)
| UDefault (x : str) (c : tclos)      (* x.map(|t| c).unwrap_or_default() *)
| UErr (x : str) (c : tclos) (nm : str) (* x.map(|t| c).ok_or_else(|| s.err_nf("nm"))? *)
| UExpr (e : str)                     (* e *)
| UOr (x e : str)                     (* x.unwrap_or_else(|| e) *)
| UNf (x nm : str).                   (* x.ok_or_else(|| s.err_nf("nm"))? *)
(** The reader of named fields: local variables (RON: with their types), the arms of
    the match in the loop, if there is one, and the fields of the struct literal. *)
Record tnamed := {
  tn_locals : list (str * option str);
  tn_arms : option (list (str * str));
  tn_inits : list (str * tinit)
}.
Inductive tpay := TpUnit | TpNamed (n : tnamed) | TpTuple (k : nat).
(** An arm: the name in the text, the variant, its contents. *)
Definition tarm := (str * str * tpay)%type.
Inductive tdprog :=
| TdNamed (n : tnamed)
| TdTuple (block : bool) (items : list bool)  (* Self(..), in brackets or not; for each item: is a comma eaten *)
| TdUnit
| TdJson (rest units : list tarm)
| TdRon (arms : list tarm)
| TdVia (p : str).

(** ** How it is written *)
Definition ws (k : nat) : str := 10 :: repeat 32 k.
Definition ser_name (fm : fmt) : str := match fm with Json => chars "ser_json" | Ron => chars "ser_ron" end.
Definition jexp_text (e : jexp) : str :=
  match e with
  | JPl p => place_text p
  | JInto q p => chars "{let proxy: " ++ q ++ chars " = Into::into(&" ++ place_text p ++ chars ");proxy}"
  | JMapInto q p => chars "{" ++ place_text p ++ chars ".as_ref().map(|f| {let proxy: " ++ q ++ chars " = Into::into(f);proxy})}"
  end.
Definition quoted (t : str) : str := chars """" ++ t ++ chars """".
(** The calls, without the semicolon. *)
Definition call_text (fm : fmt) (b : jbase) : str :=
  match b with
  | JPush c => chars "s.out.push('" ++ [c] ++ chars "')"
  | JPushStr t => chars "s.out.push_str(" ++ quoted t ++ chars ")"
  | JPre => chars "s.st_pre()"
  | JPost => chars "s.st_post(d)"
  | JConl => chars "s.conl()"
  | JField sp t => chars "s.field(d+1," ++ (if sp then chars " " else []) ++ quoted t ++ chars ")"
  | JLabel t => chars "s.label(" ++ quoted t ++ chars ")"
  | JSer deep e => jexp_text e ++ chars "." ++ ser_name fm ++ chars "(d" ++ (if deep then chars "+1" else []) ++ chars ", s)"
  | JNull => chars "Option::<i32>::" ++ ser_name fm ++ chars "(&None, d+1, s)"
  | _ => []
  end.
Definition base_text (fm : fmt) (b : jbase) : str :=
  match b with
  | JWs k => ws k
  | JSp => chars " "
  | JSemi => chars ";"
  | JFalse => chars "let mut first_field_was_serialized = false;"
  | JTrue => chars "first_field_was_serialized = true;"
  | JSep k1 k2 => chars "if first_field_was_serialized {" ++ ws k1 ++ chars "s.conl();" ++ ws k2 ++ chars "};"
  | _ => call_text fm b ++ chars ";"
  end.
Definition bases_text (fm : fmt) (l : list jbase) : str := concat (map (base_text fm) l).
Definition jst_text (fm : fmt) (s : jst) : str :=
  match s with
  | JB b => base_text fm b
  | JIfSome sp x l => chars "if " ++ x ++ chars ".is_some()" ++ (if sp then chars " " else []) ++ chars "{" ++ bases_text fm l ++ chars "}"
  | JIfLet e l els =>
    chars "if let Some(t) = &" ++ jexp_text e ++ chars " {" ++ bases_text fm l ++ chars "}" ++
    match els with [] => [] | _ => chars " else {{" ++ bases_text fm els ++ chars "}}" end
  end.
Definition jsts_text (fm : fmt) (l : list jst) : str := concat (map (jst_text fm) l).
(** The arm of a unit variant is a call and a comma. *)
Definition jarm_text (fm : fmt) (a : str * spat * list jst) : str :=
  let '(v, p, l) := a in
  chars "Self::" ++ v ++
  match p with
  | PatUnit => chars " => " ++ match l with [JB b] => call_text fm b | _ => chars "{" ++ jsts_text fm l ++ chars "}" end ++ chars ","
  | PatTuple xs => match fm with Json => chars "  (" | Ron => chars " (" end ++ joins (chars ",") xs ++ chars ") => {" ++ jsts_text fm l ++ chars "}"
  | PatStruct xs => chars " { " ++ joins (chars ",") xs ++ chars " } => {" ++ jsts_text fm l ++ chars "}"
  end.

Definition tclos_text (c : tclos) : str :=
  match c with
  | KId => chars "t"
  | KFrom p => chars "From::<&" ++ p ++ chars ">::from(&t)"
  | KSomeFrom p => chars "Some(From::<&" ++ p ++ chars ">::from(&t))"
  end.
Definition tinit_text (u : tinit) : str :=
  match u with
  | UElse x e c => x ++ chars ".map_or_else(|| " ++ e ++ chars ", |t| " ++ tclos_text c ++ chars ")"
  | UDefault x c => x ++ chars ".map(|t| " ++ tclos_text c ++ chars ").unwrap_or_default()"
  | UErr x c nm => x ++ chars ".map(|t| " ++ tclos_text c ++ chars ").ok_or_else(|| s.err_nf(" ++ quoted nm ++ chars "))?"
  | UExpr e => e
  | UOr x e => x ++ chars ".unwrap_or_else(|| " ++ e ++ chars ")"
  | UNf x nm => x ++ chars ".ok_or_else(|| s.err_nf(" ++ quoted nm ++ chars "))?"
  end.
Definition tinits_text (l : list (str * tinit)) : str :=
  concat (map (fun fu => fst fu ++ chars ": " ++ tinit_text (snd fu) ++ chars ",") l).
Definition local_text (x : str * option str) : str :=
  match snd x with
  | None => chars "let mut " ++ fst x ++ chars " = None;"
  | Some t => chars "let mut " ++ fst x ++ chars ": Option<" ++ t ++ chars "> = None;"
  end.

Section Print.
  Variable crate_ name : str.
  Variable header : str * str.    (* the parameters, and their names *)

  (** The method and the impl around it. *)
  Definition jser_text (fm : fmt) (p : jprog) : str :=
    let tr := match fm with Json => chars "Json" | Ron => chars "Ron" end in
    match p with JVia _ => [] | _ => ws 8 end ++
    chars "impl" ++ fst header ++ chars " " ++ crate_ ++ chars "::Ser" ++ tr ++ chars " for " ++ name ++ snd header ++ chars " {" ++ ws 12 ++
    chars "fn " ++ ser_name fm ++ chars "(&self, d: usize, s: &mut " ++ crate_ ++ chars "::Ser" ++ tr ++ chars "State) {" ++ ws 16 ++
    match p with
    | JBlock _ l => jsts_text fm l
    | JMatch arms => chars "match self {" ++ ws 20 ++ concat (map (jarm_text fm) arms) ++ ws 16 ++ chars "}"
    | JVia q => chars "let proxy: " ++ q ++ chars " = self.into();" ++ ws 16 ++ chars "proxy." ++ ser_name fm ++ chars "(d, s);"
    end ++ ws 12 ++ chars "}" ++ ws 8 ++ chars "}" ++
    match p with JBlock true _ => ws 4 | _ => [] end.

  (** JSON *)
  Definition json_arm_text (a : str * str) : str :=
    quoted (fst a) ++ chars " => {s.next_colon(i) ?;" ++ snd a ++ chars " = Some(" ++ crate_ ++ chars "::DeJson::de_json(s, i) ?)},".
  Definition json_named_text (ctor : str) (n : tnamed) : str :=
    concat (map local_text (tn_locals n)) ++
    chars "s.curly_open(i) ?;while s.next_str().is_some() {" ++
    match tn_arms n with
    | None => []
    | Some arms =>
      chars "match AsRef::<str>::as_ref(&s.strbuf) {" ++ concat (map json_arm_text arms) ++
      chars "_ => {s.next_colon(i)?; s.whole_field(i)?; }}"
    end ++
    chars "s.eat_comma_curly(i) ?;}s.curly_close(i) ?;" ++ ctor ++ chars " {" ++ tinits_text (tn_inits n) ++ chars "}".
  Definition json_pay_text (a : tarm) : str :=
    let '(k, v, p) := a in
    quoted k ++ chars " => " ++
    match p with
    | TpUnit => chars "Self::" ++ v ++ chars ","
    | TpNamed n => chars "{ " ++ json_named_text (chars "Self::" ++ v) n ++ chars " }, "
    | TpTuple k =>
      chars "{s.block_open(i)?;let r = Self::" ++ v ++ chars "(" ++
      concat (repeat (chars "{let r = " ++ crate_ ++ chars "::DeJson::de_json(s,i)?;s.eat_comma_block(i)?;r},") k) ++
      chars "); s.block_close(i)?;r}"
    end.
  Definition json_item_text (comma_ : bool) : str :=
    chars "{ let r = " ++ crate_ ++ chars "::DeJson::de_json(s, i)?;" ++ (if comma_ then chars "  s.eat_comma_block(i)?;" else []) ++ chars "  r},".
  Definition json_de_text (p : tdprog) : str :=
    match p with TdTuple _ _ | TdUnit => ws 8 | _ => [] end ++
    chars "impl" ++ fst header ++ chars " " ++ crate_ ++ chars "::DeJson for " ++ name ++ snd header ++ chars " {" ++ ws 12 ++
    chars "#[allow(clippy::ignored_unit_patterns)]" ++ ws 12 ++
    chars "fn de_json(s: &mut " ++ crate_ ++ chars "::DeJsonState, i: &mut core::str::Chars) -> ::core::result::Result<Self," ++
    match p with TdNamed _ => ws 12 | TdTuple _ _ | TdUnit => [] | _ => chars " " end ++ crate_ ++ chars "::DeJsonErr> {" ++ ws 16 ++
    match p with
    | TdNamed n => chars "::core::result::Result::Ok({ " ++ json_named_text name n ++ chars " })" ++ ws 12 ++ chars "}" ++ ws 8 ++ chars "}"
    | TdTuple block items =>
      (if block then chars "s.block_open(i)?;" ++ ws 13 else []) ++
      chars "let r = Self(" ++ concat (map json_item_text items) ++ chars ");" ++
      (if block then ws 13 ++ chars "s.block_close(i)?;" else []) ++ ws 16 ++
      chars "::core::result::Result::Ok(r)" ++ ws 12 ++ chars "}" ++ ws 8 ++ chars "}"
    | TdUnit =>
      chars "s.curly_open(i)?;let r = Self;s.curly_close(i)?;" ++ ws 16 ++
      chars "::core::result::Result::Ok(r)" ++ ws 12 ++ chars "}" ++ ws 8 ++ chars "}"
    | TdJson rest units =>
      chars "match s.tok {" ++
      match rest with
      | [] => []
      | _ =>
        ws 20 ++ crate_ ++ chars "::DeJsonTok::CurlyOpen => {" ++ ws 24 ++ chars "s.curly_open(i)?;" ++ ws 24 ++
        chars "let _ = s.string(i)?;" ++ ws 24 ++ chars "s.colon(i)?;" ++ ws 24 ++
        chars "let r = ::core::result::Result::Ok(match s.strbuf.as_ref() {" ++ ws 28 ++
        concat (map json_pay_text rest) ++ ws 28 ++
        chars "_ => return ::core::result::Result::Err(s.err_enum(&s.strbuf))" ++ ws 24 ++ chars "});" ++ ws 24 ++
        chars "s.curly_close(i)?;" ++ ws 24 ++ chars "r" ++ ws 20 ++ chars "},"
      end ++
      match units with
      | [] => []
      | _ =>
        ws 20 ++ crate_ ++ chars "::DeJsonTok::Str => {" ++ ws 24 ++ chars "let _ = s.string(i)?;" ++ ws 24 ++
        chars "::core::result::Result::Ok(match s.strbuf.as_ref() {" ++ ws 28 ++
        concat (map json_pay_text units) ++ ws 28 ++
        chars "_ => return ::core::result::Result::Err(s.err_enum(&s.strbuf))" ++ ws 24 ++ chars "})" ++ ws 20 ++ chars "},"
      end ++
      ws 20 ++ chars "_ => ::core::result::Result::Err(s.err_token(""String or {""))," ++ ws 16 ++ chars "}" ++
      ws 12 ++ chars "}" ++ ws 8 ++ chars "}" ++ ws 0
    | TdRon _ => []
    | TdVia q =>
      chars "let proxy: " ++ q ++ chars " = " ++ crate_ ++ chars "::DeJson::de_json(s, i)?;" ++ ws 16 ++
      chars "::core::result::Result::Ok(Into::into(&proxy))" ++ ws 12 ++ chars "}" ++ ws 8 ++ chars "}"
    end.

  (** RON *)
  Definition ron_arm_text (a : str * str) : str :=
    quoted (fst a) ++ chars " => {" ++ ws 20 ++ chars "s.next_colon(i)?;" ++ ws 20 ++ snd a ++ chars " = Some(" ++ crate_ ++
    chars "::DeRon::de_ron(s, i)?)" ++ ws 16 ++ chars "},".
  Definition ron_named_text (ctor : str) (n : tnamed) : str :=
    chars "{" ++ ws 12 ++ concat (map local_text (tn_locals n)) ++ ws 12 ++
    chars "s.paren_open(i)?;" ++ ws 12 ++ chars "while s.next_ident().is_some() {" ++ ws 16 ++
    match tn_arms n with
    | None => []
    | Some arms =>
      chars "match s.identbuf.as_ref() {" ++ ws 16 ++ concat (map ron_arm_text arms) ++ ws 16 ++
      chars "_ => return ::core::result::Result::Err(s.err_exp(&s.identbuf))" ++ ws 12 ++ chars "}"
    end ++ ws 16 ++
    chars "s.eat_comma_paren(i)?;" ++ ws 12 ++ chars "};" ++ ws 12 ++ chars "s.paren_close(i)?;" ++ ws 12 ++
    ctor ++ chars " {" ++ ws 16 ++ tinits_text (tn_inits n) ++ ws 12 ++ chars "}" ++ ws 8 ++ chars "}".
  Definition ron_pay_text (a : tarm) : str :=
    let '(k, v, p) := a in
    quoted k ++ chars " => " ++
    match p with
    | TpUnit => chars "Self::" ++ v ++ chars ","
    | TpNamed n => ron_named_text (name ++ chars "::" ++ v) n
    | TpTuple k =>
      chars "{" ++ ws 24 ++ chars "s.paren_open(i)?;" ++ ws 24 ++ chars "let r = Self::" ++ v ++ chars " (" ++
      concat (repeat (chars "{" ++ ws 28 ++ chars "let r = " ++ crate_ ++ chars "::DeRon::de_ron(s, i)?;" ++ ws 28 ++
                      chars "s.eat_comma_paren(i)?;" ++ ws 28 ++ chars "r" ++ ws 24 ++ chars "}, ") k) ++
      chars ");" ++ ws 24 ++ chars "s.paren_close(i)?;" ++ ws 24 ++ chars "r" ++ ws 20 ++ chars "}, "
    end.
  Definition ron_item_text (_ : bool) : str :=
    chars "{" ++ ws 16 ++ chars "let r = " ++ crate_ ++ chars "::DeRon::de_ron(s, i)?;" ++ ws 16 ++
    chars "s.eat_comma_paren(i)?;" ++ ws 16 ++ chars "r" ++ ws 12 ++ chars "},".
  Definition ron_de_text (p : tdprog) : str :=
    match p with TdNamed _ => [] | _ => ws 8 end ++
    chars "impl" ++ fst header ++ chars " " ++ crate_ ++ chars "::DeRon for " ++ name ++ snd header ++ chars " {" ++ ws 12 ++
    chars "fn de_ron(s: &mut " ++ crate_ ++ chars "::DeRonState, i: &mut core::str::Chars) -> ::core::result::Result<Self," ++
    crate_ ++ chars "::DeRonErr> {" ++ ws 16 ++
    match p with
    | TdNamed n => chars "::core::result::Result::Ok(" ++ ron_named_text name n ++ chars ")"
    | TdTuple _ items =>
      chars "s.paren_open(i)?;" ++ ws 16 ++ chars "let r = Self(" ++ concat (map ron_item_text items) ++ chars ");" ++ ws 16 ++
      chars "s.paren_close(i)?;" ++ ws 16 ++ chars "::core::result::Result::Ok(r)"
    | TdRon arms =>
      chars "// we are expecting an identifier" ++ ws 16 ++ chars "s.ident(i)?;" ++ ws 16 ++
      chars "::core::result::Result::Ok(match s.identbuf.as_ref() {" ++ ws 20 ++ concat (map ron_pay_text arms) ++ ws 20 ++
      chars "_ => return ::core::result::Result::Err(s.err_enum(&s.identbuf))" ++ ws 16 ++ chars "})"
    | _ => []
    end ++ ws 12 ++ chars "}" ++ ws 8 ++ chars "}".
End Print.

(** ** Running it *)

(** What a string literal with these characters stands for: itself, unless it has a
    quote, a backslash or a carriage return (those are outside this fragment). *)
Definition plain_lit (t : str) : bool := forallb (fun c => negb ((c =? 34) || (c =? 92) || (c =? 13))) t.

Section RunText.
  Variable fm : fmt.
  Variable typ : str -> ty.                     (* the type a text stands for *)
  Variable ev : str -> str -> val.              (* the value of an expression at a type *)
  Variable dflt : str -> val.                   (* Default::default() of a type *)
  Variable conv : ty -> str -> proxy.           (* From<&T> for P, and back *)
  Variable self_conv : str -> proxy.            (* the same for the item itself *)
  Variable item : ishape.

  Section Ser.
    Variable ser : ty -> val -> wres.           (* ser_json or ser_ron at other types: what it appends *)
    Definition tvars := list (str * (ty * val)).
    (** first_field_was_serialized, if declared, and [s.out]. *)
    Definition jstate := (option bool * str)%type.
    Definition not_compiled {A} : res Empty_set A := Panic PNotCompiled.

    Definition tlook (self_ loc : tvars) (p : place) : res Empty_set (ty * val) :=
      match match p with PSelf f => assoc f self_ | PVar x => assoc x loc end with
      | Some tv => Ok tv
      | None => not_compiled
      end.
    Definition run_jexp (self_ loc : tvars) (e : jexp) : res Empty_set (ty * val) :=
      match e with
      | JPl p => tlook self_ loc p
      | JInto q p =>
        match p with
        | PSelf _ => rmap (fun tv => (typ q, p_to (conv (fst tv) q) (snd tv))) (tlook self_ loc p)
        | PVar _ => not_compiled     (* variables are references: From<&&T> would be needed *)
        end
      | JMapInto q p =>
        rbind (tlook self_ loc p) (fun tv =>
        match tv with
        | (TOpt t, VSome w) => Ok (TOpt (typ q), VSome (p_to (conv t q) w))
        | (TOpt t, VNone) => Ok (TOpt (typ q), VNone)
        | (TOpt _, _) => Panic PIllTyped
        | _ => not_compiled
        end)
      end.
    Definition say (t : str) (st : jstate) : res Empty_set jstate := Ok (fst st, snd st ++ t).
    Definition say_lit (t : str) (f : str -> str) (st : jstate) : res Empty_set jstate :=
      if plain_lit t then say (f t) st else not_compiled.
    (** The methods of SerJsonState / SerRonState, src/serde_json.rs:24-53,
        src/serde_ron.rs:16-41. *)
    Definition run_base (self_ loc : tvars) (b : jbase) (st : jstate) : res Empty_set jstate :=
      match b with
      | JWs _ | JSp | JSemi => Ok st
      | JPush c => say [c] st
      | JPushStr t => say_lit t (fun t => t) st
      | JPre => say [s_open fm] st
      | JPost => say [s_close fm] st
      | JConl => say [c_comma] st
      | JField _ t => say_lit t (fun t => match fm with Json => quoted t ++ [c_colon] | Ron => t ++ [c_colon] end) st
      | JLabel t => match fm with Json => say_lit t quoted st | Ron => not_compiled end
      | JSer _ e => rbind (run_jexp self_ loc e) (fun tv => rbind (ser (fst tv) (snd tv)) (fun x => say x st))
      | JNull => rbind (ser (TOpt (TInt I32)) VNone) (fun x => say x st)
      | JFalse => Ok (Some false, snd st)
      | JTrue => match fst st with Some _ => Ok (Some true, snd st) | None => not_compiled end
      | JSep _ _ =>
        match fst st with
        | Some b => if b then say [c_comma] st else Ok st
        | None => not_compiled
        end
      end.
    Fixpoint run_bases (self_ loc : tvars) (l : list jbase) (st : jstate) : res Empty_set jstate :=
      match l with
      | [] => Ok st
      | b :: r => rbind (run_base self_ loc b st) (run_bases self_ loc r)
      end.
    Definition run_jst (self_ loc : tvars) (s : jst) (st : jstate) : res Empty_set jstate :=
      match s with
      | JB b => run_base self_ loc b st
      | JIfSome _ x l =>
        rbind (tlook self_ loc (PVar x)) (fun tv =>
        match tv with
        | (TOpt _, VSome _) => run_bases self_ loc l st
        | (TOpt _, VNone) => Ok st
        | (TOpt _, _) => Panic PIllTyped
        | _ => not_compiled
        end)
      | JIfLet e l els =>
        rbind (run_jexp self_ loc e) (fun tv =>
        match tv with
        | (TOpt t, VSome w) => run_bases self_ ((chars "t", (t, w)) :: loc) l st
        | (TOpt _, VNone) => run_bases self_ loc els st
        | (TOpt _, _) => Panic PIllTyped
        | _ => not_compiled
        end)
      end.
    Fixpoint run_jsts (self_ loc : tvars) (l : list jst) (st : jstate) : res Empty_set jstate :=
      match l with
      | [] => Ok st
      | s :: r => rbind (run_jst self_ loc s st) (run_jsts self_ loc r)
      end.

    Definition typed (names texts : list str) (l : list val) : tvars := combine names (combine (map typ texts) l).
    (** A pattern binds every field of the variant; it must not hide [s] or [d]. *)
    Definition tbind_pat (p : spat) (sh : vshape) (l : list val) : option tvars :=
      match p, sh with
      | PatUnit, VsUnit => Some []
      | PatTuple xs, VsTuple ts => if Nat.eqb (length xs) (length ts) then Some (typed xs ts l) else None
      | PatStruct xs, VsStruct fs =>
        if existsb (str_eqb (chars "s")) xs || existsb (str_eqb (chars "d")) xs then None
        else if forallb (fun f => existsb (str_eqb (fst f)) xs) fs && forallb (fun x => existsb (str_eqb x) (map fst fs)) xs
        then Some (typed (map fst fs) (map snd fs) l) else None
      | _, _ => None
      end.
    Fixpoint tpick (v : str) (arms : list (str * spat * list jst)) : option (spat * list jst) :=
      match arms with
      | [] => None
      | (v', p, l) :: r => if str_eqb v' v then Some (p, l) else tpick v r
      end.
    (** The text that is appended. *)
    Definition run_jser (g : jprog) (v : val) : wres :=
      match g, item, v with
      | JBlock _ l, IStruct fs, VSeq vs => rmap snd (run_jsts (typed (map fst fs) (map snd fs) vs) [] l (None, []))
      | JMatch arms, IEnum vs, VEnum tag l =>
        match nth_error vs (N.to_nat tag) with
        | Some (nm, sh) =>
          match tpick nm arms with
          | Some (p, b) => match tbind_pat p sh l with Some loc => rmap snd (run_jsts [] loc b (None, [])) | None => not_compiled end
          | None => not_compiled
          end
        | None => Panic PIllTyped
        end
      | JVia p, _, _ => ser (typ p) (p_to (self_conv p) v)
      | _, _, _ => not_compiled
      end.
  End Ser.

  Section De.
    Context {S : Type}.
    Variable L : lexer S.
    Variable de : ty -> @pm S val.              (* de_json or de_ron at other types *)
    Variable n : nat.                           (* fuel for the loops *)
    Definition pnot {A} : @pm S A := pfail (Panic PNotCompiled).

    Definition init_local (u : tinit) : option (str * tclos) :=
      match u with
      | UElse x _ c | UDefault x c | UErr x c _ => Some (x, c)
      | UOr x _ | UNf x _ => Some (x, KId)
      | UExpr _ => None
      end.
    (** The type of what a local variable holds: as written, or as its use demands. *)
    Fixpoint inferred (fs : list (str * str)) (x : str) (l : list (str * tinit)) : option ty :=
      match l with
      | [] => None
      | (f, u) :: r =>
        match init_local u with
        | Some (y, c) =>
          if str_eqb y x
          then match c, assoc f fs with
               | KId, Some t => Some (typ t)
               | KFrom p, _ | KSomeFrom p, _ => Some (typ p)
               | _, None => None
               end
          else inferred fs x r
        | None => inferred fs x r
        end
      end.
    Definition local_type (fs : list (str * str)) (m : tnamed) (x : str) : option ty :=
      match assoc x (tn_locals m) with
      | None => None
      | Some (Some t) => Some (typ t)
      | Some None => inferred fs x (tn_inits m)
      end.
    (** One turn of the loop. [loc]: what the local variables hold, the last first. *)
    Definition run_turn (fs : list (str * str)) (m : tnamed) (loc : list (str * val)) : @pm S (list (str * val)) :=
      pbind (fun s =>
        match tn_arms m with
        | None => (s, Ok loc)
        | Some arms =>
          if negb (forallb (fun a => plain_lit (fst a)) arms) then pnot s else
          match assoc (key_of L fm s) arms with
          | Some x =>
            match local_type fs m x with
            | Some t => pbind (p_next_colon L) (fun _ => pbind (de t) (fun v => pret ((x, v) :: loc))) s
            | None => pnot s
            end
          | None =>
            match fm with
            | Json => pbind (p_next_colon L) (fun _ => pbind (whole_field L n) (fun _ => pret loc)) s
            | Ron => perr L (UnexpectedKey (l_id L s)) s
            end
          end
        end) (fun loc' => pbind (eat_scomma L fm) (fun _ => pret loc')).
    (** The argument of the closure is [v]; the field has the type written [t]. *)
    Definition run_clos (c : tclos) (t : str) (v : val) : @pm S val :=
      match c with
      | KId => pret v
      | KFrom p => pret (p_from (conv (typ t) p) v)
      | KSomeFrom p => match typ t with TOpt t' => pret (VSome (p_from (conv t' p) v)) | _ => pnot end
      end.
    Definition run_tinit (m : tnamed) (loc : list (str * val)) (t : str) (u : tinit) : @pm S val :=
      let held := fun x (k : option val -> @pm S val) =>
        match assoc x (tn_locals m) with None => pnot | Some _ => k (assoc x loc) end in
      let nf := fun nm => if plain_lit nm then perr L (MissingKey nm) else pnot in
      match u with
      | UElse x e c => held x (fun o => match o with Some v => run_clos c t v | None => pret (ev t e) end)
      | UDefault x c => held x (fun o => match o with Some v => run_clos c t v | None => pret (dflt t) end)
      | UErr x c nm => held x (fun o => match o with Some v => run_clos c t v | None => nf nm end)
      | UExpr e => pret (ev t e)
      | UOr x e => held x (fun o => match o with Some v => pret v | None => pret (ev t e) end)
      | UNf x nm => held x (fun o => match o with Some v => pret v | None => nf nm end)
      end.
    (** The expressions of a struct literal run in the order they are written; no
        field may be missing or written twice. *)
    Fixpoint run_tinits (fs : list (str * str)) (m : tnamed) (loc : list (str * val)) (l : list (str * tinit)) : @pm S (list (str * val)) :=
      match l with
      | [] => pret []
      | (f, u) :: r =>
        match assoc f fs with
        | None => pnot
        | Some t => pbind (run_tinit m loc t u) (fun v => pbind (run_tinits fs m loc r) (fun vs => pret ((f, v) :: vs)))
        end
      end.
    Definition run_named (fs : list (str * str)) (m : tnamed) : @pm S (list val) :=
      if negb (Nat.eqb (length (tn_inits m)) (length fs)) then pnot else
      pbind (expect L (k_sopen fm) (w_sopen fm)) (fun _ =>
      pbind (while_ n (fun s => tok_is (l_tok L s) (k_key fm)) (run_turn fs m) []) (fun loc =>
      pbind (expect L (k_sclose fm) (w_sclose fm)) (fun _ =>
      pbind (run_tinits fs m loc (tn_inits m)) (fun vs =>
      match collect fs vs with Some l => pret l | None => pnot end)))).

    (** Self(..): one element per field. *)
    Fixpoint run_items (ts : list str) (l : list bool) : @pm S (list val) :=
      match ts, l with
      | [], [] => pret []
      | t :: ts', b :: r =>
        pbind (de (typ t)) (fun v => pbind (if b then eat_tcomma L fm else pret tt) (fun _ =>
        pbind (run_items ts' r) (fun vs => pret (v :: vs))))
      | _, _ => pnot
      end.
    Definition run_tuple (block : bool) (ts : list str) (l : list bool) : @pm S (list val) :=
      if block then
        pbind (expect L (k_topen fm) (w_topen fm)) (fun _ => pbind (run_items ts l) (fun vs =>
        pbind (expect L (k_tclose fm) (w_tclose fm)) (fun _ => pret vs)))
      else run_items ts l.

    Definition run_pay (vs : list (str * vshape)) (v : str) (p : tpay) : @pm S val :=
      match find_shape v 0 vs, p with
      | Some (tag, VsUnit), TpUnit => pret (VEnum tag [])
      | Some (tag, VsTuple ts), TpTuple k => pbind (run_tuple true ts (repeat true k)) (fun l => pret (VEnum tag l))
      | Some (tag, VsStruct fs), TpNamed m => pbind (run_named fs m) (fun l => pret (VEnum tag l))
      | _, _ => pnot
      end.
    (** The first arm for a name. *)
    Fixpoint pick_arm (key : str) (arms : list tarm) : option (str * tpay) :=
      match arms with
      | [] => None
      | (k, v, p) :: r => if str_eqb k key then Some (v, p) else pick_arm key r
      end.
    Definition run_arms (vs : list (str * vshape)) (arms : list tarm) (key : str) : @pm S val :=
      if negb (forallb (fun a => plain_lit (fst (fst a))) arms) then pnot else
      match pick_arm key arms with
      | Some (v, p) => run_pay vs v p
      | None => perr L (NoSuchEnum key)
      end.
    Definition nonempty {A} (l : list A) : bool := match l with [] => false | _ => true end.

    Definition run_tde (g : tdprog) : @pm S val :=
      match g, item with
      | TdNamed m, IStruct fs => pbind (run_named fs m) (fun l => pret (VSeq l))
      | TdTuple block items, IStruct fs => pbind (run_tuple block (map snd fs) items) (fun l => pret (VSeq l))
      | TdUnit, IStruct [] =>
        pbind (expect L KCurlyOpen (chars "{")) (fun _ => pbind (expect L KCurlyClose (chars "}")) (fun _ => pret (VSeq [])))
      | TdJson rest units, IEnum vs => fun s =>
        if tok_is (l_tok L s) KCurlyOpen && nonempty rest then
          pbind (expect L KCurlyOpen (chars "{")) (fun _ =>
          pbind (expect L KStr (chars "String")) (fun _ =>
          pbind (p_colon L) (fun _ s1 =>
          pbind (run_arms vs rest (l_str L s1)) (fun r =>
          pbind (expect L KCurlyClose (chars "}")) (fun _ => pret r)) s1))) s
        else if tok_is (l_tok L s) KStr && nonempty units then
          pbind (expect L KStr (chars "String")) (fun _ s1 => run_arms vs units (l_str L s1) s1) s
        else err_token L (chars "String or {") s
      | TdRon arms, IEnum vs =>
        pbind (expect L KIdent (chars "Identifier")) (fun _ s1 => run_arms vs arms (l_id L s1) s1)
      | TdVia p, _ => pbind (de (typ p)) (fun v => pret (p_from (self_conv p) v))
      | _, _ => pnot
      end.
  End De.
End RunText.

(** ** The definitions the properties are about *)

(** Names are pasted into string literals. *)
Definition name_plain (name : str) (attrs : list sattr) : Prop :=
  plain_lit name = true /\ match value_in (chars "rename") (items attrs) with Some r => plain_lit r = true | None => True end.
Definition names_plain (d : sdef) : Prop :=
  Forall (fun f => name_plain (sf_name f) (sf_attrs f)) (match sd_body d with KTuple _ _ => [] | _ => all_fields d end) /\
  match sd_body d with KEnum vs _ => Forall (fun v => name_plain (sv_name v) (sv_attrs v)) vs | _ => True end.

(** The world knows [Option], [Default] and every proxy of a field as a pair of
    conversions (between the proxy and what is inside an [Option]). *)
Definition plain_ty (t : ty) : Prop := match t with TProxy _ _ => False | _ => True end.
Definition field_known (W : world) (conv : ty -> str -> proxy) (f : sfield) : Prop :=
  let t := ty_text (sf_type f) in
  w_expr W t (chars "Default::default()") = w_default W t /\
  exists t', (if is_option (sf_type f) then w_ty W t None = TOpt t' else w_ty W t None = t') /\
    forall p, w_ty W t (Some p) = TProxy (conv t' p) (w_ty W p None).
Definition world_ok (W : world) (conv : ty -> str -> proxy) (self_conv : str -> proxy) (d : sdef) : Prop :=
  (forall t, plain_ty (w_ty W t None)) /\
  (forall p, w_proxy W p = (self_conv p, w_ty W p None)) /\
  Forall (field_known W conv) (all_fields d).

Definition no_proxy (f : sfield) : Prop := value_in (chars "proxy") (items (sf_attrs f)) = None.
(** JSON: no proxies on the fields of tuple structs ([C69_refuted_tuple_proxy]: they
    are ignored). *)
Definition json_tuple_plain (d : sdef) : Prop :=
  match sd_body d with KTuple fs _ => Forall no_proxy fs | _ => True end.
(** JSON serializers: on the fields of struct-like variants proxies only if they are
    Options ([C69_refuted_variant_proxy]), and none is called [s] or [d]
    ([C69_refuted_s]). *)
Definition variants_compile (d : sdef) : Prop :=
  match sd_body d with
  | KEnum vs _ =>
    Forall (fun v => match sv_payload v with
                     | PStruct fs _ => Forall (fun f => (is_option (sf_type f) = false -> no_proxy f) /\ sf_name f <> chars "s" /\ sf_name f <> chars "d") fs
                     | _ => True end) vs
  | _ => True
  end.
(** RON: no proxies ([C70_refuted_proxy], [C70_refuted_container_proxy]), no unit
    structs and no tuple structs without fields ([C70_refuted_unit]). *)
Definition ron_plain (d : sdef) : Prop :=
  value_in (chars "proxy") (items (sd_attrs d)) = None /\ Forall no_proxy (all_fields d) /\
  match sd_body d with KTuple fs _ => fs <> [] | KUnit => False | _ => True end.
