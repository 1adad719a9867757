(** The code generators behind [#[derive(SerJson)]] and [#[derive(DeJson)]]: the text
    that the macros return, as a function of the parsed definition.

    J = derive/src/serde_json.rs, L = derive/src/lib.rs, S = derive/src/shared.rs.
    [None]: the macro panics.  As in GenModel.v the final [.parse().unwrap()] is not
    modelled.  [derive_de_json_named] returns a parsed token stream that is printed
    again into the impl (J:292, J:474); the model pastes its text as it was before
    parsing, which has the same tokens. *)
From Verif Require Import Base Types Text TextModel DeriveModel GenModel.
Local Open Scope N_scope.

(** [field.ty.base() == "Option"]. *)
Definition opt_field_ (p : pfield) : bool := base_is (fl_type p) (chars "Option").
(** [.last()]: whether the position [n] is that of the last of [len] elements
    ([n == len.saturating_sub(1)], J:331, J:392, J:574). *)
Definition at_last {A} (n : N) (l : list A) : bool := n =? lenN l - 1.
(** [names.join(",")]. *)
Definition name_list (l : list str) : str := joins (chars ",") l.
Fixpoint some_all {A} (l : list (option A)) : option (list A) :=
  match l with
  | [] => Some []
  | Some a :: r => match some_all r with Some b => Some (a :: b) | None => None end
  | None :: _ => None
  end.

(** [ser_proxy_guard], J:28-40. *)
Definition ser_proxy_guard (place : str) (p : pfield) : str :=
  match attrs_proxy (fl_attrs p) with
  | Some px =>
    if opt_field_ p
    then chars "{" ++ place ++ chars ".as_ref().map(|f| {let proxy: " ++ px ++ chars " = Into::into(f);proxy})}"
    else chars "{let proxy: " ++ px ++ chars " = Into::into(&" ++ place ++ chars ");proxy}"
  | None => place
  end.

Section JsonGen.
  Variable crate_ : str.

  (** [derive_ser_json_proxy] J:14-26, [derive_de_json_proxy] J:259-272. *)
  Definition ser_json_proxy (p name : str) : str :=
    chars "impl " ++ crate_ ++ chars "::SerJson for " ++ name ++ chars " {
            fn ser_json(&self, d: usize, s: &mut " ++ crate_ ++ chars "::SerJsonState) {
                let proxy: " ++ p ++ chars " = self.into();
                proxy.ser_json(d, s);
            }
        }".
  Definition de_json_proxy (p name : str) : str :=
    chars "impl " ++ crate_ ++ chars "::DeJson for " ++ name ++ chars " {
            #[allow(clippy::ignored_unit_patterns)]
            fn de_json(s: &mut " ++ crate_ ++ chars "::DeJsonState, i: &mut core::str::Chars) -> ::core::result::Result<Self, " ++ crate_ ++ chars "::DeJsonErr> {
                let proxy: " ++ p ++ chars " = " ++ crate_ ++ chars "::DeJson::de_json(s, i)?;
                ::core::result::Result::Ok(Into::into(&proxy))
            }
        }".

  (** One field of [derive_ser_json_struct], J:49-104; [cnull]: the container has
      [serialize_none_as_null]. *)
  Definition ser_json_field (cnull : bool) (p : pfield) : option str :=
    match fl_name p with
    | None => None
    | Some nm =>
      let json := match attrs_rename (fl_attrs p) with Some r => r | None => nm end in
      if attrs_skip (fl_attrs p) then Some []
      else
        let proxied := ser_proxy_guard (chars "self." ++ nm) p in
        if opt_field_ p then
          let null := (attrs_null (fl_attrs p) || cnull) &&
                      match attrs_proxy (fl_attrs p) with None => true | Some _ => false end in
          let header := chars "if first_field_was_serialized {
                                                 s.conl();
                                             };
                                             first_field_was_serialized = true;
                                             s.field(d+1, """ ++ json ++ chars """);" in
          let h1 := if null then header else [] in
          let h2 := if null then [] else header in
          let e := if null then chars "else {{
                            Option::<i32>::ser_json(&None, d+1, s);
                        }}" else [] in
          Some (h1 ++ chars "
                    if let Some(t) = &" ++ proxied ++ chars " {
                        " ++ h2 ++ chars "
                        t.ser_json(d+1, s);
                    } " ++ e)
        else
          Some (chars "if first_field_was_serialized {
                        s.conl();
                    };
                    first_field_was_serialized = true;
                    s.field(d+1,""" ++ json ++ chars """);
                    " ++ proxied ++ chars ".ser_json(d+1, s);")
    end.
  (** [derive_ser_json_struct], J:42-130. *)
  Definition derive_ser_json_struct (s : struct) : option str :=
    let b := bounds_strings (chars "SerJson") crate_ (st_generics s) in
    match lines (Some (chars "let mut first_field_was_serialized = false;") :: map (ser_json_field (attrs_null (st_attrs s))) (st_fields s)), st_name s with
    | Some body, Some name =>
      Some (chars "
        impl" ++ fst b ++ chars " " ++ crate_ ++ chars "::SerJson for " ++ name ++ snd b ++ chars " {
            fn ser_json(&self, d: usize, s: &mut " ++ crate_ ++ chars "::SerJsonState) {
                s.st_pre();
                " ++ body ++ chars "
                s.st_post(d);
            }
        }
    ")
    | _, _ => None
    end.

  (** [derive_de_json_named], J:132-257: the initializer of a field (J:149-215). *)
  Definition de_json_unwrap (defaults : bool) (nm : str) (p : pfield) : str :=
    let localvar := chars "_" ++ nm in
    let proxified_t :=
      match attrs_proxy (fl_attrs p) with
      | Some px => if opt_field_ p then chars "Some(From::<&" ++ px ++ chars ">::from(&t))" else chars "From::<&" ++ px ++ chars ">::from(&t)"
      | None => chars "t"
      end in
    match attrs_skip (fl_attrs p), default_text Json p with
    | true, Some v => v
    | true, None => chars "Default::default()"
    | false, Some v => localvar ++ chars ".map_or_else(|| " ++ v ++ chars ", |t| " ++ proxified_t ++ chars ")"
    | false, None =>
      if opt_field_ p || defaults
      then localvar ++ chars ".map(|t| " ++ proxified_t ++ chars ").unwrap_or_default()"
      else localvar ++ chars ".map(|t| " ++ proxified_t ++ chars ").ok_or_else(|| s.err_nf(""" ++ nm ++ chars """))?"
    end.
  Definition derive_de_json_named (name : str) (defaults : bool) (fs : list pfield) : option str :=
    match some_all (map (fun p => option_map (fun nm => (nm, p)) (fl_name p)) fs) with
    | None => None
    | Some nfs =>
      let kept := filter (fun np => negb (attrs_skip (fl_attrs (snd np)))) nfs in
      let local := fun np : str * pfield => chars "_" ++ fst np in
      let json := fun np : str * pfield => match attrs_rename (fl_attrs (snd np)) with Some r => r | None => fst np end in
      Some (concat (map (fun np => chars "let mut " ++ local np ++ chars " = None;") kept) ++
            chars "s.curly_open(i) ?;" ++
            chars "while s.next_str().is_some() {" ++
            match fs with
            | [] => []
            | _ =>
              chars "match AsRef::<str>::as_ref(&s.strbuf) {" ++
              concat (map (fun np => chars """" ++ json np ++ chars """ => {s.next_colon(i) ?;" ++ local np ++ chars " = Some(" ++ crate_ ++ chars "::DeJson::de_json(s, i) ?)},") kept) ++
              chars "_ => {s.next_colon(i)?; s.whole_field(i)?; }" ++
              chars "}"
            end ++
            chars "s.eat_comma_curly(i) ?;" ++
            chars "}" ++
            chars "s.curly_close(i) ?;" ++
            (name ++ chars " {") ++
            concat (map (fun np => fst np ++ chars ": " ++ de_json_unwrap defaults (fst np) (snd np) ++ chars ",") nfs) ++
            chars "}")
    end.
  (** [derive_de_json_struct], J:274-297. *)
  Definition derive_de_json_struct (s : struct) : option str :=
    let b := bounds_strings (chars "DeJson") crate_ (st_generics s) in
    match st_name s with
    | None => None
    | Some name =>
      match derive_de_json_named name (is_some (attrs_default (st_attrs s)) || is_some (attrs_default_with (st_attrs s))) (st_fields s) with
      | None => None
      | Some body =>
        Some (chars "impl" ++ fst b ++ chars " " ++ crate_ ++ chars "::DeJson for " ++ name ++ snd b ++ chars " {
            #[allow(clippy::ignored_unit_patterns)]
            fn de_json(s: &mut " ++ crate_ ++ chars "::DeJsonState, i: &mut core::str::Chars) -> ::core::result::Result<Self,
            " ++ crate_ ++ chars "::DeJsonErr> {
                ::core::result::Result::Ok({ " ++ body ++ chars " })
            }
        }")
      end
    end.

  (** One field of a struct-like variant, J:332-367. *)
  Definition ser_json_variant_field (last : bool) (p : pfield) : str :=
    match fl_name p with
    | None => []
    | Some nm =>
      let proxied := ser_proxy_guard nm p in
      if last then
        if opt_field_ p
        then chars "if " ++ nm ++ chars ".is_some(){s.field(d+1, """ ++ nm ++ chars """);" ++ proxied ++ chars ".ser_json(d+1, s);}"
        else chars "s.field(d+1, """ ++ nm ++ chars """);" ++ proxied ++ chars ".ser_json(d+1, s);"
      else if opt_field_ p
      then chars "if " ++ nm ++ chars ".is_some(){s.field(d+1, """ ++ nm ++ chars """);" ++ proxied ++ chars ".ser_json(d+1, s);s.conl();}"
      else chars "s.field(d+1, """ ++ nm ++ chars """);" ++ proxied ++ chars ".ser_json(d+1, s);s.conl();"
    end.
  Definition variant_name (p : pfield) (ident : str) : str :=
    match attrs_rename (fl_attrs p) with Some r => r | None => ident end.
  (** One variant in [derive_ser_json_enum], J:303-422. *)
  Definition ser_json_variant (p : pfield) : option str :=
    match fl_name p with
    | None => None
    | Some ident =>
      let json := variant_name p ident in
      match t_ident (fl_type p), t_wraps (fl_type p) with
      | CNone, None => Some (chars "Self::" ++ ident ++ chars " => s.label(""" ++ json ++ chars """),")
      | CAnonymous st, _ =>
        let items := concat (map (fun np => ser_json_variant_field (at_last (fst np) (st_fields st)) (snd np)) (enumerate 0 (st_fields st))) in
        let names := concat (map (fun p => match fl_name p with Some nm => [nm] | None => [] end) (st_fields st)) in
        Some (chars "Self::" ++ ident ++ chars " { " ++ name_list names ++ chars " } => {
                                s.out.push('{');
                                s.label(""" ++ json ++ chars """);
                                s.out.push(':');
                                s.st_pre();
                                " ++ items ++ chars "
                                s.st_post(d);
                                s.out.push('}');
                            }")
      | CTuple l, _ =>
        (* [contents.len() - 1], J:392 *)
        if lenN l =? 0 then None else
        let var := fun np : N * type => chars "f" ++ dec (fst np) in
        let inner := concat (map (fun np => if at_last (fst np) l then var np ++ chars ".ser_json(d, s);" else var np ++ chars ".ser_json(d, s); s.out.push(',');") (enumerate 0 l)) in
        Some (chars "Self::" ++ ident ++ chars "  (" ++ name_list (map var (enumerate 0 l)) ++ chars ") => {
                                s.out.push('{');
                                s.label(""" ++ json ++ chars """);
                                s.out.push(':');
                                s.out.push('[');
                                " ++ inner ++ chars "
                                s.out.push(']');
                                s.out.push('}');
                            }")
      | _, _ => None
      end
    end.
  (** [derive_ser_json_enum], J:299-438. *)
  Definition derive_ser_json_enum (e : enum) : option str :=
    let b := bounds_strings (chars "SerJson") crate_ (en_generics e) in
    match lines (map ser_json_variant (en_variants e)) with
    | Some r =>
      Some (chars "
        impl" ++ fst b ++ chars " " ++ crate_ ++ chars "::SerJson for " ++ en_name e ++ snd b ++ chars " {
            fn ser_json(&self, d: usize, s: &mut " ++ crate_ ++ chars "::SerJsonState) {
                match self {
                    " ++ r ++ chars "
                }
            }
        }")
    | None => None
    end.

  (** One variant in [derive_de_json_enum], J:445-499: its arm, and whether it is
      among the unit variants. *)
  Definition de_json_variant (p : pfield) : option (bool * str) :=
    match fl_name p with
    | None => None
    | Some ident =>
      let json := variant_name p ident in
      match t_ident (fl_type p), t_wraps (fl_type p) with
      | CNone, None => Some (true, chars """" ++ json ++ chars """ => Self::" ++ ident ++ chars ",")
      | CAnonymous st, _ =>
        match derive_de_json_named (chars "Self::" ++ ident) false (st_fields st) with
        | Some body => Some (false, chars """" ++ json ++ chars """ => { " ++ body ++ chars " }, ")
        | None => None
        end
      | CTuple l, _ =>
        let items := concat (map (fun _ : type => chars "{let r = " ++ crate_ ++ chars "::DeJson::de_json(s,i)?;s.eat_comma_block(i)?;r},") l) in
        Some (false, chars """" ++ json ++ chars """ => {s.block_open(i)?;let r = Self::" ++ ident ++ chars "(" ++ items ++ chars "); s.block_close(i)?;r}")
      | _, _ => None
      end
    end.
  (** [derive_de_json_enum], J:440-552. *)
  Definition derive_de_json_enum (e : enum) : option str :=
    let b := bounds_strings (chars "DeJson") crate_ (en_generics e) in
    match some_all (map de_json_variant (en_variants e)) with
    | None => None
    | Some arms =>
      let r_units := concat (map snd (filter (fun a => fst a) arms)) in
      let r_rest := concat (map snd (filter (fun a => negb (fst a)) arms)) in
      Some ((chars "impl" ++ fst b ++ chars " " ++ crate_ ++ chars "::DeJson for " ++ en_name e ++ snd b ++ chars " {
            #[allow(clippy::ignored_unit_patterns)]
            fn de_json(s: &mut " ++ crate_ ++ chars "::DeJsonState, i: &mut core::str::Chars) -> ::core::result::Result<Self, " ++ crate_ ++ chars "::DeJsonErr> {
                match s.tok {") ++
            match r_rest with
            | [] => []
            | _ => chars "
                    " ++ crate_ ++ chars "::DeJsonTok::CurlyOpen => {
                        s.curly_open(i)?;
                        let _ = s.string(i)?;
                        s.colon(i)?;
                        let r = ::core::result::Result::Ok(match s.strbuf.as_ref() {
                            " ++ r_rest ++ chars "
                            _ => return ::core::result::Result::Err(s.err_enum(&s.strbuf))
                        });
                        s.curly_close(i)?;
                        r
                    },"
            end ++
            match r_units with
            | [] => []
            | _ => chars "
                    " ++ crate_ ++ chars "::DeJsonTok::Str => {
                        let _ = s.string(i)?;
                        ::core::result::Result::Ok(match s.strbuf.as_ref() {
                            " ++ r_units ++ chars "
                            _ => return ::core::result::Result::Err(s.err_enum(&s.strbuf))
                        })
                    },"
            end ++
            chars "
                    _ => ::core::result::Result::Err(s.err_token(""String or {"")),
                }
            }
        }
")
    end.

  (** [derive_ser_json_struct_unnamed], J:554-603. *)
  Definition derive_ser_json_struct_unnamed (s : struct) : option str :=
    let b := bounds_strings (chars "SerJson") crate_ (st_generics s) in
    let fs := st_fields s in
    let body :=
      if lenN fs =? 0 then chars "s.out.push('{');" ++ chars "s.out.push('}');"
      else if attrs_transparent (st_attrs s) && (lenN fs =? 1) then chars "self." ++ chars "0" ++ chars ".ser_json(d, s);"
      else chars "s.out.push('[');" ++
           concat (map (fun np : N * pfield =>
             (chars "self." ++ dec (fst np) ++ chars ".ser_json(d, s);") ++ (if at_last (fst np) fs then [] else chars "s.out.push_str("", "");")) (enumerate 0 fs)) ++
           chars "s.out.push(']');" in
    match st_name s with
    | Some name => Some (chars "
        impl" ++ fst b ++ chars " " ++ crate_ ++ chars "::SerJson for " ++ name ++ snd b ++ chars " {
            fn ser_json(&self, d: usize, s: &mut " ++ crate_ ++ chars "::SerJsonState) {
                " ++ body ++ chars "
            }
        }")
    | None => None
    end.
  (** [derive_de_json_struct_unnamed], J:605-649. *)
  Definition derive_de_json_struct_unnamed (s : struct) : option str :=
    let b := bounds_strings (chars "DeJson") crate_ (st_generics s) in
    let fs := st_fields s in
    let items := concat (map (fun _ : pfield =>
      (chars "{ let r = " ++ crate_ ++ chars "::DeJson::de_json(s, i)?;") ++ (if lenN fs =? 1 then [] else chars "  s.eat_comma_block(i)?;") ++ chars "  r" ++ chars "},") fs) in
    let body :=
      if lenN fs =? 0 then chars "s.curly_open(i)?;let r = Self;s.curly_close(i)?;"
      else if attrs_transparent (st_attrs s) && (lenN fs =? 1) then chars "let r = Self(" ++ items ++ chars ");"
      else chars "s.block_open(i)?;
             let r = Self(" ++ items ++ chars ");
             s.block_close(i)?;" in
    match st_name s with
    | Some name => Some (chars "
        impl" ++ fst b ++ chars " " ++ crate_ ++ chars "::DeJson for " ++ name ++ snd b ++ chars " {
            #[allow(clippy::ignored_unit_patterns)]
            fn de_json(s: &mut " ++ crate_ ++ chars "::DeJsonState, i: &mut core::str::Chars) -> ::core::result::Result<Self," ++ crate_ ++ chars "::DeJsonErr> {
                " ++ body ++ chars "
                ::core::result::Result::Ok(r)
            }
        }")
    | None => None
    end.
End JsonGen.

(** The macros, L:109-130 and 132-149. *)
Definition derive_ser_json (d : data) : option str :=
  let c := fst (derive_target d) in
  match snd (derive_target d) with
  | ViaProxy p name => Some (ser_json_proxy c p name)
  | ForStruct s => if st_named s then derive_ser_json_struct c s else derive_ser_json_struct_unnamed c s
  | ForEnum e => derive_ser_json_enum c e
  end.
Definition derive_de_json (d : data) : option str :=
  let c := fst (derive_target d) in
  match snd (derive_target d) with
  | ViaProxy p name => Some (de_json_proxy c p name)
  | ForStruct s => if st_named s then derive_de_json_struct c s else derive_de_json_struct_unnamed c s
  | ForEnum e => derive_de_json_enum c e
  end.
