(** The code generators behind [#[derive(SerRon)]] and [#[derive(DeRon)]]: the text
    that the macros return, as a function of the parsed definition.

    R = derive/src/serde_ron.rs, L = derive/src/lib.rs, S = derive/src/shared.rs.
    [None]: the macro panics.  As in GenModel.v the final [.parse().unwrap()] is not
    modelled. *)
From Verif Require Import Base Types Text TextModel DeriveModel GenModel GenJsonModel.
Local Open Scope N_scope.

Section RonGen.
  Variable crate_ : str.

  (** [derive_ser_ron_proxy] R:14-26, [derive_de_ron_proxy] R:28-40. *)
  Definition ser_ron_proxy (p name : str) : str :=
    chars "impl " ++ crate_ ++ chars "::SerRon for " ++ name ++ chars " {
            fn ser_ron(&self, d: usize, s: &mut " ++ crate_ ++ chars "::SerRonState) {
                let proxy: " ++ p ++ chars " = self.into();
                proxy.ser_ron(d, s);
            }
        }".
  Definition de_ron_proxy (p name : str) : str :=
    chars "impl " ++ crate_ ++ chars "::DeRon for " ++ name ++ chars " {
            fn de_ron(_s: &mut " ++ crate_ ++ chars "::DeRonState, i: &mut core::str::Chars) -> ::core::result::Result<Self, " ++ crate_ ++ chars "::DeRonErr> {
                let proxy: " ++ p ++ chars " = " ++ crate_ ++ chars "::DeRon::deserialize_ron(i)?;
                ::core::result::Result::Ok(Into::into(&proxy))
            }
        }".

  (** One field of [derive_ser_ron_struct], R:47-76. *)
  Definition ser_ron_field (p : pfield) : option str :=
    match fl_name p with
    | None => None
    | Some nm =>
      let ron := match attrs_rename (fl_attrs p) with Some r => r | None => nm end in
      if opt_field_ p
      then Some (chars "if let Some(t) = &self." ++ nm ++ chars " {
                    s.field(d+1, """ ++ ron ++ chars """);
                    t.ser_ron(d+1, s);
                    s.conl();
                };")
      else Some (chars "s.field(d+1,""" ++ ron ++ chars """);
                self." ++ nm ++ chars ".ser_ron(d+1, s);
                s.conl();")
    end.
  (** [derive_ser_ron_struct], R:42-100. *)
  Definition derive_ser_ron_struct (s : struct) : option str :=
    let b := bounds_strings (chars "SerRon") crate_ (st_generics s) in
    match lines (map ser_ron_field (filter (fun p => negb (attrs_skip (fl_attrs p))) (st_fields s))), st_name s with
    | Some body, Some name =>
      Some (chars "
        impl" ++ fst b ++ chars " " ++ crate_ ++ chars "::SerRon for " ++ name ++ snd b ++ chars " {
            fn ser_ron(&self, d: usize, s: &mut " ++ crate_ ++ chars "::SerRonState) {
                s.st_pre();
                " ++ body ++ chars "
                s.st_post(d);
            }
        }
    ")
    | _, _ => None
    end.
  (** [derive_ser_ron_struct_unnamed], R:102-140; [fields.len() - 1] of no fields
      overflows (the macro is compiled with overflow checks by default). *)
  Definition derive_ser_ron_struct_unnamed (s : struct) : option str :=
    let b := bounds_strings (chars "SerRon") crate_ (st_generics s) in
    let fs := st_fields s in
    if lenN fs =? 0 then None else
    let body := concat (map (fun np : N * pfield =>
        (chars "self." ++ dec (fst np) ++ chars ".ser_ron(d, s);") ++ (if at_last (fst np) fs then [] else chars "s.out.push_str("", "");"))
      (filter (fun np => negb (attrs_skip (fl_attrs (snd np)))) (enumerate 0 fs))) in
    match st_name s with
    | Some name => Some (chars "
        impl" ++ fst b ++ chars " " ++ crate_ ++ chars "::SerRon for " ++ name ++ snd b ++ chars " {
            fn ser_ron(&self, d: usize, s: &mut " ++ crate_ ++ chars "::SerRonState) {
                s.out.push('(');
                " ++ body ++ chars "
                s.out.push(')');
            }
        }")
    | None => None
    end.

  (** [derive_de_ron_named], R:142-259: the initializer of a field (R:155-192). *)
  Definition de_ron_unwrap (defaults : bool) (nm : str) (p : pfield) : str :=
    let localvar := chars "_" ++ nm in
    let default_val :=
      match default_text Ron p with
      | Some v => Some v
      | None => if defaults || attrs_skip (fl_attrs p) || opt_field_ p then Some (chars "Default::default()") else None
      end in
    match default_val with
    | Some def => localvar ++ chars ".unwrap_or_else(|| " ++ def ++ chars ")"
    | None => localvar ++ chars ".ok_or_else(|| s.err_nf(""" ++ nm ++ chars """))?"
    end.
  Definition derive_de_ron_named (name : str) (fs : list pfield) (defaults : bool) : option str :=
    match some_all (map (fun p => option_map (fun nm => (nm, p)) (fl_name p)) fs) with
    | None => None
    | Some nfs =>
      let local := fun np : str * pfield => chars "_" ++ fst np in
      let ron := fun np : str * pfield => match attrs_rename (fl_attrs (snd np)) with Some r => r | None => fst np end in
      let local_lets := concat (map (fun np => chars "let mut " ++ local np ++ chars ": Option<" ++ full (fl_type (snd np)) ++ chars "> = None;") nfs) in
      let inner := concat (map (fun np => chars """" ++ ron np ++ chars """ => {
                    s.next_colon(i)?;
                    " ++ local np ++ chars " = Some(" ++ crate_ ++ chars "::DeRon::de_ron(s, i)?)
                },")
                               (filter (fun np => negb (attrs_skip (fl_attrs (snd np)))) nfs)) in
      let match_names := match fs with [] => [] | _ => chars "match s.identbuf.as_ref() {
                " ++ inner ++ chars "
                _ => return ::core::result::Result::Err(s.err_exp(&s.identbuf))
            }" end in
      let body := concat (map (fun np => fst np ++ chars ": " ++ de_ron_unwrap defaults (fst np) (snd np) ++ chars ",") nfs) in
      Some (chars "{
            " ++ local_lets ++ chars "
            s.paren_open(i)?;
            while s.next_ident().is_some() {
                " ++ match_names ++ chars "
                s.eat_comma_paren(i)?;
            };
            s.paren_close(i)?;
            " ++ name ++ chars " {
                " ++ body ++ chars "
            }
        }")
    end.
  (** [derive_de_ron_struct], R:261-292. *)
  Definition derive_de_ron_struct (s : struct) : option str :=
    let b := bounds_strings (chars "DeRon") crate_ (st_generics s) in
    match st_name s with
    | None => None
    | Some name =>
      match derive_de_ron_named name (st_fields s) (is_some (attrs_default (st_attrs s))) with
      | None => None
      | Some body =>
        Some (chars "impl" ++ fst b ++ chars " " ++ crate_ ++ chars "::DeRon for " ++ name ++ snd b ++ chars " {
            fn de_ron(s: &mut " ++ crate_ ++ chars "::DeRonState, i: &mut core::str::Chars) -> ::core::result::Result<Self," ++ crate_ ++ chars "::DeRonErr> {
                ::core::result::Result::Ok(" ++ body ++ chars ")
            }
        }")
      end
    end.
  (** [derive_de_ron_struct_unnamed], R:294-330. *)
  Definition derive_de_ron_struct_unnamed (s : struct) : option str :=
    let b := bounds_strings (chars "DeRon") crate_ (st_generics s) in
    let body := concat (map (fun _ : pfield => chars "{
                let r = " ++ crate_ ++ chars "::DeRon::de_ron(s, i)?;
                s.eat_comma_paren(i)?;
                r
            },") (st_fields s)) in
    match st_name s with
    | Some name => Some (chars "
        impl" ++ fst b ++ chars " " ++ crate_ ++ chars "::DeRon for " ++ name ++ snd b ++ chars " {
            fn de_ron(s: &mut " ++ crate_ ++ chars "::DeRonState, i: &mut core::str::Chars) -> ::core::result::Result<Self," ++ crate_ ++ chars "::DeRonErr> {
                s.paren_open(i)?;
                let r = Self(" ++ body ++ chars ");
                s.paren_close(i)?;
                ::core::result::Result::Ok(r)
            }
        }")
    | None => None
    end.

  (** One field of a struct-like variant, R:350-376. *)
  Definition ser_ron_variant_field (p : pfield) : option str :=
    match fl_name p with
    | None => None
    | Some nm =>
      if opt_field_ p
      then Some (chars "if " ++ nm ++ chars ".is_some() {
                                s.field(d+1, """ ++ nm ++ chars """);
                                " ++ nm ++ chars ".ser_ron(d+1, s);
                                s.conl();
                            }")
      else Some (chars "s.field(d+1, """ ++ nm ++ chars """);
                            " ++ nm ++ chars ".ser_ron(d+1, s);
                            s.conl();")
    end.
  (** One variant in [derive_ser_ron_enum], R:336-424. *)
  Definition ser_ron_variant (p : pfield) : option str :=
    match fl_name p with
    | None => None
    | Some ident =>
      match t_ident (fl_type p) with
      | CNone => Some (chars "Self::" ++ ident ++ chars " => s.out.push_str(""" ++ ident ++ chars """),")
      | CAnonymous st =>
        match some_all (map fl_name (st_fields st)), lines (map ser_ron_variant_field (st_fields st)) with
        | Some names, Some inner => Some (chars "Self::" ++ ident ++ chars " { " ++ name_list names ++ chars " } => {
                        s.out.push_str(""" ++ ident ++ chars """);
                        s.st_pre();
                        " ++ inner ++ chars "
                        s.st_post(d);
                    }")
        | _, _ => None
        end
      | CTuple l =>
        (* [contents.len() - 1], R:398 *)
        if lenN l =? 0 then None else
        let var := fun np : N * type => chars "f" ++ dec (fst np) in
        let inner := concat (map (fun np => (var np ++ chars ".ser_ron(d, s);") ++ (if at_last (fst np) l then [] else chars "s.out.push_str("","");")) (enumerate 0 l)) in
        Some (chars "Self::" ++ ident ++ chars " (" ++ name_list (map var (enumerate 0 l)) ++ chars ") => {
                        s.out.push_str(""" ++ ident ++ chars """);
                        s.out.push('(');
                        " ++ inner ++ chars "
                        s.out.push(')');
                    }")
      | _ => None
      end
    end.
  (** [derive_ser_ron_enum], R:332-439. *)
  Definition derive_ser_ron_enum (e : enum) : option str :=
    let b := bounds_strings (chars "SerRon") crate_ (en_generics e) in
    match lines (map ser_ron_variant (en_variants e)) with
    | Some body =>
      Some (chars "
        impl" ++ fst b ++ chars " " ++ crate_ ++ chars "::SerRon for " ++ en_name e ++ snd b ++ chars " {
            fn ser_ron(&self, d: usize, s: &mut " ++ crate_ ++ chars "::SerRonState) {
                match self {
                    " ++ body ++ chars "
                }
            }
        }")
    | None => None
    end.
  (** One variant in [derive_de_ron_enum], R:445-498. *)
  Definition de_ron_variant (ename : str) (p : pfield) : option str :=
    match fl_name p with
    | None => None
    | Some ident =>
      match t_ident (fl_type p), t_wraps (fl_type p) with
      | CNone, None => Some (chars """" ++ ident ++ chars """ => Self::" ++ ident ++ chars ",")
      | CAnonymous st, _ =>
        match derive_de_ron_named (ename ++ chars "::" ++ ident) (st_fields st) false with
        | Some inner => Some (chars """" ++ ident ++ chars """ => " ++ inner)
        | None => None
        end
      | CTuple l, _ =>
        let inner := concat (map (fun _ : type => chars "{
                            let r = " ++ crate_ ++ chars "::DeRon::de_ron(s, i)?;
                            s.eat_comma_paren(i)?;
                            r
                        }, ") l) in
        Some (chars """" ++ ident ++ chars """ => {
                        s.paren_open(i)?;
                        let r = Self::" ++ ident ++ chars " (" ++ inner ++ chars ");
                        s.paren_close(i)?;
                        r
                    }, ")
      | _, _ => None
      end
    end.
  (** [derive_de_ron_enum], R:441-512. *)
  Definition derive_de_ron_enum (e : enum) : option str :=
    let b := bounds_strings (chars "DeRon") crate_ (en_generics e) in
    match lines (map (de_ron_variant (en_name e)) (en_variants e)) with
    | Some body =>
      Some (chars "
        impl" ++ fst b ++ chars " " ++ crate_ ++ chars "::DeRon for " ++ en_name e ++ snd b ++ chars " {
            fn de_ron(s: &mut " ++ crate_ ++ chars "::DeRonState, i: &mut core::str::Chars) -> ::core::result::Result<Self," ++ crate_ ++ chars "::DeRonErr> {
                // we are expecting an identifier
                s.ident(i)?;
                ::core::result::Result::Ok(match s.identbuf.as_ref() {
                    " ++ body ++ chars "
                    _ => return ::core::result::Result::Err(s.err_enum(&s.identbuf))
                })
            }
        }")
    | None => None
    end.
End RonGen.

(** The macros, L:69-87 and 89-107. *)
Definition derive_ser_ron (d : data) : option str :=
  let c := fst (derive_target d) in
  match snd (derive_target d) with
  | ViaProxy p name => Some (ser_ron_proxy c p name)
  | ForStruct s => if st_named s then derive_ser_ron_struct c s else derive_ser_ron_struct_unnamed c s
  | ForEnum e => derive_ser_ron_enum c e
  end.
Definition derive_de_ron (d : data) : option str :=
  let c := fst (derive_target d) in
  match snd (derive_target d) with
  | ViaProxy p name => Some (de_ron_proxy c p name)
  | ForStruct s => if st_named s then derive_de_ron_struct c s else derive_de_ron_struct_unnamed c s
  | ForEnum e => derive_de_ron_enum c e
  end.
