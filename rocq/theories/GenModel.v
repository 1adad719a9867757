(** The code generators behind [#[derive(SerBin)]] and [#[derive(DeBin)]]: the text
    that the macros return, as a function of the parsed definition.

    B = derive/src/serde_bin.rs, L = derive/src/lib.rs, S = derive/src/shared.rs.
    [None]: the macro panics ([unwrap], [expect], [unimplemented!]) and nothing is
    compiled.  Not modelled: [.parse().unwrap()] at the end of every generator, the
    lexer of rustc (the text is what is modelled). *)
From Verif Require Import Base Types Text TextModel DeriveModel.
Local Open Scope N_scope.

(** The text built by a loop over [l!] (S:7-15: [push_str] of [format!], no newline). *)
Fixpoint lines (l : list (option str)) : option str :=
  match l with
  | [] => Some []
  | Some a :: r => match lines r with Some b => Some (a ++ b) | None => None end
  | None :: _ => None
  end.
(** [.iter().enumerate()]. *)
Fixpoint enumerate {A} (n : N) (l : list A) : list (N * A) :=
  match l with [] => [] | a :: r => (n, a) :: enumerate (n + 1) r end.

Section Bin.
  Variable crate_ : str.

  (** [derive_ser_bin_proxy] B:11-23, [derive_de_bin_proxy] B:25-38. *)
  Definition ser_bin_proxy (p name : str) : str :=
    chars "impl " ++ crate_ ++ chars "::SerBin for " ++ name ++ chars " {
            fn ser_bin(&self, s: &mut Vec<u8>) {
                let proxy: " ++ p ++ chars " = self.into();
                proxy.ser_bin(s);
            }
        }".
  Definition de_bin_proxy (p name : str) : str :=
    chars "impl " ++ crate_ ++ chars "::DeBin for " ++ name ++ chars " {
            fn de_bin(o:&mut usize, d:&[u8]) -> ::core::result::Result<Self, " ++ crate_ ++ chars "::DeBinErr> {
                let proxy: " ++ p ++ chars " = " ++ crate_ ++ chars "::DeBin::de_bin(o, d)?;
                ::core::result::Result::Ok(Into::into(&proxy))
            }
        }".

  (** The impl around the body of a struct's serializer, B:62-79 and 101-119. *)
  Definition ser_bin_impl (gs : list generic) (name body : str) : str :=
    let b := bounds_strings (chars "SerBin") crate_ gs in
    chars "impl" ++ fst b ++ chars " " ++ crate_ ++ chars "::SerBin for " ++ name ++ snd b ++ chars " {
            fn ser_bin(&self, s: &mut Vec<u8>) {
                " ++ body ++ chars "
            }
        }".
  (** B:153-173 and 208-228. *)
  Definition de_bin_impl (gs : list generic) (name body : str) : str :=
    let b := bounds_strings (chars "DeBin") crate_ gs in
    chars "impl" ++ fst b ++ chars " " ++ crate_ ++ chars "::DeBin for " ++ name ++ snd b ++ chars " {
            fn de_bin(o:&mut usize, d:&[u8]) -> ::core::result::Result<Self, " ++ crate_ ++ chars "::DeBinErr> {
                ::core::result::Result::Ok(Self {
                    " ++ body ++ chars "
                })
            }
        }".

  (** One field in [derive_ser_bin_struct] B:45-60 ([name]: its name) and in
      [derive_ser_bin_struct_unnamed] B:93-98 ([name]: its number). *)
  Definition ser_bin_field (name : str) (p : pfield) : str :=
    match attrs_proxy (fl_attrs p) with
    | Some px =>
      chars "let proxy: " ++ px ++ chars " = Into::into(&self." ++ name ++ chars ");" ++ chars "proxy.ser_bin(s);"
    | None => chars "self." ++ name ++ chars ".ser_bin(s);"
    end.
  Definition derive_ser_bin_struct (s : struct) : option str :=
    match lines (map (fun p => option_map (fun nm => ser_bin_field nm p) (fl_name p))
                     (filter (fun p => negb (attrs_skip (fl_attrs p))) (st_fields s))), st_name s with
    | Some body, Some name => Some (ser_bin_impl (st_generics s) name body)
    | _, _ => None
    end.
  Definition derive_ser_bin_struct_unnamed (s : struct) : option str :=
    match lines (map (fun np => Some (ser_bin_field (dec (fst np)) (snd np)))
                     (filter (fun np => negb (attrs_skip (fl_attrs (snd np)))) (enumerate 0 (st_fields s)))), st_name s with
    | Some body, Some name => Some (ser_bin_impl (st_generics s) name body)
    | _, _ => None
    end.

  (** One field in [derive_de_bin_struct] B:126-143, [.._unnamed] B:181-198. *)
  Definition de_bin_field (name : str) (p : pfield) : str :=
    match attrs_proxy (fl_attrs p) with
    | Some px =>
      name ++ chars ": {" ++ chars "let proxy: " ++ px ++ chars " = " ++ crate_ ++ chars "::DeBin::de_bin(o, d)?;" ++
      chars "Into::into(&proxy)" ++ chars "},"
    | None => name ++ chars ": " ++ crate_ ++ chars "::DeBin::de_bin(o, d)?,"
    end.
  (** The skipped fields, B:145-151 and 200-206: by name in both. *)
  Definition de_bin_skipped (fs : list pfield) : list (option str) :=
    map (fun p => option_map (fun nm => nm ++ chars ": Default::default(),") (fl_name p))
        (filter (fun p => attrs_skip (fl_attrs p)) fs).
  Definition derive_de_bin_struct (s : struct) : option str :=
    match lines (map (fun p => option_map (fun nm => de_bin_field nm p) (fl_name p))
                     (filter (fun p => negb (attrs_skip (fl_attrs p))) (st_fields s))
                 ++ de_bin_skipped (st_fields s)), st_name s with
    | Some body, Some name => Some (de_bin_impl (st_generics s) name body)
    | _, _ => None
    end.
  Definition derive_de_bin_struct_unnamed (s : struct) : option str :=
    match lines (map (fun np => Some (de_bin_field (dec (fst np)) (snd np)))
                     (filter (fun np => negb (attrs_skip (fl_attrs (snd np)))) (enumerate 0 (st_fields s)))
                 ++ de_bin_skipped (st_fields s)), st_name s with
    | Some body, Some name => Some (de_bin_impl (st_generics s) name body)
    | _, _ => None
    end.

  (** One variant in [derive_ser_bin_enum], B:231-290. *)
  Definition ser_bin_variant (iv : N * pfield) : option str :=
    let lit := dec (fst iv) ++ chars "u16" in
    match fl_name (snd iv) with
    | None => None
    | Some ident =>
      match t_ident (fl_type (snd iv)), t_wraps (fl_type (snd iv)) with
      | CNone, None => Some (chars "Self::" ++ ident ++ chars " => " ++ lit ++ chars ".ser_bin(s),")
      | CTuple l, _ =>
        lines ([Some (chars "Self::" ++ ident ++ chars " (")] ++
               map (fun np : N * type => Some (chars "f" ++ dec (fst np) ++ chars ", ")) (enumerate 0 l) ++
               [Some (chars ") => {"); Some (lit ++ chars ".ser_bin(s);")] ++
               map (fun np : N * type => Some (chars "f" ++ dec (fst np) ++ chars ".ser_bin(s);")) (enumerate 0 l) ++
               [Some (chars "}")])
      | CAnonymous st, _ =>
        lines ([Some (chars "Self::" ++ ident ++ chars " {")] ++
               map (fun p => option_map (fun nm => nm ++ chars ", ") (fl_name p)) (st_fields st) ++
               [Some (chars "} => {"); Some (lit ++ chars ".ser_bin(s);")] ++
               map (fun p => option_map (fun nm => nm ++ chars ".ser_bin(s);") (fl_name p)) (st_fields st) ++
               [Some (chars "}")])
      | _, _ => None
      end
    end.
  (** [derive_ser_bin_enum], B:230-305. *)
  Definition derive_ser_bin_enum (e : enum) : option str :=
    let b := bounds_strings (chars "SerBin") crate_ (en_generics e) in
    match lines (map ser_bin_variant (enumerate 0 (en_variants e))) with
    | Some r =>
      Some (chars "impl" ++ fst b ++ chars " " ++ crate_ ++ chars "::SerBin for " ++ en_name e ++ snd b ++ chars " {
            fn ser_bin(&self, s: &mut Vec<u8>) {
                match self {
                  " ++ r ++ chars "
                }
            }
        }")
    | None => None
    end.

  (** One variant in [derive_de_bin_enum], B:311-368. *)
  Definition de_bin_variant (iv : N * pfield) : option str :=
    let lit := dec (fst iv) ++ chars "u16" in
    match t_ident (fl_type (snd iv)), t_wraps (fl_type (snd iv)), fl_name (snd iv) with
    | CNone, None, Some ident => Some (lit ++ chars " => Self::" ++ ident ++ chars ",")
    | CTuple l, _, Some ident =>
      lines ([Some (lit ++ chars " => Self::" ++ ident ++ chars " (")] ++
             map (fun _ : type => Some (crate_ ++ chars "::DeBin::de_bin(o, d)?,")) l ++
             [Some (chars "),")])
    | CAnonymous st, _, Some ident =>
      lines ([Some (lit ++ chars " => Self::" ++ ident ++ chars " {")] ++
             map (fun p => option_map (fun nm => nm ++ chars ": " ++ crate_ ++ chars "::DeBin::de_bin(o, d)?,") (fl_name p)) (st_fields st) ++
             [Some (chars "},")])
    | _, _, _ => None
    end.
  (** [derive_de_bin_enum], B:307-393. *)
  Definition derive_de_bin_enum (e : enum) : option str :=
    let b := bounds_strings (chars "DeBin") crate_ (en_generics e) in
    match lines (map de_bin_variant (enumerate 0 (en_variants e))) with
    | Some r =>
      Some (chars "impl" ++ fst b ++ chars " " ++ crate_ ++ chars "::DeBin for " ++ en_name e ++ snd b ++ chars " {
            fn de_bin(o:&mut usize, d:&[u8]) -> ::core::result::Result<Self, " ++ crate_ ++ chars "::DeBinErr> {
                let id: u16 = " ++ crate_ ++ chars "::DeBin::de_bin(o,d)?;
                Ok(match id {
                    " ++ r ++ chars "
                    unknown => return ::core::result::Result::Err(" ++ crate_ ++ chars "::DeBinErr{o: 0, msg: " ++ crate_ ++ chars "::DeBinErrReason::UnknownDiscriminant(unknown as isize)})
                })
            }
        }")
    | None => None
    end.
End Bin.

(** The macros, L:26-45 and 47-67. *)
Definition derive_ser_bin (d : data) : option str :=
  let c := fst (derive_target d) in
  match snd (derive_target d) with
  | ViaProxy p name => Some (ser_bin_proxy c p name)
  | ForStruct s => if st_named s then derive_ser_bin_struct c s else derive_ser_bin_struct_unnamed c s
  | ForEnum e => derive_ser_bin_enum c e
  end.
Definition derive_de_bin (d : data) : option str :=
  let c := fst (derive_target d) in
  match snd (derive_target d) with
  | ViaProxy p name => Some (de_bin_proxy c p name)
  | ForStruct s => if st_named s then derive_de_bin_struct c s else derive_de_bin_struct_unnamed c s
  | ForEnum e => derive_de_bin_enum c e
  end.
