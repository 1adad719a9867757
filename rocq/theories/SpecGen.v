(** Specification for C68: the small part of Rust that the binary derive macros
    write, how it is written, and what it does when it runs.

    Trusted here: that rustc gives these programs this meaning. *)
From Verif Require Import Base Types Text TextModel BinModel DeriveModel SpecDerive.
Local Open Scope N_scope.

(** ** Syntax *)

(** Serializers. [self.f] or a local variable. *)
Inductive place := PSelf (f : str) | PVar (x : str).
Inductive sstmt :=
| SSer (p : place)                    (* p.ser_bin(s); *)
| STag (n : N)                        (* 3u16.ser_bin(s); *)
| SLet (p : str) (q : place).         (* let proxy: P = Into::into(&q); *)
Inductive spat := PatUnit | PatTuple (xs : list str) | PatStruct (xs : list str).
Inductive sprog :=
| SBlock (l : list sstmt)
| SMatch (arms : list (str * spat * list sstmt))   (* match self { Self::V pat => { .. } .. } *)
| SProxy (p : str).                   (* let proxy: P = self.into(); proxy.ser_bin(s); *)

(** Deserializers. *)
Inductive dexp :=
| DRead                               (* nanoserde::DeBin::de_bin(o, d)? *)
| DDefault                            (* Default::default() *)
| DVia (p : str).                     (* { let proxy: P = nanoserde::DeBin::de_bin(o, d)?; Into::into(&proxy) } *)
Inductive dcons := CUnit_ | CTuple_ (l : list dexp) | CStruct_ (l : list (str * dexp)).
Inductive dprog :=
| DSelf (l : list (str * dexp))       (* Ok(Self { f: e, .. }) *)
| DMatch (arms : list (N * str * dcons)) (* let id: u16 = de_bin(o, d)?; Ok(match id { 3u16 => Self::V .., unknown => Err }) *)
| DProxy_ (p : str).

(** ** How it is written (to the blank) *)
Definition place_text (p : place) : str := match p with PSelf f => chars "self." ++ f | PVar x => x end.
Definition sstmt_text (s : sstmt) : str :=
  match s with
  | SSer p => place_text p ++ chars ".ser_bin(s);"
  | STag n => dec n ++ chars "u16.ser_bin(s);"
  | SLet p q => chars "let proxy: " ++ p ++ chars " = Into::into(&" ++ place_text q ++ chars ");"
  end.
Definition list_text (l : list str) : str := concat (map (fun x => x ++ chars ", ") l).
(** A unit variant's arm is written without braces. *)
Definition arm_text (a : str * spat * list sstmt) : str :=
  let '(v, p, l) := a in
  chars "Self::" ++ v ++
  match p, l with
  | PatUnit, [STag n] => chars " => " ++ dec n ++ chars "u16.ser_bin(s),"
  | PatUnit, _ => chars " => {" ++ concat (map sstmt_text l) ++ chars "}"
  | PatTuple xs, _ => chars " (" ++ list_text xs ++ chars ") => {" ++ concat (map sstmt_text l) ++ chars "}"
  | PatStruct xs, _ => chars " {" ++ list_text xs ++ chars "} => {" ++ concat (map sstmt_text l) ++ chars "}"
  end.

Section Print.
  Variable crate_ name : str.
  Variable header : str * str.    (* the parameters, and their names *)

  Definition ser_text (p : sprog) : str :=
    chars "impl" ++ fst header ++ chars " " ++ crate_ ++ chars "::SerBin for " ++ name ++ snd header ++ chars " {
            fn ser_bin(&self, s: &mut Vec<u8>) {
                " ++
    match p with
    | SBlock l => concat (map sstmt_text l)
    | SMatch arms => chars "match self {
                  " ++ concat (map arm_text arms) ++ chars "
                }"
    | SProxy p => chars "let proxy: " ++ p ++ chars " = self.into();
                proxy.ser_bin(s);"
    end ++ chars "
            }
        }".

  Definition dexp_text (e : dexp) : str :=
    match e with
    | DRead => crate_ ++ chars "::DeBin::de_bin(o, d)?"
    | DDefault => chars "Default::default()"
    | DVia p => chars "{let proxy: " ++ p ++ chars " = " ++ crate_ ++ chars "::DeBin::de_bin(o, d)?;Into::into(&proxy)}"
    end.
  Definition inits_text (l : list (str * dexp)) : str :=
    concat (map (fun fe => fst fe ++ chars ": " ++ dexp_text (snd fe) ++ chars ",") l).
  Definition darm_text (a : N * str * dcons) : str :=
    let '(n, v, c) := a in
    dec n ++ chars "u16 => Self::" ++ v ++
    match c with
    | CUnit_ => []
    | CTuple_ l => chars " (" ++ concat (map (fun e => dexp_text e ++ chars ",") l) ++ chars ")"
    | CStruct_ l => chars " {" ++ inits_text l ++ chars "}"
    end ++ chars ",".
  Definition de_text (p : dprog) : str :=
    chars "impl" ++ fst header ++ chars " " ++ crate_ ++ chars "::DeBin for " ++ name ++ snd header ++ chars " {
            fn de_bin(o:&mut usize, d:&[u8]) -> ::core::result::Result<Self, " ++ crate_ ++ chars "::DeBinErr> {
                " ++
    match p with
    | DSelf l => chars "::core::result::Result::Ok(Self {
                    " ++ inits_text l ++ chars "
                })"
    | DMatch arms => chars "let id: u16 = " ++ crate_ ++ chars "::DeBin::de_bin(o,d)?;
                Ok(match id {
                    " ++ concat (map darm_text arms) ++ chars "
                    unknown => return ::core::result::Result::Err(" ++ crate_ ++ chars "::DeBinErr{o: 0, msg: " ++ crate_ ++ chars "::DeBinErrReason::UnknownDiscriminant(unknown as isize)})
                })"
    | DProxy_ p => chars "let proxy: " ++ p ++ chars " = " ++ crate_ ++ chars "::DeBin::de_bin(o, d)?;
                ::core::result::Result::Ok(Into::into(&proxy))"
    end ++ chars "
            }
        }".
End Print.

(** ** The item the code is for: field names with their types' texts (the fields of
    a tuple struct are called 0, 1, ..), or variants. *)
Inductive vshape := VsUnit | VsTuple (ts : list str) | VsStruct (fs : list (str * str)).
Inductive ishape := IStruct (fs : list (str * str)) | IEnum (vs : list (str * vshape)).

Fixpoint numbered (n : N) (l : list str) : list (str * str) :=
  match l with [] => [] | t :: r => (dec n, t) :: numbered (n + 1) r end.
Definition shape_of (d : sdef) : ishape :=
  match sd_body d with
  | KNamed fs _ => IStruct (map (fun f => (sf_name f, ty_text (sf_type f))) fs)
  | KTuple fs _ => IStruct (numbered 0 (map (fun f => ty_text (sf_type f)) fs))
  | KUnit => IStruct []
  | KEnum vs _ =>
    IEnum (map (fun v => (sv_name v,
             match sv_payload v with
             | PUnit => VsUnit
             | PTuple ts _ => VsTuple (map ty_text ts)
             | PStruct fs _ => VsStruct (map (fun f => (sf_name f, ty_text (sf_type f))) fs)
             end)) vs)
  end.

(** A value of the item: a sequence with one entry per field, or the number of a
    variant with one entry per field of it. *)
Definition instance (i : ishape) (v : val) : Prop :=
  match i, v with
  | IStruct fs, VSeq l => length l = length fs
  | IEnum vs, VEnum tag l =>
    exists nm sh, nth_error vs (N.to_nat tag) = Some (nm, sh) /\
      length l = match sh with VsUnit => 0%nat | VsTuple ts => length ts | VsStruct fs => length fs end
  | _, _ => False
  end.

(** ** Running it *)
Fixpoint assoc {A} (x : str) (l : list (str * A)) : option A :=
  match l with [] => None | (y, a) :: r => if str_eqb y x then Some a else assoc x r end.

Section Run.
  Variable typ : str -> ty.                     (* the type a text stands for *)
  Variable dflt : str -> val.                   (* Default::default() of that type *)
  Variable conv : str -> str -> proxy.          (* From<&T> for P, and back *)
  Variable name : str.                          (* of the item *)
  Variable item : ishape.

  Section Ser.
    Variable ser : ty -> val -> list N -> sres.   (* SerBin::ser_bin at other types *)
    (** Variables and the fields of [self], with the texts of their types. *)
    Definition vars := list (str * (str * val)).

    Definition look (self_ loc : vars) (p : place) : option (str * val) :=
      match p with PSelf f => assoc f self_ | PVar x => assoc x loc end.
    Fixpoint run_stmts (self_ loc : vars) (l : list sstmt) (out : list N) : sres :=
      match l with
      | [] => Ok out
      | SSer p :: r =>
        match look self_ loc p with
        | Some (t, v) => rbind (ser (typ t) v out) (run_stmts self_ loc r)
        | None => Panic PNotCompiled
        end
      | STag n :: r =>
        (* a literal out of range is not compiled *)
        if n <? 65536 then rbind (ser (TInt U16) (VZ (Z.of_N n)) out) (run_stmts self_ loc r)
        else Panic PNotCompiled
      | SLet p q :: r =>
        match look self_ loc q with
        | Some (t, v) => run_stmts self_ ((chars "proxy", (p, p_to (conv t p) v)) :: loc) r out
        | None => Panic PNotCompiled
        end
      end.

    (** A pattern binds every field of the variant, by position or by name; the
        parameter [s] must not be hidden. *)
    Definition bind_pat (p : spat) (sh : vshape) (l : list val) : option vars :=
      match p, sh with
      | PatUnit, VsUnit => Some []
      | PatTuple xs, VsTuple ts =>
        if Nat.eqb (length xs) (length ts) then Some (combine xs (combine ts l)) else None
      | PatStruct xs, VsStruct fs =>
        if existsb (str_eqb (chars "s")) xs then None
        else if forallb (fun f => existsb (str_eqb (fst f)) xs) fs && forallb (fun x => existsb (str_eqb x) (map fst fs)) xs
        then Some (combine (map fst fs) (combine (map snd fs) l)) else None
      | _, _ => None
      end.
    (** The first arm for the variant. *)
    Fixpoint pick (v : str) (arms : list (str * spat * list sstmt)) : option (spat * list sstmt) :=
      match arms with
      | [] => None
      | (v', p, l) :: r => if str_eqb v' v then Some (p, l) else pick v r
      end.

    Definition run_ser (g : sprog) (v : val) (out : list N) : sres :=
      match g, item, v with
      | SBlock l, IStruct fs, VSeq vs => run_stmts (combine (map fst fs) (combine (map snd fs) vs)) [] l out
      | SMatch arms, IEnum vs, VEnum tag l =>
        match nth_error vs (N.to_nat tag) with
        | Some (nm, sh) =>
          match pick nm arms with
          | Some (p, b) => match bind_pat p sh l with Some loc => run_stmts [] loc b out | None => Panic PNotCompiled end
          | None => Panic PNotCompiled
          end
        | None => Panic PIllTyped
        end
      | SProxy p, _, _ => ser (typ p) (p_to (conv name p) v) out
      | _, _, _ => Panic PNotCompiled
      end.
  End Ser.

  Section De.
    Variable de : ty -> bm val.                   (* DeBin::de_bin at other types *)

    Definition run_exp (e : dexp) (t : str) : bm val :=
      match e with
      | DRead => de (typ t)
      | DDefault => bret (dflt t)
      | DVia p => bbind (de (typ p)) (fun v => bret (p_from (conv t p) v))
      end.
    (** The expressions of a struct literal run in the order they are written. *)
    Fixpoint run_inits (fs : list (str * str)) (l : list (str * dexp)) : bm (list (str * val)) :=
      match l with
      | [] => bret []
      | (f, e) :: r =>
        match assoc f fs with
        | None => bfail (Panic PNotCompiled)
        | Some t => bbind (run_exp e t) (fun v => bbind (run_inits fs r) (fun vs => bret ((f, v) :: vs)))
        end
      end.
    (** The value has its fields in the order of the definition; none may be missing
        or written twice. *)
    Fixpoint collect (fs : list (str * str)) (l : list (str * val)) : option (list val) :=
      match fs with
      | [] => Some []
      | (f, _) :: r => match assoc f l, collect r l with Some v, Some vs => Some (v :: vs) | _, _ => None end
      end.
    Definition run_literal (fs : list (str * str)) (l : list (str * dexp)) : bm (list val) :=
      if negb (Nat.eqb (length l) (length fs)) then bfail (Panic PNotCompiled) else
      bbind (run_inits fs l) (fun vs => match collect fs vs with Some r => bret r | None => bfail (Panic PNotCompiled) end).
    Fixpoint run_args (ts : list str) (l : list dexp) : bm (list val) :=
      match ts, l with
      | [], [] => bret []
      | t :: ts', e :: r => bbind (run_exp e t) (fun v => bbind (run_args ts' r) (fun vs => bret (v :: vs)))
      | _, _ => bfail (Panic PNotCompiled)
      end.
    (** The number of a variant and its fields. *)
    Fixpoint find_shape (v : str) (n : N) (vs : list (str * vshape)) : option (N * vshape) :=
      match vs with
      | [] => None
      | (v', sh) :: r => if str_eqb v' v then Some (n, sh) else find_shape v (n + 1) r
      end.
    Fixpoint pick_lit (n : N) (arms : list (N * str * dcons)) : option (str * dcons) :=
      match arms with
      | [] => None
      | (n', v, c) :: r => if n' =? n then Some (v, c) else pick_lit n r
      end.
    Definition run_de (g : dprog) : bm val :=
      match g, item with
      | DSelf l, IStruct fs => bbind (run_literal fs l) (fun vs => bret (VSeq vs))
      | DMatch arms, IEnum vs =>
        bbind (de (TInt U16)) (fun id =>
        match id with
        | VZ z =>
          match pick_lit (Z.to_N z) arms with
          | None => bfail (Err {| e_o := 0; e_msg := EDiscriminant (Z.to_N z) |})
          | Some (v, c) =>
            match find_shape v 0 vs, c with
            | Some (tag, VsUnit), CUnit_ => bret (VEnum tag [])
            | Some (tag, VsTuple ts), CTuple_ l => bbind (run_args ts l) (fun vs => bret (VEnum tag vs))
            | Some (tag, VsStruct fs), CStruct_ l => bbind (run_literal fs l) (fun vs => bret (VEnum tag vs))
            | _, _ => bfail (Panic PNotCompiled)
            end
          end
        | _ => bfail (Panic PIllTyped)
        end)
      | DProxy_ p, _ => bbind (de (typ p)) (fun v => bret (p_from (conv name p) v))
      | _, _ => bfail (Panic PNotCompiled)
      end.
  End De.
End Run.

(** ** The definitions the property is about *)

(** What rustc asks of any definition: fields and variants have different names, at
    most 2^16 variants so that all numbers are u16. *)
Definition rust_ok (d : sdef) : Prop :=
  match sd_body d with
  | KNamed fs _ => NoDup (map sf_name fs)
  | KTuple _ _ | KUnit => True
  | KEnum vs _ =>
    NoDup (map sv_name vs) /\ (lenN vs <= 65536) /\
    Forall (fun v => match sv_payload v with PStruct fs _ => NoDup (map sf_name fs) | _ => True end) vs
  end.
(** Fields of struct-like variants have no proxy ([C68_refuted_variant_attributes]: it is
    ignored) and are not called [s] ([C68_refuted_s]: that does not compile). *)
Definition variants_plain (d : sdef) : Prop :=
  match sd_body d with
  | KEnum vs _ =>
    Forall (fun v => match sv_payload v with
                     | PStruct fs _ => Forall (fun f => value_in (chars "proxy") (items (sf_attrs f)) = None /\ sf_name f <> chars "s") fs
                     | _ => True end) vs
  | _ => True
  end.
(** An item with a proxy has no generic parameters (they are not written), and is a
    struct ([C51_refuted_enum]). *)
Definition proxy_plain (d : sdef) : Prop :=
  value_in (chars "proxy") (items (sd_attrs d)) <> None ->
  sd_gens d = [] /\ match sd_body d with KEnum _ _ => False | _ => True end.
(** No field of a tuple struct is skipped ([C68_refuted_tuple_skip]: DeBin's macro
    panics). *)
Definition tuple_plain (d : sdef) : Prop :=
  match sd_body d with
  | KTuple fs _ => Forall (fun f => word_in (chars "skip") (items (sf_attrs f)) = false) fs
  | _ => True
  end.

Definition crate_of (d : sdef) : str :=
  match sd_body d, value_in (chars "crate") (items (sd_attrs d)) with
  | KEnum _ _, _ | _, None => chars "nanoserde"
  | _, Some c => c
  end.

(** The world knows every proxy as a pair of conversions around the proxy's type. *)
Definition converts (W : world) (conv : str -> str -> proxy) (name : str) : Prop :=
  (forall t p, w_ty W t (Some p) = TProxy (conv t p) (w_ty W p None)) /\
  (forall p, w_proxy W p = (conv name p, w_ty W p None)).
