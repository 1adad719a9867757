(** Specification for C51 and C53-C55: Rust definitions as they are written, the
    tokens they are made of, and what the derive macros should understand. *)
From Verif Require Import Base Types Text TextModel DeriveModel.
Local Open Scope N_scope.

(** ** Syntax *)

(** Types: a path [a::b::C] with generic arguments (types or lifetimes), a tuple (perhaps with a comma
    after the last element), an array (its length a number or the path of a
    constant), a slice, a reference, the never type; a function or closure type with
    at most one argument, [dyn A + B] and [impl A + B], [<T as Trait>::Name], and
    [Iterator<Item = T>] as a bound. *)
Inductive sfn := FnPointer | FnShared | FnMutable | FnOnce_.
Inductive sty :=
| SPath (first : str) (more : list str) (args : list sty)
| STuple (ts : list sty) (trailing : bool)
| SArray (t : sty) (len : N)
| SSlice (t : sty)
| SRef (lifetime : option str) (t : sty)
| SLife (lifetime : str)   (* as a generic argument or a bound *)
| SNever
| SArrayN (t : sty) (first : str) (more : list str)
| SFn (kind : sfn) (arg ret : option sty)
| SObj (is_dyn : bool) (t : sty) (more : list sty)
| SAssoc (first : str) (more : list str) (trait_ : sty) (name : str)
| SBound (first : str) (more : list str) (arg is : sty).

(** What stands in [#[nserde(..)]]: a word, or a word with a literal, [k = "v"]
    or [k = v]. *)
Inductive sitem := IWord (w : str) | IValue (k : str) (quoted : bool) (v : str).
(** An attribute: ours, or somebody else's ([#[doc = ".."]], [#[repr(u8)]]). *)
Inductive sattr := AOurs (first : sitem) (more : list sitem) | AOther (name : str) (rest : list ttree).

Inductive svis := VNone_ | VPub | VPubIn (inner : list ttree).

Record sfield := { sf_attrs : list sattr; sf_vis : svis; sf_name : str; sf_type : sty }.
(** A field of a tuple struct has no name: [sf_name] is not used there. *)

Inductive spayload := PUnit | PTuple (ts : list sty) (trailing : bool) | PStruct (fs : list sfield) (trailing : bool).
(** [sv_value]: the token after [=] of an explicit discriminant. *)
Record svariant := { sv_attrs : list sattr; sv_name : str; sv_payload : spayload; sv_value : option ttree }.

Inductive sbody :=
| KNamed (fs : list sfield) (trailing : bool)
| KTuple (fs : list sfield) (trailing : bool)
| KUnit
| KEnum (vs : list svariant) (trailing : bool).

(** Generic parameters: lifetimes, types with bounds and default, constants. *)
Inductive sgen :=
| SGLife (name : str) (bounds : list str)
| SGType (name : str) (bounds : list sty) (default : option sty)
| SGConst (name : str) (t : sty) (default : option N).

(** A where clause: bounds for a type parameter or [Self], or for a lifetime. *)
Inductive swhere :=
| WType (name : str) (bounds : list sty)
| WLife (name : str) (bounds : list str).

Record sdef := {
  sd_attrs : list sattr; sd_vis : svis; sd_name : str; sd_gens : list sgen;
  sd_where : list swhere; sd_wtrail : bool;   (* a comma after the last clause *)
  sd_body : sbody
}.

(** ** Tokens *)
Definition pc := TPunct 44.   (* , *)
Fixpoint commas (l : list (list ttree)) : list ttree :=
  match l with
  | [] => []
  | [x] => x
  | x :: r => x ++ pc :: commas r
  end.
Definition trail (b : bool) : list ttree := if b then [pc] else [].

Definition toks_more (m : list str) : list ttree :=
  concat (map (fun s => [TPunct 58; TPunct 58; TIdent s]) m).
Definition fn_word (k : sfn) : str :=
  match k with FnPointer => chars "fn" | FnShared => chars "Fn" | FnMutable => chars "FnMut" | FnOnce_ => chars "FnOnce" end.
Definition obj_word (d : bool) : str := if d then chars "dyn" else chars "impl".
Fixpoint toks_ty (t : sty) : list ttree :=
  match t with
  | SPath f m args =>
    TIdent f :: toks_more m ++
    match args with
    | [] => []
    | _ => TPunct 60 :: commas (map toks_ty args) ++ [TPunct 62]
    end
  | STuple ts b => [TGroup DParen (commas (map toks_ty ts) ++ trail b)]
  | SArray t len => [TGroup DBracket (toks_ty t ++ [TPunct 59; TLit (dec len)])]
  | SSlice t => [TGroup DBracket (toks_ty t)]
  | SRef lt t =>
    TPunct 38 :: match lt with Some s => [TPunct 39; TIdent s] | None => [] end ++ toks_ty t
  | SLife s => [TPunct 39; TIdent s]
  | SNever => [TPunct 33]
  | SArrayN t f m => [TGroup DBracket (toks_ty t ++ TPunct 59 :: TIdent f :: toks_more m)]
  | SFn k arg ret =>
    TIdent (fn_word k) :: TGroup DParen (match arg with Some t => toks_ty t | None => [] end) ::
    match ret with Some t => TPunct 45 :: TPunct 62 :: toks_ty t | None => [] end
  | SObj d t more => TIdent (obj_word d) :: toks_ty t ++ concat (map (fun u => TPunct 43 :: toks_ty u) more)
  | SAssoc f m tr nm =>
    TPunct 60 :: TIdent f :: toks_more m ++ TIdent (chars "as") :: toks_ty tr ++ [TPunct 62; TPunct 58; TPunct 58; TIdent nm]
  | SBound f m a i => TIdent f :: toks_more m ++ TPunct 60 :: toks_ty a ++ TPunct 61 :: toks_ty i ++ [TPunct 62]
  end.

Definition toks_item (i : sitem) : list ttree :=
  match i with
  | IWord w => [TIdent w]
  | IValue k q v => [TIdent k; TPunct 61; TLit (if q then 34 :: v ++ [34] else v)]
  end.
Definition toks_attr (a : sattr) : list ttree :=
  match a with
  | AOurs i m => [TPunct 35; TGroup DBracket [TIdent nserde; TGroup DParen (commas (map toks_item (i :: m)))]]
  | AOther name rest => [TPunct 35; TGroup DBracket (TIdent name :: rest)]
  end.
Definition toks_attrs (l : list sattr) : list ttree := concat (map toks_attr l).

Definition toks_vis (v : svis) : list ttree :=
  match v with
  | VNone_ => []
  | VPub => [TIdent (chars "pub")]
  | VPubIn i => [TIdent (chars "pub"); TGroup DParen i]
  end.

Definition toks_named (f : sfield) : list ttree :=
  toks_attrs (sf_attrs f) ++ toks_vis (sf_vis f) ++ TIdent (sf_name f) :: TPunct 58 :: toks_ty (sf_type f).
Definition toks_unnamed (f : sfield) : list ttree :=
  toks_attrs (sf_attrs f) ++ toks_vis (sf_vis f) ++ toks_ty (sf_type f).
Definition toks_fields (toks : sfield -> list ttree) (fs : list sfield) (b : bool) : list ttree :=
  commas (map toks fs) ++ match fs with [] => [] | _ => trail b end.

Definition toks_payload (p : spayload) : list ttree :=
  match p with
  | PUnit => []
  | PTuple ts b => [TGroup DParen (commas (map toks_ty ts) ++ trail b)]
  | PStruct fs b => [TGroup DBrace (toks_fields toks_named fs b)]
  end.
Definition toks_variant (v : svariant) : list ttree :=
  toks_attrs (sv_attrs v) ++ TIdent (sv_name v) :: toks_payload (sv_payload v) ++
  match sv_value v with Some t => [TPunct 61; t] | None => [] end.

Fixpoint pluses (l : list (list ttree)) : list ttree :=
  match l with
  | [] => []
  | [x] => x
  | x :: r => x ++ TPunct 43 :: pluses r
  end.
Definition toks_gen (g : sgen) : list ttree :=
  match g with
  | SGLife n bs =>
    TPunct 39 :: TIdent n ::
    match bs with [] => [] | _ => TPunct 58 :: pluses (map (fun b => [TPunct 39; TIdent b]) bs) end
  | SGType n bs d =>
    TIdent n :: match bs with [] => [] | _ => TPunct 58 :: pluses (map toks_ty bs) end ++
    match d with Some t => TPunct 61 :: toks_ty t | None => [] end
  | SGConst n t d =>
    TIdent (chars "const") :: TIdent n :: TPunct 58 :: toks_ty t ++
    match d with Some v => [TPunct 61; TLit (dec v)] | None => [] end
  end.
Definition toks_gens (l : list sgen) : list ttree :=
  match l with [] => [] | _ => TPunct 60 :: commas (map toks_gen l) ++ [TPunct 62] end.

Definition toks_where1 (w : swhere) : list ttree :=
  match w with
  | WType n bs => TIdent n :: TPunct 58 :: pluses (map toks_ty bs)
  | WLife n bs => TPunct 39 :: TIdent n :: TPunct 58 :: pluses (map (fun b => [TPunct 39; TIdent b]) bs)
  end.
Definition toks_where (l : list swhere) (b : bool) : list ttree :=
  match l with [] => [] | _ => TIdent (chars "where") :: commas (map toks_where1 l) ++ trail b end.

Definition toks_def (d : sdef) : list ttree :=
  toks_attrs (sd_attrs d) ++ toks_vis (sd_vis d) ++
  match sd_body d with
  | KNamed fs b => TIdent (chars "struct") :: TIdent (sd_name d) :: toks_gens (sd_gens d) ++ toks_where (sd_where d) (sd_wtrail d) ++ [TGroup DBrace (toks_fields toks_named fs b)]
  | KTuple fs b => TIdent (chars "struct") :: TIdent (sd_name d) :: toks_gens (sd_gens d) ++ [TGroup DParen (toks_fields toks_unnamed fs b); TPunct 59]
  | KUnit => TIdent (chars "struct") :: TIdent (sd_name d) :: toks_gens (sd_gens d) ++ [TPunct 59]
  | KEnum vs b =>
    TIdent (chars "enum") :: TIdent (sd_name d) :: toks_gens (sd_gens d) ++ toks_where (sd_where d) (sd_wtrail d) ++
    [TGroup DBrace (commas (map toks_variant vs) ++ match vs with [] => [] | _ => trail b end)]
  end.

(** ** What a reader of the definition sees *)

(** The text of a type. *)
Fixpoint ty_text (t : sty) : str :=
  match t with
  | SPath f m args =>
    joins (chars "::") (f :: m) ++
    match args with [] => [] | _ => chars "<" ++ joins (chars ",") (map ty_text args) ++ chars ">" end
  | STuple ts b =>
    chars "(" ++ joins (chars ", ") (map ty_text ts) ++
    (match ts with [] => [] | _ => if b then chars ", " else [] end) ++ chars ")"
  | SArray t len => chars "[" ++ ty_text t ++ chars ";" ++ dec len ++ chars "]"
  | SSlice t => chars "[" ++ ty_text t ++ chars "]"
  | SRef lt t =>
    (match lt with Some s => chars "&'" ++ s ++ chars " " | None => chars "& " end) ++ ty_text t
  | SLife s => chars "'" ++ s
  | SNever => chars "!"
  | SArrayN t f m => chars "[" ++ ty_text t ++ chars ";" ++ joins (chars "::") (f :: m) ++ chars "]"
  | SFn k arg ret =>
    fn_word k ++ chars "(" ++ (match arg with Some t => ty_text t | None => [] end) ++ chars ")" ++
    match ret with Some t => chars " -> " ++ ty_text t | None => [] end
  | SObj d t more => obj_word d ++ chars " " ++ joins (chars " + ") (ty_text t :: map ty_text more)
  | SAssoc f m tr nm => chars "<" ++ joins (chars "::") (f :: m) ++ chars " as " ++ ty_text tr ++ chars ">::" ++ nm
  | SBound f m a i => joins (chars "::") (f :: m) ++ chars "<" ++ ty_text a ++ chars "= " ++ ty_text i ++ chars ">"
  end.

(** Our attributes, in order. *)
Definition items (l : list sattr) : list sitem :=
  concat (map (fun a => match a with AOurs i m => i :: m | AOther _ _ => [] end) l).
Definition attr_of (i : sitem) : attribute :=
  match i with
  | IWord w => {| a_name := nserde; a_tokens := [w] |}
  | IValue k _ v => {| a_name := nserde; a_tokens := [k; v] |}
  end.

(** ** Definitions the property is about *)

(** Words that mean something at the beginning of a type. *)
Definition type_keyword (s : str) : bool :=
  existsb (str_eqb s) [chars "fn"; chars "Fn"; chars "FnMut"; chars "FnOnce"; chars "impl"; chars "dyn"].

Definition name_ok (s : str) : Prop := s <> [] /\ type_keyword s = false.
(** Types that a plus sign behind them would belong to. *)
Fixpoint open_end (t : sty) : bool :=
  match t with
  | SObj _ _ _ => true
  | SRef _ t => open_end t
  | SFn _ _ (Some t) => open_end t
  | _ => false
  end.

Fixpoint ty_ok (t : sty) : Prop :=
  match t with
  | SPath f _ args =>
    f <> [] /\ type_keyword f = false /\
    (fix go (l : list sty) := match l with [] => True | t :: r => ty_ok t /\ go r end) args
  | STuple ts b =>
    (ts = [] -> b = false) /\
    (fix go (l : list sty) := match l with [] => True | t :: r => ty_ok t /\ go r end) ts
  | SArray t len => ty_ok t /\ len < 2 ^ 63
  | SSlice t => ty_ok t
  | SRef _ t => ty_ok t /\ match t with SRef _ _ | SLife _ | SNever => False | _ => True end
  | SLife _ => True
  | SNever => True
  | SArrayN t f _ => ty_ok t /\ name_ok f /\ forallb is_digit f = false
  | SFn _ arg ret =>
    match arg with Some t => ty_ok t | None => True end /\
    match ret with Some t => ty_ok t | None => True end
  | SObj _ t more =>
    ty_ok t /\ open_end t = false /\ match t with SRef _ _ => False | _ => True end /\
    (fix go (l : list sty) := match l with [] => True | u :: r => (ty_ok u /\ open_end u = false) /\ go r end) more
  | SAssoc f _ tr nm => name_ok f /\ ty_ok tr /\ name_ok nm
  | SBound f _ a i => name_ok f /\ ty_ok a /\ ty_ok i
  end.

(** A literal that is not a string does not begin with a quote. *)
Definition item_ok (i : sitem) : Prop :=
  match i with IValue _ false (c :: _) => c <> 34 | _ => True end.
Definition attr_ok (a : sattr) : Prop :=
  match a with AOurs i m => Forall item_ok (i :: m) | AOther name _ => name <> nserde end.
Definition attrs_ok (l : list sattr) : Prop := Forall attr_ok l.

Definition named_ok (f : sfield) : Prop :=
  attrs_ok (sf_attrs f) /\ ty_ok (sf_type f) /\
  (sf_vis f = VNone_ -> sf_name f <> chars "pub").
(** In a tuple struct: a field that begins with a type must not begin with
    punctuation, and after a bare [pub] it must not begin with a parenthesis
    (C53_refuted_*: the macros misread these). *)
Definition unnamed_ok (f : sfield) : Prop :=
  attrs_ok (sf_attrs f) /\ ty_ok (sf_type f) /\
  match sf_vis f, sf_type f with
  | VNone_, (SRef _ _ | SLife _ | SNever | SAssoc _ _ _ _) => False
  | VNone_, (SPath n _ _ | SBound n _ _ _) => n <> chars "pub"
  | VPub, STuple _ _ => False
  | _, _ => True
  end.
(** A tuple payload has an element and no comma after the last one
    (C53_refuted_trailing: the macros see one more element otherwise). *)
Definition payload_ok (p : spayload) : Prop :=
  match p with
  | PUnit => True
  | PTuple ts b => ts <> [] /\ b = false /\ Forall ty_ok ts
  | PStruct fs _ => Forall named_ok fs
  end.
Definition variant_ok (v : svariant) : Prop :=
  attrs_ok (sv_attrs v) /\ payload_ok (sv_payload v).

Definition gen_name (g : sgen) : str :=
  match g with SGLife n _ => n | SGType n _ _ => n | SGConst n _ _ => n end.
Definition bound_ok (t : sty) : Prop := ty_ok t /\ open_end t = false.
Definition gen_ok (g : sgen) : Prop :=
  match g with
  | SGLife _ _ => True
  | SGType n bs d =>
    n <> [] /\ type_keyword n = false /\ n <> chars "const" /\
    Forall bound_ok bs /\ match d with Some t => ty_ok t | None => True end
  | SGConst _ t d => ty_ok t /\ match d with Some v => v < 2 ^ 63 | None => True end
  end.

Definition self := chars "Self".
Definition where_ok (gs : list sgen) (w : swhere) : Prop :=
  match w with
  | WType n bs =>
    bs <> [] /\ Forall bound_ok bs /\ (n = self \/ exists b d, In (SGType n b d) gs)
  | WLife n bs => bs <> [] /\ exists b, In (SGLife n b) gs
  end.
Definition is_self (w : swhere) : bool :=
  match w with WType n _ => str_eqb n self | WLife _ _ => false end.

(** A where clause is read after generic parameters and before braces; [Self] may
    have one clause. *)
Definition def_ok (d : sdef) : Prop :=
  attrs_ok (sd_attrs d) /\ (forall i, sd_vis d <> VPubIn i) /\
  Forall gen_ok (sd_gens d) /\ NoDup (self :: map gen_name (sd_gens d)) /\
  Forall (where_ok (sd_gens d)) (sd_where d) /\ (length (filter is_self (sd_where d)) <= 1)%nat /\
  (sd_gens d = [] -> sd_where d = []) /\
  match sd_body d with
  | KNamed fs _ => Forall named_ok fs
  | KTuple fs _ => Forall unnamed_ok fs /\ sd_where d = []
  | KUnit => sd_where d = []
  | KEnum vs _ => Forall variant_ok vs
  end.

(** ** What the macros should have understood *)
Definition field_seen (named : bool) (f : sfield) (p : pfield) : Prop :=
  fl_attrs p = map attr_of (items (sf_attrs f)) /\
  fl_name p = (if named then Some (sf_name f) else None) /\
  full (fl_type p) = ty_text (sf_type f) /\
  (forall n m args, sf_type f = SPath n m args -> base (fl_type p) = joins (chars "::") (n :: m)).

Definition payload_seen (p : spayload) (t : type) : Prop :=
  match p with
  | PUnit => t_ident t = CNone /\ t_wraps t = None
  | PTuple ts _ => exists l, t_ident t = CTuple l /\ map full l = map ty_text ts
  | PStruct fs _ =>
    exists l, t_ident t = CAnonymous (MkStruct None true l [] []) /\ Forall2 (field_seen true) fs l
  end.
Definition variant_seen (v : svariant) (p : pfield) : Prop :=
  fl_attrs p = map attr_of (items (sv_attrs v)) /\
  fl_name p = Some (sv_name v) /\
  payload_seen (sv_payload v) (fl_type p).

(** The bounds that where clauses add. *)
Definition where_types (n : str) (ws : list swhere) : list sty :=
  concat (map (fun w => match w with WType m bs => if str_eqb m n then bs else [] | _ => [] end) ws).
Definition where_lifes (n : str) (ws : list swhere) : list str :=
  concat (map (fun w => match w with WLife m bs => if str_eqb m n then bs else [] | _ => [] end) ws).

Definition gen_seen (ws : list swhere) (g : sgen) (p : generic) : Prop :=
  match g, p with
  | SGLife n bs, GLifetime n' bs' => n' = n /\ bs' = bs ++ where_lifes n ws
  | SGType n bs d, GType n' d' bs' =>
    n' = n /\ map full bs' = map ty_text (bs ++ where_types n ws) /\
    option_map full d' = option_map ty_text d
  | SGConst n t d, GConst n' t' d' =>
    n' = n /\ full t' = ty_text t /\ d' = option_map (fun v => CVal (Z.of_N v)) d
  | _, _ => False
  end.
(** All parameters in order, with all their bounds, and nothing more but a clause
    about [Self]. *)
Definition gens_seen (gs : list sgen) (ws : list swhere) (l : list generic) : Prop :=
  exists l1 l2, l = l1 ++ l2 /\ Forall2 (gen_seen ws) gs l1 /\
    Forall (fun p => exists bs, p = GWhere self bs) l2.

Definition def_seen (d : sdef) (r : data) : Prop :=
  match sd_body d, r with
  | KNamed fs _, DataStruct s =>
    st_name s = Some (sd_name d) /\ st_named s = true /\
    st_attrs s = map attr_of (items (sd_attrs d)) /\ Forall2 (field_seen true) fs (st_fields s) /\
    gens_seen (sd_gens d) (sd_where d) (st_generics s)
  | KTuple fs _, DataStruct s =>
    st_name s = Some (sd_name d) /\ st_named s = false /\
    st_attrs s = map attr_of (items (sd_attrs d)) /\ Forall2 (field_seen false) fs (st_fields s) /\
    gens_seen (sd_gens d) (sd_where d) (st_generics s)
  | KUnit, DataStruct s =>
    st_name s = Some (sd_name d) /\ st_named s = false /\
    st_attrs s = map attr_of (items (sd_attrs d)) /\ st_fields s = [] /\
    gens_seen (sd_gens d) (sd_where d) (st_generics s)
  | KEnum vs _, DataEnum e =>
    en_name e = sd_name d /\ Forall2 variant_seen vs (en_variants e) /\
    gens_seen (sd_gens d) (sd_where d) (en_generics e)
  | _, _ => False
  end.

(** ** What the definition means (C51, C54) *)
Definition word_in (w : str) (l : list sitem) : bool :=
  existsb (fun i => match i with IWord x => str_eqb x w | _ => false end) l.
Fixpoint value_in (k : str) (l : list sitem) : option str :=
  match l with
  | [] => None
  | IValue x _ v :: r => if str_eqb x k then Some v else value_in k r
  | IWord _ :: r => value_in k r
  end.
(** [default] or [default = v], whichever comes first. *)
Fixpoint default_in (l : list sitem) : option (option str) :=
  match l with
  | [] => None
  | IWord x :: r => if str_eqb x (chars "default") then Some None else default_in r
  | IValue x _ v :: r => if str_eqb x (chars "default") then Some (Some v) else default_in r
  end.

Definition is_option (t : sty) : bool :=
  match t with SPath n [] _ => str_eqb n (chars "Option") | _ => false end.
Definition is_string (t : sty) : bool :=
  match t with SPath n [] _ => str_eqb n (chars "String") | _ => false end.
(** One of its immediate components is a String. *)
Fixpoint has_string (t : sty) : bool :=
  match t with
  | SPath _ _ args => existsb is_string args
  | STuple ts _ => existsb is_string ts
  | SArray t _ => is_string t
  | SSlice t => is_string t
  | SRef _ t => has_string t
  | SArrayN t _ _ => is_string t
  | SFn _ arg ret =>
    match ret with Some t => has_string t | None => false end || match arg with Some t => has_string t | None => false end
  | SObj _ t _ => has_string t
  | SBound _ _ a _ => is_string a
  | _ => false
  end.

(** The expression a default stands for: a string for a String, [Some(..)] for an
    Option, otherwise the text itself. *)
Definition string_expr (v : str) : str := chars """" ++ v ++ chars """.to_string()".
Definition default_expr (t : sty) (v : str) : str :=
  if is_option t then chars "Some(" ++ (if has_string t then string_expr v else v) ++ chars ")"
  else if is_string t then string_expr v else v.
Definition source_default (t : sty) (l : list sitem) : option str :=
  match default_in l with
  | Some (Some v) => Some (default_expr t v)
  | Some None => Some (if is_option t then chars "None" else chars "Default::default()")
  | None => match value_in (chars "default_with") l with Some v => Some (v ++ chars "()") | None => None end
  end.

Section Source.
  Variable W : world.
  Definition source_field (named : bool) (f : sfield) : field :=
    let l := items (sf_attrs f) in
    {| f_name := if named then sf_name f else [];
       f_rename := value_in (chars "rename") l;
       f_skip := word_in (chars "skip") l;
       f_isopt := is_option (sf_type f);
       f_default := option_map (w_expr W (ty_text (sf_type f))) (source_default (sf_type f) l);
       f_tydefault := w_default W (ty_text (sf_type f));
       f_null := word_in (chars "serialize_none_as_null") l;
       f_hasproxy := is_some (value_in (chars "proxy") l);
       f_ty := w_ty W (ty_text (sf_type f)) (value_in (chars "proxy") l) |}.
  Definition source_variant (v : svariant) : variant :=
    {| v_name := sv_name v;
       v_rename := value_in (chars "rename") (items (sv_attrs v));
       v_body := match sv_payload v with
                 | PUnit => BUnit
                 | PTuple ts _ => BTuple (map (fun t => w_ty W (ty_text t) None) ts)
                 | PStruct fs _ => BStruct (map (source_field true) fs)
                 end |}.
  Definition source_decl (d : sdef) : decl :=
    let l := items (sd_attrs d) in
    match value_in (chars "proxy") l with
    | Some p => DProxy (fst (w_proxy W p)) (snd (w_proxy W p))
    | None =>
      match sd_body d with
      | KNamed fs _ =>
        DStruct (is_some (default_in l) || is_some (value_in (chars "default_with") l))
                (word_in (chars "serialize_none_as_null") l) (map (source_field true) fs)
      | KTuple fs _ => DTuple (word_in (chars "transparent") l) (map (source_field false) fs)
      | KUnit => DTuple (word_in (chars "transparent") l) []
      | KEnum vs _ => DEnum (map source_variant vs)
      end
    end.
End Source.

(** Defaults whose text the generators understand as above: for JSON not on a type
    such as [Vec<String>], for RON not on [Option<String>] (see the C54 refutations). *)
Definition default_ok (f : fmt) (s : sfield) : Prop :=
  forall v, default_in (items (sf_attrs s)) = Some (Some v) ->
  match f with
  | Json => has_string (sf_type s) = true -> is_option (sf_type s) = true
  | Ron => is_option (sf_type s) = true -> has_string (sf_type s) = false
  end.
Definition all_fields (d : sdef) : list sfield :=
  match sd_body d with
  | KNamed fs _ => fs
  | KTuple fs _ => fs
  | KUnit => []
  | KEnum vs _ => concat (map (fun v => match sv_payload v with PStruct fs _ => fs | _ => [] end) vs)
  end.
Definition container_ok (f : fmt) (d : sdef) : Prop :=
  (f = Ron -> value_in (chars "default_with") (items (sd_attrs d)) = None) /\
  match sd_body d with KEnum _ _ => value_in (chars "proxy") (items (sd_attrs d)) = None | _ => True end.

(** ** The impl header (C55): every parameter with all its bounds, type parameters
    with the trait in addition, and the parameters' names as arguments. *)
Definition bounds_text (l : list str) : str :=
  match l with [] => [] | _ => chars " " ++ joins (chars " + ") l end.
Definition source_param (trait crate_ : str) (ws : list swhere) (g : sgen) : str :=
  match g with
  | SGLife n bs => chars "'" ++ n ++ chars ":" ++ bounds_text (map (fun b => chars "'" ++ b) (bs ++ where_lifes n ws))
  | SGType n bs _ =>
    n ++ chars ":" ++ bounds_text (map ty_text (bs ++ where_types n ws) ++ [crate_ ++ chars "::" ++ trait])
  | SGConst n t _ => chars "const " ++ n ++ chars ":" ++ bounds_text [ty_text t]
  end.
Definition source_arg (g : sgen) : str :=
  match g with SGLife n _ => chars "'" ++ n | SGType n _ _ => n | SGConst n _ _ => n end.
Definition source_header (trait crate_ : str) (d : sdef) : str * str :=
  match sd_gens d with
  | [] => ([], [])
  | gs =>
    (chars "<" ++ concat (map (fun g => source_param trait crate_ (sd_where d) g ++ chars ", ") gs) ++ chars ">",
     chars "<" ++ concat (map (fun g => source_arg g ++ chars ", ") gs) ++ chars ">")
  end.
Definition no_const (d : sdef) : Prop :=
  Forall (fun g => match g with SGConst _ _ _ => False | _ => True end) (sd_gens d).
