(** The derive macros' reader of Rust definitions, derive/src/parse.rs (P), and
    the attribute queries of derive/src/shared.rs (S).  Input: the token trees
    rustc hands to a derive macro. *)
From Verif Require Import Base Types Text TextModel.
Local Open Scope N_scope.

(** ** proc_macro::TokenTree.  An identifier, a punctuation character, a literal
    (its source text) or a delimited group.  A lifetime ['a] is the punctuation
    character ['] followed by an identifier, as in proc_macro. *)
Inductive delim := DParen | DBrace | DBracket | DInvisible.
Inductive ttree :=
| TIdent (s : str)
| TPunct (c : N)
| TLit (s : str)
| TGroup (d : delim) (l : list ttree).

(** [TokenTree::to_string] as far as it is compared with something here: groups
    never equal "<", "where" or a number. *)
Definition tt_text (t : ttree) : str :=
  match t with
  | TIdent s => s
  | TPunct c => [c]
  | TLit s => s
  | TGroup _ _ => chars "(...)"
  end.

(** ** The parsed definition, P:19-153.  [Attribute]: [name] is always "nserde". *)
Record attribute := { a_name : str; a_tokens : list str }.

(** [FnType], P:55-59. *)
Inductive fntype := FnBare | FnClosure (reusable fn_mut : bool).

(** [Category] P:61-100, [Type] P:102-109, [ConstValType] P:49-53, [Field] P:40-47
    (the visibility is always the same and left out), [Generic] P:111-133,
    [Struct] P:135-143. *)
Inductive category :=
| CNever
| CNone
| CArray (content : type) (len : option constval)
| CTuple (contents : list type)
| CNamed (path : str)
| CLifetime (path : str)
| CFn (k : fntype) (args ret : option type)
| CObject (is_dyn : bool) (traits : list type)
| CAssociated (base as_trait associated : type)
| CAssocBound (associated : str) (is : type)
| CAnonymous (contents : struct)
with type := MkType (ident : category) (wraps : option (list type))
                    (ref_type : option (option str)) (as_other : option type)
with constval := CVal (z : Z) | CNam (t : type)
with pfield := MkField (attrs : list attribute) (name : option str) (t : type)
with generic :=
| GConst (name : str) (t : type) (default : option constval)
| GType (name : str) (default : option type) (bounds : list type)
| GLifetime (name : str) (bounds : list str)
| GWhere (name : str) (bounds : list type)
with struct := MkStruct (name : option str) (named : bool) (fields : list pfield)
                        (attrs : list attribute) (generics : list generic).

Definition t_ident (t : type) := match t with MkType i _ _ _ => i end.
Definition t_wraps (t : type) := match t with MkType _ w _ _ => w end.
Definition t_ref (t : type) := match t with MkType _ _ r _ => r end.
Definition t_as (t : type) := match t with MkType _ _ _ a => a end.
Definition fl_attrs (f : pfield) := match f with MkField a _ _ => a end.
Definition fl_name (f : pfield) := match f with MkField _ n _ => n end.
Definition fl_type (f : pfield) := match f with MkField _ _ t => t end.
Definition st_fields (s : struct) := match s with MkStruct _ _ f _ _ => f end.
Definition st_attrs (s : struct) := match s with MkStruct _ _ _ a _ => a end.
Definition st_named (s : struct) := match s with MkStruct _ n _ _ _ => n end.
Definition st_name (s : struct) := match s with MkStruct n _ _ _ _ => n end.
Definition st_generics (s : struct) := match s with MkStruct _ _ _ _ g => g end.
Definition set_attrs (a : list attribute) (s : struct) :=
  match s with MkStruct n nm f _ g => MkStruct n nm f a g end.

(** [Enum] P:145-153; [Data] P:155-160. *)
Record enum := MkEnum { en_name : str; en_variants : list pfield;
                        en_attrs : list attribute; en_generics : list generic }.
Inductive data := DataStruct (s : struct) | DataEnum (e : enum).

(** [set_ref_type], P:460-463. *)
Definition set_ref (r : option (option str)) (t : type) : type :=
  match t with MkType i w _ a => MkType i w r a end.

(** [Generic::full], P:186-193. *)
Definition g_full (g : generic) : str :=
  match g with GConst n _ _ => n | GType n _ _ => n | GLifetime n _ => n | GWhere n _ => n end.

(** ** Running on the rest of the token stream ([Peekable]): a value and the rest,
    or a panic (all errors of the parser are panics). *)
Definition dm (A : Type) := list ttree -> res Empty_set (A * list ttree).
Definition dret {A} (a : A) : dm A := fun l => Ok (a, l).
Definition dpanic {A} (p : panic) : dm A := fun _ => Panic p.
Definition dbind {A B} (m : dm A) (f : A -> dm B) : dm B := fun l =>
  match m l with
  | Ok (a, l') => f a l'
  | Err e => Err e
  | Panic p => Panic p
  | NoFuel => NoFuel
  end.
Notation "'do' x <- m ; f" := (dbind m (fun x => f)) (at level 200, x name, m at level 100, f at level 200).

(** [.expect(..)] / [.unwrap()]. *)
Definition dexpect {A} (o : option A) : dm A :=
  match o with Some a => dret a | None => dpanic PUnwrap end.
(** Run on another stream (the inside of a group); what it leaves is dropped. *)
Definition dinside {A} (m : dm A) (inner : list ttree) : dm A := fun l =>
  match m inner with
  | Ok (a, _) => Ok (a, l)
  | Err e => Err e
  | Panic p => Panic p
  | NoFuel => NoFuel
  end.

(** Join strings with a separator ([slice::join]). *)
Fixpoint joins (sep : str) (l : list str) : str :=
  match l with
  | [] => []
  | [x] => x
  | x :: r => x ++ sep ++ joins sep r
  end.

(** ** Type text: [Type::full] P:436-458, [Type::base] P:423-434, and
    [Category::path] P:329-420.  The [as_other] of an array length is printed as
    in P:345-350. *)
Definition ref_text (r : option (option str)) : str :=
  match r with
  | Some (Some i) => chars "&'" ++ i ++ chars " "
  | Some None => chars "& "
  | None => []
  end.

Definition dec_z_text (z : Z) : str := dec_z z.

Fixpoint full (t : type) : str :=
  match t with
  | MkType ident wraps ref_type as_other =>
    ref_text ref_type ++
    match ident with
    | CArray c len =>
      match len with
      | Some (CVal z) => chars "[" ++ full c ++ chars ";" ++ dec_z_text z ++ chars "]"
      | Some (CNam g) =>
        match g with
        | MkType gi gw gr (Some a) =>
          chars "[" ++ full c ++ chars ";" ++ full g ++ chars " as " ++ full a ++ chars "]"
        | _ => chars "[" ++ full c ++ chars ";" ++ full g ++ chars "]"
        end
      | None => chars "[" ++ full c ++ chars "]"
      end
    | CTuple l => chars "(" ++ joins (chars ", ") (map full l) ++ chars ")"
    | CNamed p =>
      p ++ match wraps with
           | Some w => chars "<" ++ joins (chars ",") (map full w) ++ chars ">"
           | None => []
           end
    | CObject d l =>
      (if d then chars "dyn " else chars "impl ") ++ joins (chars " + ") (map full l)
    | CAssociated b a s =>
      chars "<" ++ full b ++ chars " as " ++ full a ++ chars ">::" ++ full s
    | CAssocBound a i =>
      a ++ chars "<" ++ match wraps with Some (w :: _) => full w | _ => [] end
        ++ chars "= " ++ full i ++ chars ">"
    | CLifetime p => chars "'" ++ p
    | CFn k args ret =>
      (match k with
       | FnBare => chars "fn("
       | FnClosure true true | FnClosure false true => chars "FnMut("
       | FnClosure true false => chars "Fn("
       | FnClosure false false => chars "FnOnce("
       end) ++ match args with Some a => full a | None => [] end ++ chars ")"
       ++ match ret with Some r => chars " -> " ++ full r | None => [] end
    | CNever => chars "!"
    | CNone => []
    | CAnonymous _ => chars "{...}"   (* never pasted into code; not modelled *)
    end
  end.

(** [Type::base] for what it is compared with ("Option", "String"): the path of a
    named type, preceded by the reference mark. *)
Definition base (t : type) : str :=
  match t with
  | MkType (CNamed p) _ r _ => ref_text r ++ p
  | _ => full t
  end.

(** ** Primitive readers *)

(** [next_punct], P:486-493; [next_exact_punct], P:495-507. *)
Definition next_punct : dm (option N) := fun l =>
  match l with TPunct c :: r => Ok (Some c, r) | _ => Ok (None, l) end.
Definition next_exact (c : N) : dm bool := fun l =>
  match l with
  | TPunct c' :: r => if c' =? c then Ok (true, r) else Ok (false, l)
  | _ => Ok (false, l)
  end.
(** [next_literal], P:509-524: the quotes of a string literal are cut off. *)
Definition unquote (s : str) : str :=
  match s with
  | c :: r => if c =? 34 then removelast r else s
  | [] => s
  end.
Definition next_literal : dm (option str) := fun l =>
  match l with TLit s :: r => Ok (Some (unquote s), r) | _ => Ok (None, l) end.
(** [next_eof], P:526-532. *)
Definition next_eof : dm bool := fun l => Ok (match l with [] => true | _ => false end, l).
(** [next_ident], P:534-542; [next_group], P:544-554. *)
Definition next_ident : dm (option str) := fun l =>
  match l with TIdent s :: r => Ok (Some s, r) | _ => Ok (None, l) end.
Definition next_group : dm (option (delim * list ttree)) := fun l =>
  match l with TGroup d i :: r => Ok (Some (d, i), r) | _ => Ok (None, l) end.

(** [next_visibility_modifier], P:466-484. *)
Definition next_visibility : dm unit := fun l =>
  match l with
  | TIdent s :: r =>
    if str_eqb s (chars "pub") then
      match r with
      | TGroup DParen _ :: r' => Ok (tt, r')
      | _ => Ok (tt, r)
      end
    else Ok (tt, l)
  | _ => Ok (tt, l)
  end.

(** [next_lifetime], P:560-572. *)
Definition next_lifetime : dm (option str) := fun l =>
  match l with
  | TPunct c :: r =>
    if c =? 39 then (do i <- next_ident; do s <- dexpect i; dret (Some s)) r else Ok (None, l)
  | _ => Ok (None, l)
  end.

(** ** Attributes: [next_attribute], P:1029-1103 *)

(** The loop over the arguments, P:1059-1100; [toks] are the tokens collected for
    the current attribute. *)
Definition nserde := chars "nserde".
Definition mk_attr (toks : list str) : attribute := {| a_name := nserde; a_tokens := toks |}.
Fixpoint attr_args (n : nat) (toks : list str) (attrs : list attribute) : dm (list attribute) :=
  match n with
  | O => fun _ => NoFuel
  | S n' =>
    do i <- next_ident;
    do name <- dexpect i;
    do eof <- next_eof;
    do p <- next_punct;
    let toks1 := toks ++ [name] in
    if eof then dret (attrs ++ [mk_attr toks1])
    else if match p with Some c => c =? 44 | None => false end
    then attr_args n' [] (attrs ++ [mk_attr toks1])
    else
      do v <- next_literal;
      do value <- dexpect v;
      do eof2 <- next_eof;
      do p2 <- next_punct;
      let toks2 := toks1 ++ [value] in
      if eof2 then dret (attrs ++ [mk_attr toks2])
      else if match p2 with Some c => c =? 44 | None => false end
      then attr_args n' [] (attrs ++ [mk_attr toks2])
      else attr_args n' toks2 attrs
  end.

(** One attribute: [None] = not an attribute (a punctuation character other than
    the hash sign has then been swallowed); [Some None] = somebody else's. *)
Definition next_attribute (n : nat) : dm (option (option (list attribute))) :=
  do p <- next_punct;
  if match p with Some c => c =? 35 | None => false end then
    do g <- next_group;
    do gi <- dexpect g;
    dinside
      (do i <- next_ident;
       do name <- dexpect i;
       if str_eqb name nserde then
         do g2 <- next_group;
         do gi2 <- dexpect g2;
         dinside (do l <- attr_args n [] []; dret (Some (Some l))) (snd gi2)
       else dret (Some None)) (snd gi)
  else dret None.

(** [next_attributes_list], P:1105-1115. *)
Fixpoint next_attributes (n : nat) (acc : list attribute) : dm (list attribute) :=
  match n with
  | O => fun _ => NoFuel
  | S n' =>
    do a <- next_attribute n';
    match a with
    | Some (Some l) => next_attributes n' (acc ++ l)
    | Some None => next_attributes n' acc
    | None => dret acc
    end
  end.

(** [str::parse::<usize>] of the length of an array on the compiler's host
    (64 bit): digits only (a literal has no sign), below 2^64. *)
Definition parse_usize (s : str) : option N :=
  match s with
  | [] => None
  | _ => if forallb is_digit s && (digits_val s <? 2 ^ 64) then Some (digits_val s) else None
  end.
(** [val as isize]. *)
Definition as_isize (v : N) : Z := if v <? 2 ^ 63 then Z.of_N v else (Z.of_N v - 2 ^ 64)%Z.
(** [str::parse::<isize>] of one token: no sign can be part of it. *)
Definition parse_isize (s : str) : option Z :=
  match parse_usize s with
  | Some v => if v <? 2 ^ 63 then Some (Z.of_N v) else None
  | None => None
  end.

Definition no_type : type := MkType CNone None None None.

Section WithType.
  (** [next_type], called recursively, and the fuel of the loops. *)
  Variable nt : dm (option type).
  Variable n : nat.

  Definition nt_expect : dm type := do o <- nt; dexpect o.

  (** [as_associated_definition], P:575-586; [as_other_type], P:587-598. *)
  Definition as_assoc : dm (option type) := fun l =>
    match l with
    | TPunct c :: r => if c =? 61 then (do t <- nt_expect; dret (Some t)) r else Ok (None, l)
    | _ => Ok (None, l)
    end.
  Definition as_other : dm (option type) := fun l =>
    match l with
    | TIdent s :: r =>
      if str_eqb s (chars "as") then (do t <- nt_expect; dret (Some t)) r else Ok (None, l)
    | _ => Ok (None, l)
    end.

  (** [next_array], P:599-646, on the inside of the brackets. *)
  Definition next_array : dm type :=
    do c <- nt_expect;
    do semi <- next_exact 59;
    if semi then fun l =>
      match l with
      | [] => Panic PUnwrap
      | k :: _ =>
        match parse_usize (tt_text k) with
        | Some v => Ok (MkType (CArray c (Some (CVal (as_isize v)))) (Some [c]) None None, l)
        | None =>
          (do t <- nt_expect; dret (MkType (CArray c (Some (CNam t))) (Some [c]) None None)) l
        end
      end
    else dret (MkType (CArray c None) (Some [c]) None None).

  (** [next_tuple], P:648-674, on the inside of the parentheses. *)
  Fixpoint tuple_loop (k : nat) (acc : list type) : dm (list type) :=
    match k with
    | O => fun _ => NoFuel
    | S k' =>
      do o <- nt;
      match o with
      | None => dret acc
      | Some t =>
        do comma <- next_exact 44;
        if comma then tuple_loop k' (acc ++ [t]) else dret (acc ++ [t])
      end
    end.
  Definition next_tuple : dm type :=
    do l <- tuple_loop n [];
    dret (MkType (CTuple l) (Some l) None None).

  (** [next_return_type], P:679-694. *)
  Definition next_return : dm (option type) := fun l =>
    match l with
    | TPunct a :: TPunct b :: r =>
      if (a =? 45) && (b =? 62) then (do t <- nt_expect; dret (Some t)) r else Ok (None, l)
    | _ => Ok (None, l)
    end.
  Definition opt_wraps (o : option type) : list type :=
    match o with Some t => match t_wraps t with Some w => w | None => [] end | None => [] end.
  (** [next_closure], P:696-735. *)
  Definition next_closure (reusable fn_mut : bool) : dm type :=
    do g <- next_group;
    do args <- match g with
               | Some (_, i) => do t <- dinside nt_expect i; dret (Some t)
               | None => dret None
               end;
    do ret <- next_return;
    let wraps := match args, ret with
                 | None, None => None
                 | _, _ => Some (opt_wraps ret ++ opt_wraps args)
                 end in
    dret (MkType (CFn (FnClosure reusable fn_mut) args ret) wraps None None).
  (** [next_function_like], P:676-791. *)
  Definition next_function : dm (option type) := fun l =>
    match l with
    | TIdent s :: r =>
      if str_eqb s (chars "fn") then
        (do g <- next_group;
         do gi <- dexpect g;
         do args <- dinside nt_expect (snd gi);
         do ret <- next_return;
         let wraps := match t_wraps args, ret with
                      | None, None => None
                      | _, _ => Some (opt_wraps ret ++ opt_wraps (Some args))
                      end in
         dret (Some (MkType (CFn FnBare (Some args) ret) wraps None None))) r
      else if str_eqb s (chars "Fn") then (do t <- next_closure true false; dret (Some t)) r
      else if str_eqb s (chars "FnMut") then (do t <- next_closure true true; dret (Some t)) r
      else if str_eqb s (chars "FnOnce") then (do t <- next_closure false false; dret (Some t)) r
      else Ok (None, l)
    | _ => Ok (None, l)
    end.

  (** The traits of an object, P:803-812, 826-835. *)
  Fixpoint plus_loop (k : nat) (acc : list type) : dm (list type) :=
    match k with
    | O => fun _ => NoFuel
    | S k' =>
      do plus <- next_exact 43;
      if plus then do t <- nt_expect; plus_loop k' (acc ++ [t]) else dret acc
    end.
  (** [next_object], P:793-851. *)
  Definition next_object : dm (option type) := fun l =>
    match l with
    | TIdent s :: r =>
      if str_eqb s (chars "impl") || str_eqb s (chars "dyn") then
        (do t <- nt_expect;
         do ts <- plus_loop n [t];
         dret (Some (MkType (CObject (str_eqb s (chars "dyn")) ts) (t_wraps t) (t_ref t) (t_as t)))) r
      else Ok (None, l)
    | _ => Ok (None, l)
    end.

  (** [next_fields], P:1117-1153. *)
  Fixpoint fields_loop (named : bool) (k : nat) (acc : list pfield) : dm (list pfield) :=
    match k with
    | O => fun _ => NoFuel
    | S k' =>
      do eof <- next_eof;
      if eof then dret acc
      else
        do attrs <- next_attributes n [];
        do _u <- next_visibility;
        do name <- (if named
                   then (do i <- next_ident;
                         do s <- dexpect i;
                         do colon <- next_exact 58;
                         if colon then dret (Some s) else dpanic PUnwrap)
                   else dret None);
        do ty <- nt_expect;
        do _p <- next_punct;
        fields_loop named k' (acc ++ [MkField attrs name ty])
    end.

  (** [next_const_generic], P:1287-1317. *)
  Definition next_const_generic : dm generic := fun l =>
    match l with
    | name :: TPunct c :: r =>
      if c =? 58 then
        (do t <- nt_expect;
         do eq <- next_exact 61;
         if eq then fun l2 =>
           match l2 with
           | [] => Panic PUnwrap
           | k :: r2 =>
             match parse_isize (tt_text k) with
             | Some z => Ok (GConst (tt_text name) t (Some (CVal z)), r2)
             | None => (do d <- nt_expect; dret (GConst (tt_text name) t (Some (CNam d)))) l2
             end
           end
         else dret (GConst (tt_text name) t None)) r
      else Panic PUnwrap
    | _ => Panic PUnwrap
    end.

  (** Bounds of a generic, P:1332-1339 ([while let Some(..)]) and 1360-1367
      ([loop]). *)
  Fixpoint bounds_while (k : nat) (acc : list type) : dm (list type) :=
    match k with
    | O => fun _ => NoFuel
    | S k' =>
      do o <- nt;
      match o with
      | None => dret acc
      | Some t =>
        do plus <- next_exact 43;
        if plus then bounds_while k' (acc ++ [t]) else dret (acc ++ [t])
      end
    end.
  Fixpoint bounds_loop (k : nat) (acc : list type) : dm (list type) :=
    match k with
    | O => fun _ => NoFuel
    | S k' =>
      do o <- nt;
      let acc' := match o with Some t => acc ++ [t] | None => acc end in
      do plus <- next_exact 43;
      if plus then bounds_loop k' acc' else dret acc'
    end.
  Fixpoint lifetimes_while (k : nat) (acc : list str) : dm (list str) :=
    match k with
    | O => fun _ => NoFuel
    | S k' =>
      do o <- next_lifetime;
      match o with
      | None => dret acc
      | Some t =>
        do plus <- next_exact 43;
        if plus then lifetimes_while k' (acc ++ [t]) else dret (acc ++ [t])
      end
    end.

  (** [next_generic], P:1319-1402. *)
  Definition next_generic : dm (option generic) := fun l =>
    match l with
    | [] => Ok (None, l)
    | TGroup DBrace _ :: _ => Ok (None, l)
    | TGroup _ _ :: _ =>
      (do t <- nt_expect;
       do colon <- next_exact 58;
       do bs <- (if colon then bounds_while n [] else dret []);
       dret (Some (GWhere (full t) bs))) l
    | TIdent s :: r =>
      if str_eqb s (chars "const") then (do g <- next_const_generic; dret (Some g)) r
      else
        (do t <- nt_expect;
         do colon <- next_exact 58;
         do bs <- (if colon then bounds_loop n [] else dret []);
         do eq <- next_exact 61;
         do d <- (if eq then do d <- nt_expect; dret (Some d) else dret None);
         dret (Some (GType (full t) d bs))) l
    | TPunct c :: r =>
      if c =? 62 then Ok (None, l)
      else if c =? 39 then
        (do i <- next_lifetime;
         do s <- dexpect i;
         do colon <- next_exact 58;
         do bs <- (if colon then lifetimes_while n [] else dret []);
         dret (Some (GLifetime s bs))) l
      else Panic PUnimplemented
    | TLit _ :: _ => Panic PUnimplemented
    end.

  (** A generic mentioned again: its bounds are added, P:1416-1449, 1471-1500. *)
  Definition merge_generic (g x : generic) : option generic :=
    match g, x with
    | GType nm d b, GType _ _ b' => Some (GType nm d (b ++ b'))
    | GLifetime nm b, GLifetime _ b' => Some (GLifetime nm (b ++ b'))
    | GWhere nm b, GWhere _ b' => Some (GWhere nm (b ++ b'))
    | _, _ => None
    end.
  Fixpoint merge_into (x : generic) (l : list generic) : option (list generic) :=
    match l with
    | [] => None
    | g :: r =>
      if str_eqb (g_full g) (g_full x)
      then match merge_generic g x with Some g' => Some (g' :: r) | None => None end
      else match merge_into x r with Some r' => Some (g :: r') | None => None end
    end.
  Definition known (x : generic) (l : list generic) : bool :=
    existsb (fun g => str_eqb (g_full g) (g_full x)) l.

  (** [get_all_bounds], P:1404-1505: angle brackets ... *)
  Fixpoint angle_loop (k : nat) (acc : list generic) : dm (list generic) :=
    match k with
    | O => fun _ => NoFuel
    | S k' =>
      do o <- next_generic;
      match o with
      | None => dret acc
      | Some g =>
        match (if known g acc then merge_into g acc else Some (acc ++ [g])) with
        | None => dpanic PUnreachable     (* panic!("mismatched generic types") *)
        | Some acc' =>
          do comma <- next_exact 44;
          if comma then angle_loop k' acc' else dret acc'
        end
      end
    end.
  (** ... and the where clause. *)
  Fixpoint where_loop (k : nat) (acc : list generic) : dm (list generic) :=
    match k with
    | O => fun _ => NoFuel
    | S k' =>
      do o <- next_generic;
      match o with
      | None => dret acc
      | Some g =>
        match (if known g acc then merge_into g acc
               else match g with
                    | GType nm _ b => Some (acc ++ [GWhere nm b])
                    | GWhere nm b => Some (acc ++ [g])
                    | _ => None
                    end) with
        | None => dpanic PUnreachable
        | Some acc' =>
          do comma <- next_exact 44;
          if comma then
            do brace <- next_exact 123;
            if brace then dret acc' else where_loop k' acc'
          else dret acc'
        end
      end
    end.
  Definition get_bounds : dm (list generic) := fun l =>
    match l with
    | TPunct c :: r =>
      if c =? 60 then
        (do gs <- angle_loop n [];
         do close <- next_exact 62;
         if close then fun l2 =>
           match l2 with
           | TIdent s :: r2 =>
             if str_eqb s (chars "where") then where_loop n gs r2 else Ok (gs, l2)
           | _ => Ok (gs, l2)
           end
         else dpanic PUnwrap) r
      else Ok ([], l)
    | _ => Ok ([], l)
    end.

  (** [next_struct], P:1155-1199. *)
  Definition next_struct : dm struct :=
    do name <- next_ident;
    do gs <- get_bounds;
    do g <- next_group;
    match g with
    | None => do _p <- next_punct; dret (MkStruct name false [] [] gs)
    | Some (d, inner) =>
      match d with
      | DParen =>
        do fs <- dinside (fields_loop false n []) inner;
        do semi <- next_exact 59;
        if semi then dret (MkStruct name false fs [] gs) else dpanic PUnwrap
      | DBrace =>
        do fs <- dinside (fields_loop true n []) inner;
        dret (MkStruct name true fs [] gs)
      | _ => dpanic PUnreachable
      end
    end.

  (** The variants of an enum, P:1219-1262. *)
  Fixpoint variants_loop (k : nat) (acc : list pfield) : dm (list pfield) :=
    match k with
    | O => fun _ => NoFuel
    | S k' =>
      do eof <- next_eof;
      if eof then dret acc
      else
        do eq <- next_exact 61;
        if eq then
          do _u <- (fun l => Ok (tt, tl l));
          do _c <- next_exact 44;
          variants_loop k' acc
        else
          do attrs <- next_attributes n [];
          do i <- next_ident;
          do name <- dexpect i;
          do ty <- nt;
          match ty with
          | None =>
            do _c <- next_exact 44;
            variants_loop k' (acc ++ [MkField attrs (Some name) no_type])
          | Some t =>
            do _s <- next_exact 59;
            do _c <- next_exact 44;
            variants_loop k' (acc ++ [MkField attrs (Some name) t])
          end
    end.
  (** [next_enum], P:1201-1270. *)
  Definition next_enum : dm enum :=
    do i <- next_ident;
    do name <- dexpect i;
    do gs <- get_bounds;
    do g <- next_group;
    match g with
    | None => dret (MkEnum name [] [] [])
    | Some (_, inner) =>
      do vs <- dinside (variants_loop n []) inner;
      dret (MkEnum name vs [] gs)
    end.

  (** A path [a::b::c], P:934-947. *)
  Fixpoint path_loop (k : nat) (acc : str) : dm str :=
    match k with
    | O => fun _ => NoFuel
    | S k' => fun l =>
      match l with
      | TPunct a :: TPunct b :: r =>
        if (a =? 58) && (b =? 58) then
          (do i <- next_ident; do s <- dexpect i; path_loop k' (acc ++ chars "::" ++ s)) r
        else Ok (acc, l)
      | _ => Ok (acc, l)
      end
    end.
  (** Generic arguments after the first, P:986-988. *)
  Fixpoint args_loop (k : nat) (acc : list type) : dm (list type) :=
    match k with
    | O => fun _ => NoFuel
    | S k' =>
      do comma <- next_exact 44;
      if comma then do t <- nt_expect; args_loop k' (acc ++ [t]) else dret acc
    end.
  Definition is_named (c : category) : bool := match c with CNamed _ => true | _ => false end.

  (** The end of [next_type]: a path with its generic arguments, P:932-1026. *)
  Definition next_named (ref_type : option (option str)) : dm (option type) :=
    do i <- next_ident;
    do path <- path_loop n (match i with Some s => s | None => [] end);
    do angle <- next_exact 60;
    if angle then
      match path with
      | [] =>
        do t <- nt_expect;
        if is_named (t_ident t) then
          do c1 <- next_exact 62;
          do c2 <- next_exact 58;
          do c3 <- next_exact 58;
          if c1 && c2 && c3 then
            do a <- nt_expect;
            do tr <- dexpect (t_as t);
            dret (Some (MkType (CAssociated t tr a) (t_wraps t) ref_type None))
          else dpanic PUnwrap
        else dpanic PUnwrap
      | _ =>
        do t <- nt_expect;
        do args <- args_loop n [t];
        do other <- as_other;
        do assoc <- as_assoc;
        do close <- next_exact 62;
        if close then
          match assoc with
          | Some d => dret (Some (MkType (CAssocBound path d) (Some args) ref_type other))
          | None => dret (Some (MkType (CNamed path) (Some args) ref_type other))
          end
        else dpanic PUnwrap
      end
    else
      do other <- as_other;
      dret (Some (MkType (match path with [] => CNone | _ => CNamed path end) None ref_type other)).

  (** What follows the reference mark, P:876-932. *)
  Definition unref_body (ref_type : option (option str)) : dm (option type) := fun l =>
    match l with
    | TGroup DBracket i :: r =>
      (do t <- dinside next_array i; dret (Some (set_ref ref_type t))) r
    | TGroup DParen i :: r =>
      (do t <- dinside next_tuple i; dret (Some (set_ref ref_type t))) r
    | TGroup DBrace i :: _ =>
      (do s <- next_struct;
       dret (Some (MkType (CAnonymous s) (Some (map fl_type (st_fields s))) ref_type None))) l
    | TGroup DInvisible i :: _ => Panic PUnimplemented
    | _ =>
      (do o <- next_object;
       match o with
       | Some t => dret (Some (set_ref ref_type t))
       | None =>
         do f <- next_function;
         match f with
         | Some t => dret (Some (set_ref ref_type t))
         | None => next_named ref_type
         end
       end) l
    end.

  (** [next_type], P:574-1027. *)
  Definition type_body : dm (option type) :=
    do comma <- next_exact 44;
    if comma then dret None
    else
    do bang <- next_exact 33;
    if bang then dret (Some (MkType CNever None None None))
    else
    do tick <- next_exact 39;
    if tick then
      do i <- next_ident;
      do s <- dexpect i;
      dret (Some (MkType (CLifetime s) None None None))
    else
    do amp <- next_exact 38;
    do ref_type <- (if amp then do lt <- next_lifetime; dret (Some lt) else dret None);
    unref_body ref_type.
End WithType.

Fixpoint next_type (n : nat) : dm (option type) :=
  match n with
  | O => fun _ => NoFuel
  | S n' => type_body (next_type n') n'
  end.

(** [parse_data], P:1507-1539: the attributes read first are given to a struct
    only. *)
Definition parse_data (n : nat) (input : list ttree) : res Empty_set data :=
  match
    (do attrs <- next_attributes n [];
     do i <- next_ident;
     do kw0 <- dexpect i;
     do kw <- (if str_eqb kw0 (chars "pub") then do j <- next_ident; dexpect j else dret kw0);
     do d <- (if str_eqb kw (chars "struct") then
                do s <- next_struct (next_type n) n;
                dret (DataStruct (set_attrs attrs s))
              else if str_eqb kw (chars "enum") then
                do e <- next_enum (next_type n) n;
                dret (DataEnum e)
              else if str_eqb kw (chars "union") then dpanic PUnimplemented
              else dpanic PUnreachable);
     do eof <- next_eof;
     if eof then dret d else dpanic PUnwrap) input
  with
  | Ok (d, _) => Ok d
  | Err e => Err e
  | Panic p => Panic p
  | NoFuel => NoFuel
  end.

(** [Data::attributes], P:173-180. *)
Definition data_attrs (d : data) : list attribute :=
  match d with DataStruct s => st_attrs s | DataEnum e => en_attrs e end.

(** ** Queries, S:17-92 *)
Fixpoint find_map {A B} (f : A -> option B) (l : list A) : option B :=
  match l with
  | [] => None
  | a :: r => match f a with Some b => Some b | None => find_map f r end
  end.
(** Attributes with a value: [proxy], [rename], [default_with], [crate]. *)
Definition attr_value (key : str) (attrs : list attribute) : option str :=
  find_map (fun a => match a_tokens a with
                     | [k; v] => if str_eqb k key then Some v else None
                     | _ => None
                     end) attrs.
Definition attrs_proxy := attr_value (chars "proxy").
Definition attrs_rename := attr_value (chars "rename").
Definition attrs_default_with := attr_value (chars "default_with").
Definition attrs_crate := attr_value (chars "crate").
(** [attrs_default], S:39-49. *)
Definition attrs_default (attrs : list attribute) : option (option str) :=
  find_map (fun a => match a_tokens a with
                     | [k] => if str_eqb k (chars "default") then Some None else None
                     | [k; v] => if str_eqb k (chars "default") then Some (Some v) else None
                     | _ => None
                     end) attrs.
(** Words: [transparent], [skip], [serialize_none_as_null]. *)
Definition attr_word (key : str) (attrs : list attribute) : bool :=
  existsb (fun a => match a_tokens a with [k] => str_eqb k key | _ => false end) attrs.
Definition attrs_skip := attr_word (chars "skip").
Definition attrs_transparent := attr_word (chars "transparent").
Definition attrs_null := attr_word (chars "serialize_none_as_null").

(** Which code the macros go on to generate, derive/src/lib.rs:26-149 (the same
    for all six macros): the crate that is named in it, and for whom. *)
Inductive target := ViaProxy (p : str) (name : str) | ForStruct (s : struct) | ForEnum (e : enum).
Definition derive_target (d : data) : str * target :=
  (match attrs_crate (data_attrs d) with Some c => c | None => chars "nanoserde" end,
   match attrs_proxy (data_attrs d) with
   | Some p => ViaProxy p (match d with
                           | DataStruct s => match st_name s with Some x => x | None => [] end
                           | DataEnum e => en_name e
                           end)
   | None => match d with DataStruct s => ForStruct s | DataEnum e => ForEnum e end
   end).

(** ** What the code generators take from a definition

    The generators paste texts into the code they return; what rustc makes of a
    pasted text is given by a [world]: [w_ty t p] how a field of the type written
    [t] (with the proxy [p]) is serialized, [w_default t] the value of
    [Default::default()] at [t], [w_expr t e] the value of the expression [e] at
    type [t], [w_proxy p] a container's proxy. *)
Record world := {
  w_ty : str -> option str -> ty;
  w_default : str -> val;
  w_expr : str -> str -> val;
  w_proxy : str -> proxy * ty
}.

Definition quoted_string (v : str) : str := chars """" ++ v ++ chars """.to_string()".
Definition base_is (t : type) (s : str) : bool := str_eqb (base t) s.

(** The default of a field: serde_json.rs:149-175, serde_ron.rs:160-177 (without
    the containers' [default], [skip] and [Option] there, which Types.v has apart). *)
Definition default_text (f : fmt) (p : pfield) : option str :=
  let t := fl_type p in
  match attrs_default (fl_attrs p) with
  | Some (Some v) =>
    match f with
    | Json =>
      let v1 := if base_is t (chars "String") ||
                   match t_wraps t with Some w => existsb (fun u => base_is u (chars "String")) w | None => false end
                then quoted_string v else v in
      Some (if base_is t (chars "Option") then chars "Some(" ++ v1 ++ chars ")" else v1)
    | Ron =>
      Some (if base_is t (chars "String") then quoted_string v
            else if base_is t (chars "Option") then chars "Some(" ++ v ++ chars ")" else v)
    end
  | Some None => Some (if base_is t (chars "Option") then chars "None" else chars "Default::default()")
  | None =>
    match attrs_default_with (fl_attrs p) with Some v => Some (v ++ chars "()") | None => None end
  end.

Definition is_some {A} (o : option A) : bool := match o with Some _ => true | None => false end.

Section Derived.
  Variable W : world.
  Variable f : fmt.

  (** serde_json.rs:51-62, 145-180; serde_ron.rs:47-55, 156-184; serde_bin.rs:44-45. *)
  Definition field_of (p : pfield) : field :=
    let t := full (fl_type p) in
    let px := attrs_proxy (fl_attrs p) in
    {| f_name := match fl_name p with Some s => s | None => [] end;
       f_rename := attrs_rename (fl_attrs p);
       f_skip := attrs_skip (fl_attrs p);
       f_isopt := base_is (fl_type p) (chars "Option");
       f_default := option_map (w_expr W t) (default_text f p);
       f_tydefault := w_default W t;
       f_null := attrs_null (fl_attrs p);
       f_hasproxy := is_some px;
       f_ty := w_ty W t px |}.

  (** The three kinds of variant, serde_bin.rs:239-290 and the same in the others. *)
  Definition body_of (t : type) : option vbody :=
    match t_ident t, t_wraps t with
    | CNone, None => Some BUnit
    | CTuple l, _ => Some (BTuple (map (fun t => w_ty W (full t) None) l))
    | CAnonymous s, _ => Some (BStruct (map field_of (st_fields s)))
    | _, _ => None                                    (* unimplemented! *)
    end.
  Fixpoint variants_of (l : list pfield) : option (list variant) :=
    match l with
    | [] => Some []
    | p :: r =>
      match body_of (fl_type p), variants_of r with
      | Some b, Some r' =>
        Some ({| v_name := match fl_name p with Some s => s | None => [] end;
                 v_rename := attrs_rename (fl_attrs p); v_body := b |} :: r')
      | _, _ => None
      end
    end.

  (** derive/src/lib.rs:26-149; container attributes serde_json.rs:62, 280-281, 559,
      serde_ron.rs:152. *)
  Definition decl_of (d : data) : option decl :=
    match snd (derive_target d) with
    | ViaProxy p _ => Some (DProxy (fst (w_proxy W p)) (snd (w_proxy W p)))
    | ForStruct s =>
      Some (if st_named s
            then DStruct (is_some (attrs_default (st_attrs s)) ||
                          match f with Json => is_some (attrs_default_with (st_attrs s)) | Ron => false end)
                         (attrs_null (st_attrs s)) (map field_of (st_fields s))
            else DTuple (attrs_transparent (st_attrs s)) (map field_of (st_fields s)))
    | ForEnum e => option_map DEnum (variants_of (en_variants e))
    end.
End Derived.

(** ** The header of the generated impl: [Generic::full_with_const] P:214-248,
    [ident_only] P:210-212, [get_bounds] P:284-294, [struct_bounds_strings] and
    [enum_bounds_strings] S:94-147. *)
Definition g_bounds (g : generic) : list str :=
  match g with
  | GConst _ t _ => [full t]
  | GType _ _ bs => map full bs
  | GLifetime _ bs => map (fun b => chars "'" ++ b) bs
  | GWhere _ bs => map full bs
  end.
Definition g_prefix (g : generic) : str := match g with GLifetime _ _ => chars "'" | _ => [] end.
Definition ident_only (g : generic) : str := g_prefix g ++ g_full g.
Definition full_with_const (extra : str) (g : generic) : str :=
  let b := joins (chars " + ") (g_bounds g) in
  let bounds :=
    match g with
    | GLifetime _ _ => b
    | _ => match b with [] => extra | _ => b ++ chars " + " ++ extra end
    end in
  (match g with GConst _ _ _ => chars "const " | _ => [] end) ++ g_prefix g ++ g_full g ++ chars ":" ++
  match bounds with [] => [] | _ => chars " " ++ bounds end.
Definition bounds_strings (trait crate_ : str) (gs : list generic) : str * str :=
  match gs with
  | [] => ([], [])
  | _ =>
    let shown := filter (fun g => negb (str_eqb (ident_only g) (chars "Self"))) gs in
    (chars "<" ++ concat (map (fun g => full_with_const (crate_ ++ chars "::" ++ trait) g ++ chars ", ") shown) ++ chars ">",
     chars "<" ++ concat (map (fun g => ident_only g ++ chars ", ") shown) ++ chars ">")
  end.
Definition data_generics (d : data) : list generic :=
  match d with DataStruct s => st_generics s | DataEnum e => en_generics e end.
