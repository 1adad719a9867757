(** Model of src/toml.rs ("T:").

    As in Text.v the iterator and the look-ahead field [cur] are the list of
    characters that starts at [cur]; past the end [cur = '\0'].  Unlike the other
    formats the functions return tokens instead of storing them.  Error messages
    hold the token or the word the code puts into them, without the [Debug]
    rendering.  The call stack is unbounded. *)
From Verif Require Import Base Utf8 Types Text TextModel.
Local Open Scope N_scope.

(** TomlTok, T:61-79.  [QF64] a bit pattern. *)
Inductive ttok :=
| QIdent (s : str) | QStr (s : str) | QU64 (n : N) | QI64 (z : Z) | QF64 (bits : N) | QBool (b : bool)
| QNan (neg : bool) | QInf (neg : bool) | QDate (s : str) | QEq | QOpen | QClose | QComma | QEof.

(** Toml, T:116-123.  A [BTreeMap] is the list of its entries in ascending order of
    the keys (strings compare as their UTF-8 bytes do, which is the order of their
    scalar values). *)
Inductive toml :=
| TVStr (s : str)
| TVBool (b : bool)
| TVNum (bits : N)
| TVDate (s : str)
| TVTables (l : list (list (str * toml)))
| TVArr (l : list toml).
Definition tmap := list (str * toml).

(** TomlErr, T:198-202; [col] is always 0 (T:392-397). *)
Inductive qmsg := QTok (t : ttok) | QParse (what : str).
Record qerr := { q_line : N; q_msg : qmsg }.

(** [BTreeMap::insert] and [BTreeMap::get]. *)
Fixpoint t_insert {A} (k : str) (v : A) (m : list (str * A)) : list (str * A) :=
  match m with
  | [] => [(k, v)]
  | (k', v') :: r =>
    match list_cmp N.compare k k' with
    | Lt => (k, v) :: m
    | Eq => (k', v) :: r
    | Gt => (k', v') :: t_insert k v r
    end
  end.
Fixpoint t_get {A} (k : str) (m : list (str * A)) : option A :=
  match m with
  | [] => None
  | (k', v) :: r => if str_eqb k k' then Some v else t_get k r
  end.

(** ** Characters *)
Definition within (a b c : N) : bool := (a <=? c) && (c <=? b).
(** [ident_chars!], T:10-35. *)
Definition q_ident (c : N) : bool :=
  within 0x41 0x5A c || within 0x61 0x7A c || within 0x30 0x39 c || (c =? 0x2D) || (c =? 0x5F)
  || (c =? 0xB2) || (c =? 0xB3) || (c =? 0xB9) || within 0xBC 0xBE c || within 0xC0 0xD6 c
  || within 0xD8 0xF6 c || within 0xF8 0x37D c || within 0x37F 0x1FFF c || within 0x200C 0x200D c
  || within 0x203F 0x2040 c || within 0x2070 0x218F c || within 0x2460 0x24FF c
  || within 0x2C00 0x2FEF c || within 0x3001 0xD7FF c || within 0xF900 0xFDCF c
  || within 0xFDF0 0xFFFD c || within 0x10000 0xEFFFF c.
(** [ident_term_chars!], T:38-42. *)
Definition q_term (c : N) : bool :=
  (c =? 32) || (c =? 9) || (c =? 13) || (c =? 10) || (c =? 0) || (c =? 61) || (c =? c_rbr).
Definition c_hash := 35. Definition c_eq := 61. Definition c_us := 95.

(** ** Tokens.  A scanner returns where it stopped and a token or [err_parse]. *)
Definition qout := (str * (ttok + str))%type.

(** [parse_ident], T:498-521: what was read so far is [start].  The recursion at
    each dot continues the same loop. *)
Definition q_word (start l : str) : qout :=
  let more := fun c => q_ident c || (c =? c_dot) in
  let w := start ++ take_while more l in
  let r := drop_while more l in
  (r,
   if q_term (cur r) then
     inl (if str_eqb w (chars "true") then QBool true
          else if str_eqb w (chars "false") then QBool false
          else if str_eqb w (chars "inf") then QInf false
          else if str_eqb w (chars "nan") then QNan false
          else QIdent w)
   else inr (chars "tokenizer")).

(** The nested tests for "nan" and "inf", T:536-566: as many characters of the word
    as are there; the rest of the word. *)
Fixpoint q_eat (w l : str) : str * str * str :=
  match w, l with
  | x :: w', c :: r => if c =? x then let '(b, l', w'') := q_eat w' r in (x :: b, l', w'') else ([], l, w)
  | _, _ => ([], l, w)
  end.

Definition dig_us (c : N) : bool := is_digit c || (c =? c_us).
(** The digits of a number without the underscores, T:568-573 and 579-584. *)
Definition q_digits (l : str) : str := filter (fun c => negb (c =? c_us)) (take_while dig_us l).

(** [num.parse::<i64>()] *)
Definition q_i64 (s : str) : option Z :=
  match s with
  | c :: _ =>
    if c =? c_minus then parse_i64 s
    else if forallb is_digit s && (digits_val s <? 2 ^ 63) then Some (Z.of_N (digits_val s)) else None
  | [] => None
  end.

(** [parse_num], T:524-610. *)
Definition q_num (F : flt) (l : str) : qout :=
  let neg := cur l =? c_minus in
  let b0 := if neg then [c_minus] else [] in
  let l0 := if neg || (cur l =? c_plus) then tl l else l in
  let word := if cur l0 =? 110 then chars "nan" else if cur l0 =? 105 then chars "inf" else [] in
  let '(b1, l1, rest) := q_eat word l0 in
  if (match word, rest with _ :: _, [] => true | _, _ => false end) && q_term (cur l1)
  then (l1, inl (if cur l0 =? 110 then QNan neg else QInf neg))
  else
    let num := b0 ++ b1 ++ q_digits l1 in
    let l2 := drop_while dig_us l1 in
    if cur l2 =? c_dot then
      let l3 := drop_while dig_us (tl l2) in
      (l3, match f64_parse F (num ++ c_dot :: q_digits (tl l2)) with
           | Some b => inl (QF64 b)
           | None => inr (chars "number")
           end)
    else if cur l2 =? c_minus then
      let date := fun c => is_digit c || (c =? c_colon) || (c =? c_minus) || (c =? 84) in
      (drop_while date (tl l2), inl (QDate (num ++ c_minus :: take_while date (tl l2))))
    else if q_ident (cur l2) then q_word num l2
    else (l2, match neg, q_i64 num with
              | true, Some z => inl (QI64 z)
              | false, Some z => inl (QU64 (Z.to_N z))
              | _, None => inr (chars "tokenizer")
              end).

(** A string after its opening quotes, T:463-487.  [triple]: it was opened by three.
    [n] bounds the rounds; [S (length l)] is always enough. *)
Fixpoint q_body (n : nat) (triple : bool) (l : str) : str * option str :=
  match n with
  | O => (l, None)
  | S n' =>
    let push := fun pre c r => match q_body n' triple r with
                               | (r', Some s) => (r', Some (pre ++ c :: s))
                               | e => e
                               end in
    let c := cur l in
    if (c =? c_quote) && negb triple then (l, Some [])
    else if c =? c_quote then
      let q := take_while (fun x => x =? c_quote) l in
      let r := drop_while (fun x => x =? c_quote) l in
      if (length q =? 3)%nat then (r, Some []) else push q (cur r) (tl r)
    else if c =? c_bslash then push [] (cur (tl l)) (tl (tl l))
    else if c =? 0 then (l, None)
    else push [] c (tl l)
  end.
(** T:454-490, after the first quote; one more character is passed at the end. *)
Definition q_string (l : str) : qout :=
  let '(triple, l1) :=
    if cur l =? c_quote then if cur (tl l) =? c_quote then (true, tl (tl l)) else (false, tl l)
    else (false, l) in
  match q_body (S (length l1)) triple l1 with
  | (r, Some s) => (tl r, inl (QStr s))
  | (r, None) => (r, inr (chars "string"))
  end.

(** [next_tok], T:419-495; [n] bounds the number of comments. *)
Fixpoint q_scan (F : flt) (n : nat) (l0 : str) {struct n} : qout :=
  match n with
  | O => (l0, inr [])
  | S n' =>
    let l := drop_while is_ws l0 in
    let c := cur l in
    let r := tl l in
    if c =? 0 then (l, inl QEof)
    else if c =? c_comma then (r, inl QComma)
    else if c =? c_lbr then (r, inl QOpen)
    else if c =? c_rbr then (r, inl QClose)
    else if c =? c_eq then (r, inl QEq)
    else if c =? c_hash then q_scan F n' (drop_while (fun c => negb (c =? c_nl) && negb (c =? 0)) l)
    else if (c =? c_plus) || (c =? c_minus) || is_digit c then q_num F l
    else if c =? c_quote then q_string r
    else if q_ident c then q_word [] l
    else (l, inr (chars "tokenizer"))
  end.

(** ** The parser *)
(** TomlParser, T:54-58, and its input. *)
Record qst := { q_inp : str; q_ln : N }.
Definition qm (A : Type) := qst -> qst * res qerr A.
Definition qret {A} (a : A) : qm A := fun s => (s, Ok a).
Definition qfail {A} (r : res qerr A) : qm A := fun s => (s, r).
Definition qbind {A B} (m : qm A) (f : A -> qm B) : qm B := fun s =>
  match m s with
  | (s', Ok a) => f a s'
  | (s', Err e) => (s', Err e)
  | (s', Panic p) => (s', Panic p)
  | (s', NoFuel) => (s', NoFuel)
  end.

(** Line breaks among the characters that became current between [l] and its
    suffix [l'] ([next], T:389-401). *)
Definition lines_to (l l' : str) : N :=
  lenN (filter (fun c => c =? c_nl) (firstn (length l - length l') (tl l))).

Definition q_next (F : flt) : qm ttok := fun s =>
  let '(l', o) := q_scan F (S (length (q_inp s))) (q_inp s) in
  let s' := {| q_inp := l'; q_ln := q_ln s + lines_to (q_inp s) l' |} in
  match o with
  | inl t => (s', Ok t)
  | inr w => (s', Err {| q_line := q_ln s'; q_msg := QParse w |})
  end.
(** [Err(self.err_token(tok))], T:403-409. *)
Definition q_err {A} (t : ttok) : qm A := fun s => (s, Err {| q_line := q_ln s; q_msg := QTok t |}).

Section Parser.
  Variable F : flt.
  Variable show : N -> str.   (* std: [f64::to_string] on bit patterns *)

  (** [From<TomlTok> for String], T:81-112. *)
  Definition q_text (t : ttok) : str :=
    match t with
    | QIdent s | QStr s | QDate s => s
    | QU64 n => dec n
    | QI64 z => dec_z z
    | QF64 b => show b
    | QBool b => if b then chars "true" else chars "false"
    | QNan neg => if neg then chars "-nan" else chars "nan"
    | QInf neg => if neg then chars "-inf" else chars "inf"
    | QEq => [c_eq] | QOpen => [c_lbr] | QClose => [c_rbr] | QComma => [c_comma] | QEof => [0]
    end.

  (** Bit patterns of f64::NAN and f64::INFINITY; the sign bit. *)
  Definition nan_bits : N := 0x7ff8000000000000.
  Definition inf_bits : N := 0x7ff0000000000000.
  Definition sign_bit : N := 0x8000000000000000.
  Definition with_sign (neg : bool) (b : N) : N := if neg then sign_bit + b else b.

  (** The loop of [to_val] over the elements of an array, T:343-353. *)
  Fixpoint q_vals (val : ttok -> qm toml) (n : nat) : qm (list toml) :=
    match n with
    | O => qfail NoFuel
    | S n' =>
      qbind (q_next F) (fun t =>
      match t with
      | QClose | QEof => qret []
      | QComma => q_vals val n'
      | _ => qbind (val t) (fun v => qbind (q_vals val n') (fun r => qret (v :: r)))
      end)
    end.
  (** [to_val], T:340-365. *)
  Fixpoint q_val (n : nat) (t : ttok) {struct n} : qm toml :=
    match n with
    | O => qfail NoFuel
    | S n' =>
      match t with
      | QOpen => qbind (q_vals (q_val n') n') (fun l => qret (TVArr l))
      | QStr s => qret (TVStr s)
      | QU64 v => qret (TVNum (f64_of_z F (Z.of_N v)))
      | QI64 v => qret (TVNum (f64_of_z F v))
      | QF64 b => qret (TVNum b)
      | QBool b => qret (TVBool b)
      | QNan neg => qret (TVNum (with_sign neg nan_bits))
      | QInf neg => qret (TVNum (with_sign neg inf_bits))
      | QDate s => qret (TVDate s)
      | _ => q_err t
      end
    end.

  (** Out, T:222-225. *)
  Record out := { o_map : tmap; o_active : option (str * nat) }.

  (** [Out::start_array], T:227-242. *)
  Definition start_array (key : str) (o : out) : res qerr out :=
    let m := match t_get key (o_map o) with None => t_insert key (TVTables []) (o_map o) | Some _ => o_map o end in
    match t_get key m with
    | Some (TVTables a) =>
      Ok {| o_map := t_insert key (TVTables (a ++ [[]])) m; o_active := Some (key, length a) |}
    | _ => Panic PUnreachable
    end.
  (** [out.out().insert(key, val)]: T:244-254, 385.  The map is chosen before the
      rest of the line is read; the panics are those of [unwrap], [array[n]] and
      [unreachable!]. *)
  Definition o_check (o : out) : option panic :=
    match o_active o with
    | None => None
    | Some (t, n) =>
      match t_get t (o_map o) with
      | None => Some PUnwrap
      | Some (TVTables a) => if (n <? length a)%nat then None else Some PSlice
      | Some _ => Some PUnreachable
      end
    end.
  Fixpoint upd {A} (n : nat) (f : A -> A) (l : list A) : list A :=
    match l, n with
    | [], _ => []
    | x :: r, O => f x :: r
    | x :: r, S n' => x :: upd n' f r
    end.
  Definition o_insert (k : str) (v : toml) (o : out) : out :=
    match o_active o with
    | None => {| o_map := t_insert k v (o_map o); o_active := None |}
    | Some (t, n) =>
      match t_get t (o_map o) with
      | Some (TVTables a) =>
        {| o_map := t_insert t (TVTables (upd n (t_insert k v) a)) (o_map o); o_active := o_active o |}
      | _ => o
      end
    end.

  (** [parse_key_value], T:367-387. *)
  Definition q_key_value (n : nat) (scope key : str) (o : out) : qm out :=
    match o_check o with
    | Some p => qfail (Panic p)
    | None =>
      qbind (q_next F) (fun t =>
      match t with
      | QEq =>
        qbind (q_next F) (fun t2 => qbind (q_val n t2) (fun v =>
        qret (o_insert (match scope with [] => key | _ => scope ++ c_dot :: key end) v o)))
      | _ => q_err t
      end)
    end.

  (** [parse_line], T:274-337: the new scope and map, or [None] at the end. *)
  Definition q_close : qm unit := qbind (q_next F) (fun t => match t with QClose => qret tt | _ => q_err t end).
  Definition q_line_ (n : nat) (scope : str) (o : out) : qm (option (str * out)) :=
    qbind (q_next F) (fun t =>
    match t with
    | QEof => qret None
    | QOpen =>
      qbind (q_next F) (fun t2 =>
      match t2 with
      | QStr key | QIdent key => qbind q_close (fun _ => qret (Some (key, o)))
      | QOpen =>
        qbind (q_next F) (fun t3 =>
        match t3 with
        | QIdent _ | QU64 _ | QI64 _ | QF64 _ | QBool _ | QNan _ | QInf _ | QDate _ =>
          qbind q_close (fun _ => qbind q_close (fun _ =>
          match start_array (q_text t3) o with
          | Ok o' => qret (Some ([], o'))
          | Err e => qfail (Err e)
          | Panic p => qfail (Panic p)
          | NoFuel => qfail NoFuel
          end))
        | _ => q_err t3
        end)
      | _ => q_err t2
      end)
    | QStr _ | QIdent _ | QU64 _ | QI64 _ | QF64 _ | QBool _ | QNan _ | QInf _ | QDate _ =>
      qbind (q_key_value n scope (q_text t) o) (fun o' => qret (Some (scope, o')))
    | _ => q_err t
    end).
  (** The loop of [parse], T:260-272. *)
  Fixpoint q_lines (n : nat) (scope : str) (o : out) : qm tmap :=
    match n with
    | O => qfail NoFuel
    | S n' =>
      qbind (q_line_ n' scope o) (fun r =>
      match r with
      | None => qret (o_map o)
      | Some (scope', o') => q_lines n' scope' o'
      end)
    end.
  Definition q_start (text : str) : qst := {| q_inp := text; q_ln := lines_to (0 :: text) text |}.
  Definition parse_toml (n : nat) (text : str) : res qerr tmap :=
    snd (q_lines n [] {| o_map := []; o_active := None |} (q_start text)).
End Parser.

(** Spot checks. *)
Definition no_flt : flt := {| f64_parse := fun _ => Some 7; f64_show := fun _ => []; f32_show := fun _ => [];
  f64_of_z := Z.to_N; f32_of_f64 := fun b => b |}.
Example toml_ex1 :
  parse_toml no_flt dec 50 (chars "[a]" ++ [10] ++ chars "x = 1_0 # c" ++ [10] ++ chars "y=[1, ""b"" ,[-inf ,]]" ++ [10] ++ chars "[[t]]" ++ [10] ++ chars "007=true") =
  Ok [(chars "a.x", TVNum 10); (chars "a.y", TVArr [TVNum 1; TVStr (chars "b"); TVArr [TVNum 0xfff0000000000000]]);
      (chars "t", TVTables [[(chars "7", TVBool true)]])].
Proof. vm_compute. reflexivity. Qed.
Example toml_ex2 : parse_toml no_flt dec 50 (chars "a=1" ++ [10] ++ chars "[[a]]") = Panic PUnreachable.
Proof. vm_compute. reflexivity. Qed.
Example toml_ex3 : parse_toml no_flt dec 50 ([10] ++ chars "a=""""" ++ [10] ++ chars "b=""x""") = Err {| q_line := 2; q_msg := QParse (chars "tokenizer") |}.
Proof. vm_compute. reflexivity. Qed.
