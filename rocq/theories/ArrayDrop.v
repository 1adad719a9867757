(** The array deserializers with their MaybeUninit slots: serde_bin.rs:452-484
    (B), serde_json.rs:1051-1092 (J), serde_ron.rs:1041-1082 (R).  The three are
    the same loop around different punctuation, which is a parameter here.
    Ghost state: a log of the values made and dropped (SpecDrop.v). *)
From Verif Require Import Base Types BinModel Text TextModel SpecDrop.
Local Open Scope nat_scope.

Definition ev_dec (a b : ev) : {a = b} + {a <> b}.
Proof. decide equality; apply Nat.eq_dec. Defined.

(** A number no value has had so far (ghost: identities of values). *)
Definition fresh (l : list ev) : nat :=
  S (list_max (map (fun e => match e with Made i => i | Dropped i => i end) l)).

(** Drop one value; [None] is undefined behaviour. *)
Definition drop1 (i : nat) (l : list ev) : option (list ev) :=
  if in_dec ev_dec (Made i) l then
    if in_dec ev_dec (Dropped i) l then None else Some (l ++ [Dropped i])
  else None.

(** Dropping an object drops what it owns, in order. *)
Fixpoint drop_ids (ids : list nat) (l : list ev) : option (list ev) :=
  match ids with
  | [] => Some l
  | i :: r => match drop1 i l with Some l' => drop_ids r l' | None => None end
  end.

Section Arr.
  Context {St E A : Type}.

  (** A deserializer that makes no droppable value (punctuation, a plain read). *)
  Definition plain := St -> St * res E unit.

  (** A leaf: each successful read makes one droppable value. *)
  Definition track (m : St -> St * res E A) : om St E (obj A) := fun s l =>
    match m s with
    | (s', Ok a) => (s', l ++ [Made (fresh l)], OOk (a, [fresh l]))
    | (s', Err e) => (s', l, OErr e)
    | (s', Panic p) => (s', l, OPanic p)
    | (s', NoFuel) => (s', l, ONoFuel)
    end.

  (** [DeJson::de_json(o, d).and_then(|ret| { o.eat_comma_block(d)?; Ok(ret) })],
      J:1066-1069, R:1056-1059 (B:466 has no separator): when the separator is
      missing (or its code unwinds), [ret] goes out of scope. *)
  Definition item_sep (item : om St E (obj A)) (sep : plain) : om St E (obj A) := fun s l =>
    match item s l with
    | (s1, l1, OOk o) =>
      match sep s1 with
      | (s2, Ok _) => (s2, l1, OOk o)
      | (s2, Err e) =>
        match drop_ids (snd o) l1 with
        | Some l2 => (s2, l2, OErr e)
        | None => (s2, l1, OUB)
        end
      | (s2, Panic p) =>
        match drop_ids (snd o) l1 with
        | Some l2 => (s2, l2, OPanic p)
        | None => (s2, l1, OUB)
        end
      | (s2, NoFuel) => (s2, l1, ONoFuel)
      end
    | r => r
    end.

  (** A slot: [MaybeUninit<T>], [None] while uninitialised. *)
  Local Notation slot := (option (obj A)).

  (** [to[index] = ...]: assigning a MaybeUninit drops nothing; an index out of
      bounds panics ([None]). *)
  Fixpoint set_slot (i : nat) (x : slot) (to : list slot) : option (list slot) :=
    match to, i with
    | [], _ => None
    | _ :: r, 0 => Some (x :: r)
    | y :: r, S i' => match set_slot i' x r with Some r' => Some (y :: r') | None => None end
    end.

  (** [for (_, to_drop) in (0..index).zip(to) { unsafe { to_drop.assume_init() }; }],
      B:472-474, J:1075-1077, R:1065-1067: the value is dropped at the semicolon. *)
  Fixpoint drop_slots (l : list (nat * slot)) (lg : list ev) : option (list ev) :=
    match l with
    | [] => Some lg
    | (_, Some o) :: r =>
      match drop_ids (snd o) lg with Some lg' => drop_slots r lg' | None => None end
    | (_, None) :: _ => None
    end.

  (** [for index in 0..N], B:465-478, J:1065-1081, R:1055-1071; [n] iterations
      are left.  A panic unwinds past the slots, which drop nothing. *)
  Fixpoint fill (item : om St E (obj A)) (sep : plain) (n index : nat) (to : list slot)
    : om St E (list slot) := fun s l =>
    match n with
    | 0 => (s, l, OOk to)
    | S n' =>
      match item_sep item sep s l with
      | (s', l', OOk o) =>
        match set_slot index (Some o) to with
        | Some to' => fill item sep n' (S index) to' s' l'
        | None => (s', l', OPanic PSlice)
        end
      | (s', l', OErr e) =>
        match drop_slots (combine (seq 0 index) to) l' with
        | Some l2 => (s', l2, OErr e)
        | None => (s', l', OUB)
        end
      | (s', l', OPanic p) => (s', l', OPanic p)
      | (s', l', ONoFuel) => (s', l', ONoFuel)
      | (s', l', OUB) => (s', l', OUB)
      end
    end.

  (** The [assume_init_read()] of the slot array cast to one MaybeUninit of the array type, B:482,
      J:1086-1087, R:1076-1077: all slots at once are taken to be values. *)
  Fixpoint assume_all (to : list slot) : option (list (obj A)) :=
    match to with
    | [] => Some []
    | Some o :: r => match assume_all r with Some os => Some (o :: os) | None => None end
    | None :: _ => None
    end.

  (** An array as an object: it owns what its items own. *)
  Definition arr_obj (os : list (obj A)) : obj (list A) :=
    (map fst os, concat (map snd os)).

  (** The whole function; [open] and [close] are [block_open]/[block_close],
      [paren_open]/[paren_close], or nothing (binary). *)
  Definition de_array (opn : plain) (item : om St E (obj A)) (sep cls : plain) (n : nat)
    : om St E (obj (list A)) := fun s l =>
    match opn s with
    | (s0, Ok _) =>
      match fill item sep n 0 (repeat None n) s0 l with
      | (s1, l1, OOk to) =>
        match assume_all to with
        | None => (s1, l1, OUB)
        | Some os =>
          match cls s1 with
          | (s2, Ok _) => (s2, l1, OOk (arr_obj os))
          | (s2, Err e) =>
            (* [initialized] goes out of scope *)
            match drop_ids (snd (arr_obj os)) l1 with
            | Some l2 => (s2, l2, OErr e)
            | None => (s2, l1, OUB)
            end
          | (s2, Panic p) =>
            match drop_ids (snd (arr_obj os)) l1 with
            | Some l2 => (s2, l2, OPanic p)
            | None => (s2, l1, OUB)
            end
          | (s2, NoFuel) => (s2, l1, ONoFuel)
          end
        end
      | (s1, l1, OErr e) => (s1, l1, OErr e)
      | (s1, l1, OPanic p) => (s1, l1, OPanic p)
      | (s1, l1, ONoFuel) => (s1, l1, ONoFuel)
      | (s1, l1, OUB) => (s1, l1, OUB)
      end
    | (s0, Err e) => (s0, l, OErr e)
    | (s0, Panic p) => (s0, l, OPanic p)
    | (s0, NoFuel) => (s0, l, ONoFuel)
    end.
End Arr.

(** An array of arrays is an array whose items are arrays; [wrap] turns the list
    of items into the array value. *)
Definition omap {St E A B} (f : A -> B) (m : om St E (obj A)) : om St E (obj B) := fun s l =>
  match m s l with
  | (s', l', OOk (a, ids)) => (s', l', OOk (f a, ids))
  | (s', l', OErr e) => (s', l', OErr e)
  | (s', l', OPanic p) => (s', l', OPanic p)
  | (s', l', ONoFuel) => (s', l', ONoFuel)
  | (s', l', OUB) => (s', l', OUB)
  end.

(** [[[T; n2]; n1]]: dimensions outermost first. *)
Fixpoint arr_ty (dims : list nat) (t : ty) : ty :=
  match dims with
  | [] => t
  | n :: r => TArr n (arr_ty r t)
  end.

(** [<[T; N]>::de_bin], B:452-484, for an element type each value of which can be
    dropped, nested [length dims] deep. *)
Fixpoint bin_arrays (c : cfg) (G : env) (d : list N) (fuel : nat) (dims : list nat) (t : ty)
  : om N berr (obj val) :=
  match dims with
  | [] => track (de_bin c G d fuel t)
  | n :: r => omap VSeq (de_array (bret tt) (bin_arrays c G d fuel r t) (bret tt) (bret tt) n)
  end.

(** [<[T; N]>::de_json] J:1051-1092 and [<[T; N]>::de_ron] R:1041-1082. *)
Fixpoint text_arrays {S} (L : lexer S) (F : flt) (c : cfg) (G : env) (fm : fmt) (fuel : nat)
  (dims : list nat) (t : ty) : om S terr (obj val) :=
  match dims with
  | [] => track (de_text L F c G fm fuel t)
  | n :: r =>
    omap VSeq (de_array (expect L (k_topen fm) (w_topen fm))
                        (text_arrays L F c G fm fuel r t)
                        (eat_tcomma L fm)
                        (expect L (k_tclose fm) (w_tclose fm)) n)
  end.
