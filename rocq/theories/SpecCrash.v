(** Specification side of "what a JSON text does to the reader when it is neither
    accepted nor rejected": the token sequences at which reading breaks down, with a
    panic or by running on for ever.  Nothing here refers to the model of the
    parsers. *)
From Verif Require Import Base Utf8 Types BinModel Text SpecText SpecGram SpecTok SpecDoc SpecAcc.
Local Open Scope N_scope.

(** ** The five ways to break down *)
Inductive crash :=
| BadValue      (* the value of an unknown member is a comma, a colon or a closing bracket *)
| NoValue       (* the text ends where the value of an unknown member should be *)
| Unclosed      (* the text ends inside the brackets of the value of an unknown member *)
| TooLong       (* a Duration of 2^64 seconds *)
| TooLate.      (* a SystemTime later than the platform has *)
(** What happens: a panic, or (nothing) the reader runs on for ever. *)
Definition panic_of (k : crash) : option panic :=
  match k with
  | BadValue | NoValue => Some PUnimplemented
  | Unclosed => None
  | TooLong => Some PDuration
  | TooLate => Some PTime
  end.

(** ** Where *)
(** The tokens from the value of the unknown member on. *)
Definition fatal_value (xs : list lexeme) (k : crash) : Prop :=
  match k with
  | BadValue => exists p, xs = [XP p] /\ In p [44; 58; 93; 125]
  | NoValue => xs = []
  | Unclosed => (exists x r, xs = x :: r /\ (x = XP 91 \/ x = XP 123)) /\
      forall p q, xs = p ++ q -> p <> [] -> (0 < total p)%Z
  | _ => False
  end.
(** A Duration with the last second a u64 can count, and a whole second of nanoseconds. *)
Definition dur_overflow (xs : list lexeme) : Prop :=
  exists ms sa sb, object_toks ms xs /\ nat_means (unplus sa) (2 ^ 64 - 1) /\ nat_means (unplus sb) 1000000000 /\
    (ms = [(chars "secs", [XN sa]); (chars "nanos", [XN sb])] \/ ms = [(chars "nanos", [XN sb]); (chars "secs", [XN sa])]).
(** Items that were read, each with its comma. *)
Fixpoint with_commas (ls : list (list lexeme)) : list lexeme :=
  match ls with [] => [] | l :: r => l ++ xcomma :: with_commas r end.

Section Crash.
  Variables (F : flt) (c : cfg) (G : env).
  (** [l] is read as a value of type [t] (SpecAcc.v). *)
  Definition taken (t : ty) (l : list lexeme) : Prop := exists n v, takes F c G n None t l v.
  (** A member of a struct with the fields [fs] is read, or skipped. *)
  Definition passed (fs : list field) (m : str * list lexeme) : Prop :=
    (forall f, In f fs -> f_skip f = false -> key_of_field f = fst m -> taken (f_ty f) (snd m)) /\
    ((forall f, In f fs -> f_skip f = false -> key_of_field f <> fst m) -> ignored (snd m)).

  (** Reading a value of type [t] from the tokens [xs] breaks down. *)
  Inductive breaks : ty -> list lexeme -> crash -> Prop :=
  | br_opt t xs k : breaks t xs k -> breaks (TOpt t) xs k
  | br_box t xs k : breaks t xs k -> breaks (TBox t) xs k
  | br_proxy p t xs k : breaks t xs k -> breaks (TProxy p t) xs k
  | br_seq q t ls l k : Forall (taken t) ls -> breaks t l k -> breaks (TSeq q t) (XP 91 :: with_commas ls ++ l) k
  | br_key q tk tv es l k : Forall (fun e => taken tk (fst e) /\ taken tv (snd e)) es -> breaks tk l k ->
      breaks (TMap q tk tv) (XP 123 :: with_commas (map (fun e => fst e ++ xcolon :: snd e) es) ++ l) k
  | br_entry q tk tv es x l k : Forall (fun e => taken tk (fst e) /\ taken tv (snd e)) es -> taken tk x -> breaks tv l k ->
      breaks (TMap q tk tv) (XP 123 :: with_commas (map (fun e => fst e ++ xcolon :: snd e) es) ++ x ++ xcolon :: l) k
  | br_arr m t xs k : breaks_items (repeat t m) xs k -> breaks (TArr m t) xs k
  | br_tup ts xs k : (2 <= length ts <= 4)%nat -> breaks_items ts xs k -> breaks (TTup ts) xs k
  | br_dur xs : dur_overflow xs -> breaks TDur xs TooLong
  | br_time xs : dur_overflow xs -> breaks TTime xs TooLong
  | br_late xs s ns : dur_toks xs s ns -> time_max c < s -> breaks TTime xs TooLate
  | br_struct i dflt nl fs xs k : nth_error G i = Some (DStruct dflt nl fs) -> breaks_members fs xs k -> breaks (TNamed i) xs k
  | br_transparent i f xs k : nth_error G i = Some (DTuple true [f]) -> breaks (f_ty f) xs k -> breaks (TNamed i) xs k
  | br_tuple i tr fs xs k : nth_error G i = Some (DTuple tr fs) -> (tr = true -> length fs <> 1%nat) ->
      breaks_items (map f_ty fs) xs k -> breaks (TNamed i) xs k
  | br_variant_items i vs vr b ts ys k : nth_error G i = Some (DEnum vs) -> In vr vs -> v_body vr = BTuple ts ->
      breaks_items ts ys k -> breaks (TNamed i) (XP 123 :: XS b (key_of_variant Json vr) :: xcolon :: ys) k
  | br_variant_members i vs vr b fs ys k : nth_error G i = Some (DEnum vs) -> In vr vs -> v_body vr = BStruct fs ->
      breaks_members fs ys k -> breaks (TNamed i) (XP 123 :: XS b (key_of_variant Json vr) :: xcolon :: ys) k
  | br_conv i p t xs k : nth_error G i = Some (DProxy p t) -> breaks t xs k -> breaks (TNamed i) xs k
  (** ... in one of the items of a tuple of the types [ts] ... *)
  with breaks_items : list ty -> list lexeme -> crash -> Prop :=
  | bi_item ts1 t ts2 ls l k : Forall2 taken ts1 ls -> breaks t l k -> breaks_items (ts1 ++ t :: ts2) (XP 91 :: with_commas ls ++ l) k
  (** ... in one of the members of an object, read as the fields [fs]. *)
  with breaks_members : list field -> list lexeme -> crash -> Prop :=
  | bm_known fs ms ls b f l k : Forall2 member_toks ms ls -> Forall (passed fs) ms -> In f fs -> f_skip f = false ->
      breaks (f_ty f) l k -> breaks_members fs (XP 123 :: with_commas ls ++ XS b (key_of_field f) :: xcolon :: l) k
  | bm_unknown fs ms ls b name l k : fs <> [] -> Forall2 member_toks ms ls -> Forall (passed fs) ms ->
      (forall f, In f fs -> f_skip f = false -> key_of_field f <> name) ->
      fatal_value l k -> breaks_members fs (XP 123 :: with_commas ls ++ XS b name :: xcolon :: l) k.

  (** ** Texts *)
  (** What has to come behind the tokens: anything; the end; the end or another token. *)
  Definition behind (k : crash) (r : str) : Prop :=
    match k with
    | BadValue => True
    | NoValue | Unclosed => at_end Json r
    | TooLong | TooLate => exists nx, followed F r nx
    end.
  Definition breaks_down (t : ty) (text : str) (k : crash) : Prop :=
    exists xs r, tokens Json F xs text r /\ breaks t xs k /\ behind k r.
End Crash.
Scheme breaks_ind2 := Minimality for breaks Sort Prop
  with breaks_items_ind2 := Minimality for breaks_items Sort Prop
  with breaks_members_ind2 := Minimality for breaks_members Sort Prop.
Combined Scheme breaks_mutind from breaks_ind2, breaks_items_ind2, breaks_members_ind2.
