(** Specification side of "what happens to any bytes given to a binary read"
    (C77): which bytes are taken as which value, and, for every other input, which
    error or panic comes back and where the offset stands.  Nothing here refers to
    the model of the reader. *)
From Verif Require Import Base Utf8 Types BinModel SpecBin.
Local Open Scope N_scope.

(** ** Numbers *)
(** [bs] are the [w] bytes of the unsigned number [m], least significant first. *)
Definition num (w : nat) (bs : list N) (m : N) : Prop := is_le w (Z.of_N m) bs /\ m < 256 ^ N.of_nat w.
(** A count or usize: 8 bytes, of which a 32-bit machine keeps the low half. *)
Definition count_is (c : cfg) (lb : list N) (n : N) : Prop := exists m, num 8 lb m /\ n = m mod usize_mod c.
(** Room is asked for up front by Vec, HashSet and HashMap. *)
Definition room_seq (c : cfg) (k : seqk) (t : ty) (n : N) : Prop :=
  match k with SVec | SHSet => n <= alloc_max c t | SList | SBSet => True end.
Definition room_map (c : cfg) (k : mapk) (tk : ty) (n : N) : Prop :=
  match k with MHash => n <= alloc_max c tk | MBTree => True end.
(** Seconds and nanoseconds as read, and as they end up: exactly 10^9 nanoseconds
    are still taken, as one more second. *)
Definition dur_is (a b s ns : N) : Prop :=
  b < 1000000000 /\ s = a /\ ns = b \/ b = 1000000000 /\ a + 1 < 2 ^ 64 /\ s = a + 1 /\ ns = 0.

(** The types of the parts of a variant ([skip] on them is not looked at). *)
Definition body_tys (b : vbody) : list ty :=
  match b with BUnit => [] | BTuple ts => ts | BStruct fs => map f_ty fs end.

(** ** The bytes of a value *)
Section Spells.
  Variable c : cfg.
  Variable G : env.

  Inductive spells : ty -> val -> list N -> Prop :=
  | s_usize lb n : count_is c lb n -> spells (TInt Usize) (VZ (Z.of_N n)) lb
  | s_int k z bs : k <> Usize -> int_ok c k z -> is_le (ik_bytes k) z bs -> spells (TInt k) (VZ z) bs
  | s_f32 b bs : num 4 bs b -> spells TF32 (VF b) bs
  | s_f64 b bs : num 8 bs b -> spells TF64 (VF b) bs
  | s_false : spells TBool (VBool false) [0]
  | s_true x : x <> 0 -> spells TBool (VBool true) [x]       (* any byte but 0 *)
  | s_str s lb : Forall scalar s -> count_is c lb (lenN (utf8_enc s)) -> spells TStr (VStr s) (lb ++ utf8_enc s)
  | s_unit : spells TUnit VUnit []
  | s_none t x : x <> 1 -> spells (TOpt t) VNone [x]         (* any byte but 1 *)
  | s_some t v bs : spells t v bs -> spells (TOpt t) (VSome v) (1 :: bs)
  | s_seq k t ws lb bs : count_is c lb (lenN ws) -> room_seq c k t (lenN ws) ->
      spells_items t ws bs -> spells (TSeq k t) (VSeq (seq_of k ws [])) (lb ++ bs)
  | s_map k tk tv es lb bs : count_is c lb (lenN es) -> room_map c k tk (lenN es) ->
      spells_entries tk tv es bs -> spells (TMap k tk tv) (VMap (map_of k es [])) (lb ++ bs)
  | s_arr n t ws bs : length ws = n -> spells_items t ws bs -> spells (TArr n t) (VSeq ws) bs
  | s_tup ts ws bs : spells_parts ts ws bs -> spells (TTup ts) (VSeq ws) bs
  | s_box t v bs : spells t v bs -> spells (TBox t) v bs
  | s_dur a b s ns sb nb : num 8 sb a -> num 4 nb b -> dur_is a b s ns -> spells TDur (VDur s ns) (sb ++ nb)
  | s_time s ns bs : spells TDur (VDur s ns) bs -> s <= time_max c -> spells TTime (VTime (Z.of_N s) ns) (1 :: bs)
  | s_epoch x : x <> 1 -> spells TTime (VTime 0 0) [x]
  | s_proxy p t v bs : spells t v bs -> spells (TProxy p t) (p_from p v) bs
  | s_struct i df nl fs ws bs : nth_error G i = Some (DStruct df nl fs) ->
      spells_fields fs ws bs -> spells (TNamed i) (VSeq ws) bs
  | s_tuple i tr fs ws bs : nth_error G i = Some (DTuple tr fs) -> existsb f_skip fs = false ->
      spells_parts (map f_ty fs) ws bs -> spells (TNamed i) (VSeq ws) bs
  | s_dproxy i p t v bs : nth_error G i = Some (DProxy p t) -> spells t v bs -> spells (TNamed i) (p_from p v) bs
  | s_enum i vs tag vr tb ws bs : nth_error G i = Some (DEnum vs) -> num 2 tb tag ->
      nth_error vs (N.to_nat tag) = Some vr -> spells_parts (body_tys (v_body vr)) ws bs ->
      spells (TNamed i) (VEnum tag ws) (tb ++ bs)
  (** Consecutive values: of one type, keys and values in turn, of given types. *)
  with spells_items : ty -> list val -> list N -> Prop :=
  | si_nil t : spells_items t [] []
  | si_cons t v ws b1 b2 : spells t v b1 -> spells_items t ws b2 -> spells_items t (v :: ws) (b1 ++ b2)
  with spells_entries : ty -> ty -> list (val * val) -> list N -> Prop :=
  | se_nil tk tv : spells_entries tk tv [] []
  | se_cons tk tv x y es b1 b2 b3 : spells tk x b1 -> spells tv y b2 -> spells_entries tk tv es b3 ->
      spells_entries tk tv ((x, y) :: es) (b1 ++ b2 ++ b3)
  with spells_parts : list ty -> list val -> list N -> Prop :=
  | sp_nil : spells_parts [] [] []
  | sp_cons t ts v ws b1 b2 : spells t v b1 -> spells_parts ts ws b2 -> spells_parts (t :: ts) (v :: ws) (b1 ++ b2)
  (** The fields of a struct: a skipped one takes no bytes and gets the default of its type. *)
  with spells_fields : list field -> list val -> list N -> Prop :=
  | sf_nil : spells_fields [] [] []
  | sf_skip f fs ws bs : f_skip f = true -> spells_fields fs ws bs -> spells_fields (f :: fs) (f_tydefault f :: ws) bs
  | sf_cons f fs v ws b1 b2 : f_skip f = false -> spells (f_ty f) v b1 -> spells_fields fs ws b2 ->
      spells_fields (f :: fs) (v :: ws) (b1 ++ b2).

  (** ** Everything else *)
  Inductive end_ := Fails (e : berr) | Panics (p : panic).

  (** The number of bytes asked for first. *)
  Inductive head : ty -> N -> Prop :=
  | h_int k : head (TInt k) (N.of_nat (ik_bytes k))
  | h_f32 : head TF32 4
  | h_f64 : head TF64 8
  | h_bool : head TBool 1
  | h_str : head TStr 8
  | h_opt t : head (TOpt t) 1
  | h_seq k t : head (TSeq k t) 8
  | h_map k tk tv : head (TMap k tk tv) 8
  | h_dur : head TDur 8
  | h_time : head TTime 1
  | h_enum i vs : nth_error G i = Some (DEnum vs) -> head (TNamed i) 2.

  (** [stops t o rest o' x]: reading a [t] at offset [o], where [rest] is all the
      input from there on, ends with [x] and the offset at [o'].  The length of the
      whole input is [o + lenN rest]. *)
  Inductive stops : ty -> N -> list N -> N -> end_ -> Prop :=
  (** the first bytes are not there *)
  | x_head t w o rest : head t w -> lenN rest < w ->
      stops t o rest o (Fails {| e_o := o; e_msg := ELength w (o + lenN rest) |})
  (** strings: the end is beyond the address space, beyond the input; not UTF-8 *)
  | x_str_wrap o lb rest n : count_is c lb n -> usize_mod c <= o + 8 + n ->
      stops TStr o (lb ++ rest) (o + 8) (Panics (if overflow_checks c then POverflow else PSlice))
  | x_str_short o lb rest n : count_is c lb n -> o + 8 + n < usize_mod c -> lenN rest < n ->
      stops TStr o (lb ++ rest) (o + 8) (Fails {| e_o := o + 8; e_msg := ELength 1 (o + lenN (lb ++ rest)) |})
  | x_str_utf8 o lb bs rest : count_is c lb (lenN bs) -> (forall s, Forall scalar s -> utf8_enc s <> bs) ->
      stops TStr o (lb ++ bs ++ rest) (o + 8)
        (Fails {| e_o := o + 8; e_msg := ELength (lenN bs) (o + lenN (lb ++ bs ++ rest)) |})
  | x_some t o rest o' x : stops t (o + 1) rest o' x -> stops (TOpt t) o (1 :: rest) o' x
  (** collections: no room, or one of the promised items is bad *)
  | x_seq_room k t o lb rest n : count_is c lb n -> ~ room_seq c k t n ->
      stops (TSeq k t) o (lb ++ rest) (o + 8) (Panics PCapacity)
  | x_seq k t o lb n ws bs rest o' x : count_is c lb n -> room_seq c k t n -> lenN ws < n ->
      spells_items t ws bs -> stops t (o + 8 + lenN bs) rest o' x -> stops (TSeq k t) o (lb ++ bs ++ rest) o' x
  | x_map_room k tk tv o lb rest n : count_is c lb n -> ~ room_map c k tk n ->
      stops (TMap k tk tv) o (lb ++ rest) (o + 8) (Panics PCapacity)
  | x_map_key k tk tv o lb n es bs rest o' x : count_is c lb n -> room_map c k tk n -> lenN es < n ->
      spells_entries tk tv es bs -> stops tk (o + 8 + lenN bs) rest o' x ->
      stops (TMap k tk tv) o (lb ++ bs ++ rest) o' x
  | x_map_val k tk tv o lb n es bs y b1 rest o' x : count_is c lb n -> room_map c k tk n -> lenN es < n ->
      spells_entries tk tv es bs -> spells tk y b1 -> stops tv (o + 8 + lenN bs + lenN b1) rest o' x ->
      stops (TMap k tk tv) o (lb ++ bs ++ b1 ++ rest) o' x
  | x_arr n t o ws bs rest o' x : (length ws < n)%nat -> spells_items t ws bs ->
      stops t (o + lenN bs) rest o' x -> stops (TArr n t) o (bs ++ rest) o' x
  | x_tup ts1 t ts2 o ws bs rest o' x : spells_parts ts1 ws bs ->
      stops t (o + lenN bs) rest o' x -> stops (TTup (ts1 ++ t :: ts2)) o (bs ++ rest) o' x
  | x_box t o rest o' x : stops t o rest o' x -> stops (TBox t) o rest o' x
  (** durations: no nanoseconds, too many, or a carry that overflows *)
  | x_dur_short o sb rest : lenN sb = 8 -> lenN rest < 4 ->
      stops TDur o (sb ++ rest) (o + 8) (Fails {| e_o := o + 8; e_msg := ELength 4 (o + 8 + lenN rest) |})
  | x_dur_range o sb nb b rest : lenN sb = 8 -> num 4 nb b -> 1000000000 < b ->
      stops TDur o (sb ++ nb ++ rest) (o + 12) (Fails {| e_o := o + 12; e_msg := ERange |})
  | x_dur_carry o sb nb rest : num 8 sb (2 ^ 64 - 1) -> num 4 nb 1000000000 ->
      stops TDur o (sb ++ nb ++ rest) (o + 12) (Panics PDuration)
  | x_time o rest o' x : stops TDur (o + 1) rest o' x -> stops TTime o (1 :: rest) o' x
  | x_time_late s ns o bs rest : spells TDur (VDur s ns) bs -> time_max c < s ->
      stops TTime o (1 :: bs ++ rest) (o + 1 + lenN bs) (Panics PTime)
  | x_proxy p t o rest o' x : stops t o rest o' x -> stops (TProxy p t) o rest o' x
  | x_struct i df nl fs1 f fs2 o ws bs rest o' x : nth_error G i = Some (DStruct df nl (fs1 ++ f :: fs2)) ->
      f_skip f = false -> spells_fields fs1 ws bs -> stops (f_ty f) (o + lenN bs) rest o' x ->
      stops (TNamed i) o (bs ++ rest) o' x
  | x_tuple i tr fs ts1 t ts2 o ws bs rest o' x : nth_error G i = Some (DTuple tr fs) ->
      existsb f_skip fs = false -> map f_ty fs = ts1 ++ t :: ts2 -> spells_parts ts1 ws bs ->
      stops t (o + lenN bs) rest o' x -> stops (TNamed i) o (bs ++ rest) o' x
  | x_dproxy i p t o rest o' x : nth_error G i = Some (DProxy p t) -> stops t o rest o' x -> stops (TNamed i) o rest o' x
  (** enums: the error for an unknown tag always says offset 0 *)
  | x_tag i vs o tb tag rest : nth_error G i = Some (DEnum vs) -> num 2 tb tag -> nth_error vs (N.to_nat tag) = None ->
      stops (TNamed i) o (tb ++ rest) (o + 2) (Fails {| e_o := 0; e_msg := EDiscriminant tag |})
  | x_enum i vs o tb tag vr ts1 t ts2 ws bs rest o' x : nth_error G i = Some (DEnum vs) -> num 2 tb tag ->
      nth_error vs (N.to_nat tag) = Some vr -> body_tys (v_body vr) = ts1 ++ t :: ts2 -> spells_parts ts1 ws bs ->
      stops t (o + 2 + lenN bs) rest o' x -> stops (TNamed i) o (tb ++ bs ++ rest) o' x
  (** no such program: a name without a declaration, or one the derive macro panics on *)
  | x_undeclared i o rest : nth_error G i = None -> stops (TNamed i) o rest o (Panics PNotCompiled)
  | x_tuple_skip i tr fs o rest : nth_error G i = Some (DTuple tr fs) -> existsb f_skip fs = true ->
      stops (TNamed i) o rest o (Panics PNotCompiled).
End Spells.

Scheme spells_mind := Minimality for spells Sort Prop
  with spells_items_mind := Minimality for spells_items Sort Prop
  with spells_entries_mind := Minimality for spells_entries Sort Prop
  with spells_parts_mind := Minimality for spells_parts Sort Prop
  with spells_fields_mind := Minimality for spells_fields Sort Prop.
Combined Scheme spells_mutind from spells_mind, spells_items_mind, spells_entries_mind, spells_parts_mind, spells_fields_mind.
