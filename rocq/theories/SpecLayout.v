(** Specification side of "types with the same layout are interchangeable" (C85):
    when two types of one or two programs have the same binary layout, and when a
    value of the one has the same content as a value of the other. *)
From Verif Require Import Base Utf8 Types BinModel SpecBin SpecBinAcc.
Local Open Scope N_scope.

Section Open.
  Variable G : env.
  (** ** Types without bytes of their own *)
  (** [opens t v ts ws]: on the wire the value [v] of type [t] is nothing but the
      values [ws] of types [ts], one after the other.  Boxes, tuples, arrays, structs
      and proxies add nothing; a unit is nothing at all; a skipped field is not there
      (and comes back as its default).  Any type may be left closed. *)
  Inductive opens : ty -> val -> list ty -> list val -> Prop :=
  | o_closed t v : opens t v [t] [v]
  | o_unit : opens TUnit VUnit [] []
  | o_box t v ts ws : opens t v ts ws -> opens (TBox t) v ts ws
  | o_tup us vs ts ws : opens_all us vs ts ws -> opens (TTup us) (VSeq vs) ts ws
  | o_arr n t vs ts ws : opens_all (repeat t n) vs ts ws -> opens (TArr n t) (VSeq vs) ts ws
  | o_proxy p t v ts ws : opens t v ts ws -> opens (TProxy p t) (p_from p v) ts ws
  | o_dproxy i p t v ts ws : nth_error G i = Some (DProxy p t) -> opens t v ts ws -> opens (TNamed i) (p_from p v) ts ws
  | o_tuple i tr fs vs ts ws : nth_error G i = Some (DTuple tr fs) -> existsb f_skip fs = false ->
      opens_all (map f_ty fs) vs ts ws -> opens (TNamed i) (VSeq vs) ts ws
  | o_struct i df nl fs vs ts ws : nth_error G i = Some (DStruct df nl fs) ->
      opens_fields fs vs ts ws -> opens (TNamed i) (VSeq vs) ts ws
  with opens_all : list ty -> list val -> list ty -> list val -> Prop :=
  | oa_nil : opens_all [] [] [] []
  | oa_cons u us v vs t1 w1 t2 w2 : opens u v t1 w1 -> opens_all us vs t2 w2 -> opens_all (u :: us) (v :: vs) (t1 ++ t2) (w1 ++ w2)
  with opens_fields : list field -> list val -> list ty -> list val -> Prop :=
  | of_nil : opens_fields [] [] [] []
  | of_skip f fs vs ts ws : f_skip f = true -> opens_fields fs vs ts ws -> opens_fields (f :: fs) (f_tydefault f :: vs) ts ws
  | of_cons f fs v vs t1 w1 t2 w2 : f_skip f = false -> opens (f_ty f) v t1 w1 -> opens_fields fs vs t2 w2 ->
      opens_fields (f :: fs) (v :: vs) (t1 ++ t2) (w1 ++ w2).

  (** The same for the types alone. *)
  Inductive flat : ty -> list ty -> Prop :=
  | f_closed t : flat t [t]
  | f_unit : flat TUnit []
  | f_box t ts : flat t ts -> flat (TBox t) ts
  | f_tup us ts : flat_all us ts -> flat (TTup us) ts
  | f_arr n t ts : flat_all (repeat t n) ts -> flat (TArr n t) ts
  | f_proxy p t ts : flat t ts -> flat (TProxy p t) ts
  | f_dproxy i p t ts : nth_error G i = Some (DProxy p t) -> flat t ts -> flat (TNamed i) ts
  | f_tuple i tr fs ts : nth_error G i = Some (DTuple tr fs) -> existsb f_skip fs = false ->
      flat_all (map f_ty fs) ts -> flat (TNamed i) ts
  | f_struct i df nl fs ts : nth_error G i = Some (DStruct df nl fs) ->
      flat_all (map f_ty (filter (fun f => negb (f_skip f)) fs)) ts -> flat (TNamed i) ts
  with flat_all : list ty -> list ty -> Prop :=
  | fa_nil : flat_all [] []
  | fa_cons u us t1 t2 : flat u t1 -> flat_all us t2 -> flat_all (u :: us) (t1 ++ t2).
End Open.

(** ** Types with bytes of their own *)
(** Types that only match themselves. *)
Inductive basic : ty -> Prop :=
| b_int k : basic (TInt k) | b_f32 : basic TF32 | b_f64 : basic TF64 | b_bool : basic TBool
| b_str : basic TStr | b_dur : basic TDur | b_time : basic TTime.
(** A collection and its items; a map is a collection of pairs. *)
Inductive item_of : ty -> ty -> Prop :=
| i_seq k t : item_of (TSeq k t) t
| i_map k tk tv : item_of (TMap k tk tv) (TTup [tk; tv]).
(** The collection that putting these items in, in this order, gives. *)
Definition pair_val (e : val * val) : val := VSeq [fst e; snd e].
Inductive collected : ty -> list val -> val -> Prop :=
| c_seq k t ws : collected (TSeq k t) ws (VSeq (seq_of k ws []))
| c_map k tk tv es : collected (TMap k tk tv) (map pair_val es) (VMap (map_of k es [])).

(** ** Types read as what they are stored as *)
(** Strings as the bytes of their UTF-8 form, floats as their bits, durations as
    seconds and nanoseconds, times as optional durations since 1970, enums without
    contents as the position of the variant. *)
Definition byte_val (b : N) : val := VZ (Z.of_N b).
Inductive stored (G1 : env) : ty -> ty -> Prop :=
| t_str k : stored G1 TStr (TSeq k (TInt U8))
| t_f32 : stored G1 TF32 (TInt U32)
| t_f64 : stored G1 TF64 (TInt U64)
| t_dur : stored G1 TDur (TTup [TInt U64; TInt U32])
| t_time : stored G1 TTime (TOpt TDur)
| t_enum i vs : nth_error G1 i = Some (DEnum vs) -> Forall (fun v => body_tys (v_body v) = []) vs -> stored G1 (TNamed i) (TInt U16).
Inductive stored_val : ty -> val -> ty -> val -> Prop :=
| tv_str s k : stored_val TStr (VStr s) (TSeq k (TInt U8)) (VSeq (seq_of k (map byte_val (utf8_enc s)) []))
| tv_f32 b : stored_val TF32 (VF b) (TInt U32) (VZ (Z.of_N b))
| tv_f64 b : stored_val TF64 (VF b) (TInt U64) (VZ (Z.of_N b))
| tv_dur a b s ns : dur_is a b s ns -> stored_val TDur (VDur s ns) (TTup [TInt U64; TInt U32]) (VSeq [VZ (Z.of_N a); VZ (Z.of_N b)])
| tv_time s ns : stored_val TTime (VTime (Z.of_N s) ns) (TOpt TDur) (VSome (VDur s ns))
| tv_epoch : stored_val TTime (VTime 0 0) (TOpt TDur) VNone
| tv_enum i tag : stored_val (TNamed i) (VEnum tag []) (TInt U16) (VZ (Z.of_N tag)).

Section Layout.
  Variable c : cfg.
  Variables G1 G2 : env.

  (** [agree R t t']: types with bytes of their own agree, where [R] says what is to
      be taken as the same layout inside them.  The second enum may have more variants,
      at its end. *)
  Inductive agree (R : ty -> ty -> Prop) : ty -> ty -> Prop :=
  | a_basic t : basic t -> agree R t t
  | a_usize : usize_bits c = 64 -> agree R (TInt Usize) (TInt U64)
  | a_u64 : usize_bits c = 64 -> agree R (TInt U64) (TInt Usize)
  | a_stored t t' : stored G1 t t' -> agree R t t'
  | a_opt t t' : R t t' -> agree R (TOpt t) (TOpt t')
  | a_coll a b t t' : item_of a t -> item_of b t' -> R t t' -> agree R a b
  | a_enum i i' vs vs' more : nth_error G1 i = Some (DEnum vs) -> nth_error G2 i' = Some (DEnum (vs' ++ more)) ->
      Forall2 (fun x y => R (TTup (body_tys (v_body x))) (TTup (body_tys (v_body y)))) vs vs' ->
      agree R (TNamed i) (TNamed i').

  (** [t] and [t'] have the same layout: there is a way [R] of pairing types, pairing
      these two, such that types it pairs open to types that agree.  ([R] may go round
      in circles, so recursive types are included.) *)
  Definition same_layout (t t' : ty) : Prop := exists R : ty -> ty -> Prop, R t t' /\
    forall a b, R a b -> exists ts ts', flat G1 a ts /\ flat G2 b ts' /\ Forall2 (agree R) ts ts'.

  (** ** The same content *)
  Inductive same : ty -> val -> ty -> val -> Prop :=
  | m_open t v t' v' ts ws ts' ws' : opens G1 t v ts ws -> opens G2 t' v' ts' ws' -> same_each ts ws ts' ws' -> same t v t' v'
  with same_own : ty -> val -> ty -> val -> Prop :=
  | m_basic t v : basic t -> same_own t v t v
  | m_usize z : same_own (TInt Usize) (VZ z) (TInt U64) (VZ z)
  | m_u64 z : same_own (TInt U64) (VZ z) (TInt Usize) (VZ z)
  | m_stored t v t' v' : stored_val t v t' v' -> same_own t v t' v'
  | m_none t t' : same_own (TOpt t) VNone (TOpt t') VNone
  | m_some t v t' v' : same t v t' v' -> same_own (TOpt t) (VSome v) (TOpt t') (VSome v')
  | m_coll a b t t' ws ws' v v' : item_of a t -> item_of b t' -> collected a ws v -> collected b ws' v' ->
      same_items t ws t' ws' -> same_own a v b v'
  | m_enum i i' vs vs' tag x y ws ws' : nth_error G1 i = Some (DEnum vs) -> nth_error G2 i' = Some (DEnum vs') ->
      nth_error vs (N.to_nat tag) = Some x -> nth_error vs' (N.to_nat tag) = Some y ->
      same (TTup (body_tys (v_body x))) (VSeq ws) (TTup (body_tys (v_body y))) (VSeq ws') ->
      same_own (TNamed i) (VEnum tag ws) (TNamed i') (VEnum tag ws')
  with same_each : list ty -> list val -> list ty -> list val -> Prop :=
  | me_nil : same_each [] [] [] []
  | me_cons t v t' v' ts ws ts' ws' : same_own t v t' v' -> same_each ts ws ts' ws' ->
      same_each (t :: ts) (v :: ws) (t' :: ts') (v' :: ws')
  with same_items : ty -> list val -> ty -> list val -> Prop :=
  | mi_nil t t' : same_items t [] t' []
  | mi_cons t v t' v' ws ws' : same t v t' v' -> same_items t ws t' ws' -> same_items t (v :: ws) t' (v' :: ws').
End Layout.
