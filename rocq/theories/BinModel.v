(** Model of src/serde_bin.rs and derive/src/serde_bin.rs. *)
From Verif Require Import Base Utf8 Types.
Local Open Scope N_scope.

(** ** Integers as bytes: [to_le_bytes] / [from_le_bytes] (std). *)
Fixpoint le_bytes (w : nat) (n : N) : list N :=
  match w with
  | O => []
  | S w' => n mod 256 :: le_bytes w' (n / 256)
  end.

Fixpoint of_le (l : list N) : N :=
  match l with
  | [] => 0
  | b :: r => b + 256 * of_le r
  end.

(** Two's complement of width [w] bytes: the bits of a (signed) integer. *)
Definition to_bits (w : nat) (z : Z) : N := Z.to_N (z mod 2 ^ (8 * Z.of_nat w)).

Definition of_bits (k : ik) (n : N) : Z :=
  let w := (8 * Z.of_nat (ik_bytes k))%Z in
  if ik_signed k && (2 ^ (w - 1) <=? Z.of_N n)%Z then (Z.of_N n - 2 ^ w)%Z else Z.of_N n.

(** ** Errors: serde_bin.rs:57-76 (DeBinErrReason, DeBinErr). *)
Inductive berr_msg :=
| ELength (expected actual : N)
| ERange
| EDiscriminant (tag : N).
Record berr := { e_o : N; e_msg : berr_msg }.

(** ** Serialization. The output vector is passed in and returned extended;
    serialization cannot return an error, hence the empty error type. *)
Definition sres := res Empty_set (list N).

(** [s.extend_from_slice(&bytes)] *)
Definition emit (bytes out : list N) : sres := Ok (out ++ bytes).

(** usize::ser_bin, serde_bin.rs:166-172: always as u64. *)
Definition ser_usize (n : N) (out : list N) : sres := emit (le_bytes 8 (n mod 2 ^ 64)) out.

Section SerHelpers.
  Variable ser : ty -> val -> list N -> sres.

  (** [for item in self { item.ser_bin(s); }], serde_bin.rs:290-292 etc. *)
  Fixpoint ser_items (t : ty) (l : list val) (out : list N) : sres :=
    match l with
    | [] => Ok out
    | v :: r => rbind (ser t v out) (ser_items t r)
    end.

  (** map entries, serde_bin.rs:590-593 and 622-625. *)
  Fixpoint ser_entries (tk tv : ty) (l : list (val * val)) (out : list N) : sres :=
    match l with
    | [] => Ok out
    | (k, v) :: r => rbind (ser tk k out) (fun o1 => rbind (ser tv v o1) (ser_entries tk tv r))
    end.

  (** tuples, serde_bin.rs:500-579, and tuple variants, derive/src/serde_bin.rs:248-262. *)
  Fixpoint ser_tys (ts : list ty) (l : list val) (out : list N) : sres :=
    match ts, l with
    | [], [] => Ok out
    | t :: ts', v :: r => rbind (ser t v out) (ser_tys ts' r)
    | _, _ => Panic PIllTyped
    end.

  (** derived structs, derive/src/serde_bin.rs:44-61 (named) and 85-98
      (unnamed): skipped fields are not written. [honour_skip = false] gives the
      struct-like enum variants, derive/src/serde_bin.rs:264-285, which write
      every field. *)
  Fixpoint ser_fields (honour_skip : bool) (fs : list field) (l : list val) (out : list N) : sres :=
    match fs, l with
    | [], [] => Ok out
    | f :: fs', v :: r =>
      if honour_skip && f_skip f then ser_fields honour_skip fs' r out
      else rbind (ser (f_ty f) v out) (ser_fields honour_skip fs' r)
    | _, _ => Panic PIllTyped
    end.
End SerHelpers.

(** The family of [ser_bin] methods, indexed by type description. *)
Fixpoint ser_bin (G : env) (fuel : nat) (t : ty) (v : val) (out : list N) {struct fuel} : sres :=
  match fuel with
  | O => NoFuel
  | S n =>
    let ser := ser_bin G n in
    match t, v with
    | TInt Usize, VZ z => ser_usize (Z.to_N z) out                 (* 166-172 *)
    | TInt k, VZ z => emit (le_bytes (ik_bytes k) (to_bits (ik_bytes k) z)) out  (* 122-127, 213-217 *)
    | TF32, VF b => emit (le_bytes 4 b) out                         (* 122-127 *)
    | TF64, VF b => emit (le_bytes 8 b) out
    | TBool, VBool b => emit [if b then 1 else 0] out               (* 219-223 *)
    | TStr, VStr s =>                                               (* 246-252 *)
      rbind (ser_usize (lenN (utf8_enc s)) out) (emit (utf8_enc s))
    | TUnit, VUnit => Ok out                                        (* 486-491 *)
    | TOpt t', VSome w => rbind (emit [1] out) (ser t' w)           (* 393-405 *)
    | TOpt t', VNone => emit [0] out
    | TSeq k t', VSeq l =>                                          (* 283-294, 310-321, 338-349, 366-377 *)
      rbind (ser_usize (lenN l) out) (ser_items ser t' l)
    | TMap k tk tv, VMap l =>                                       (* 582-595, 615-628 *)
      rbind (ser_usize (lenN l) out) (ser_entries ser tk tv l)
    | TArr _ t', VSeq l => ser_items ser t' l out                   (* 431-450 *)
    | TTup ts, VSeq l => ser_tys ser ts l out                       (* 500-579 *)
    | TBox t', w => ser t' w out                                    (* 647-654 *)
    | TDur, VDur s ns =>                                            (* 665-672 *)
      rbind (emit (le_bytes 8 s) out) (emit (le_bytes 4 ns))
    | TTime, VTime s ns =>                                          (* 691-696 *)
      (* duration_since(UNIX_EPOCH).ok().ser_bin(s) *)
      if (s <? 0)%Z then emit [0] out
      else rbind (emit [1] out) (fun o1 =>
           rbind (emit (le_bytes 8 (Z.to_N s)) o1) (emit (le_bytes 4 ns)))
    | TProxy p t', w => ser t' (p_to p w) out                       (* derive/src/serde_bin.rs:45-52 *)
    | TNamed i, w =>
      match nth_error G i, w with
      | Some (DStruct _ _ fs), VSeq l => ser_fields ser true fs l out
      | Some (DTuple _ fs), VSeq l => ser_fields ser true fs l out
      | Some (DProxy p t'), w' => ser t' (p_to p w') out            (* derive/src/serde_bin.rs:11-23 *)
      | Some (DEnum vs), VEnum tag l =>                             (* derive/src/serde_bin.rs:228-305 *)
        match nth_error vs (N.to_nat tag) with
        | None => Panic PIllTyped
        | Some vr =>
          rbind (emit (le_bytes 2 tag) out) (fun o1 =>
          match v_body vr with
          | BUnit => match l with [] => Ok o1 | _ => Panic PIllTyped end
          | BTuple ts => ser_tys ser ts l o1
          | BStruct fs => ser_fields ser false fs l o1
          end)
        end
      | _, _ => Panic PIllTyped
      end
    | _, _ => Panic PIllTyped
    end
  end.

(** [serialize_bin], serde_bin.rs:15-19. *)
Definition serialize_bin (G : env) (fuel : nat) (t : ty) (v : val) : sres :=
  ser_bin G fuel t v [].

(** ** Deserialization: state is the offset, which is kept on errors too. *)
Definition bm (A : Type) := N -> N * res berr A.

Definition bret {A} (a : A) : bm A := fun o => (o, Ok a).
Definition bfail {A} (r : res berr A) : bm A := fun o => (o, r).
Definition bbind {A B} (m : bm A) (f : A -> bm B) : bm B := fun o =>
  match m o with
  | (o', Ok a) => f a o'
  | (o', Err e) => (o', Err e)
  | (o', Panic p) => (o', Panic p)
  | (o', NoFuel) => (o', NoFuel)
  end.

Section De.
  Variable c : cfg.
  Variable G : env.
  Variable d : list N.   (* the input slice *)

  Definition len_err (o exp : N) : berr := {| e_o := o; e_msg := ELength exp (lenN d) |}.

  (** Fixed width read, serde_bin.rs:129-149, and (with [w = 1]) the byte reads
      of u8 196-211, bool 225-244 and Option 407-429.  On success the offset
      moves by [w]; [d[o..e]] panics if the addition wrapped. *)
  Definition rd_fixed (w : N) : bm (list N) := fun o =>
    match usize_add c o w with
    | Ok e =>
      if lenN d <? e then (o, Err (len_err o w))
      else if e <? o then (o, Panic PSlice)
      else (e, Ok (slice o w d))
    | Err e => (o, Err e)
    | Panic p => (o, Panic p)
    | NoFuel => (o, NoFuel)
    end.

  (** usize::de_bin, serde_bin.rs:174-194: [d.get(o..o+8)], then [m as usize]
      (truncating on 32-bit targets). *)
  Definition rd_usize : bm N := fun o =>
    match usize_add c o 8 with
    | Ok e =>
      if (o <=? e) && (e <=? lenN d) then (e, Ok (of_le (slice o 8 d) mod usize_mod c))
      else (o, Err (len_err o 8))
    | Err e => (o, Err e)
    | Panic p => (o, Panic p)
    | NoFuel => (o, NoFuel)
    end.

  (** String::de_bin, serde_bin.rs:254-281. *)
  Definition rd_str : bm str :=
    bbind rd_usize (fun len o =>
      match usize_add c o len with
      | Ok e =>
        if lenN d <? e then (o, Err (len_err o 1))
        else if e <? o then (o, Panic PSlice)
        else match utf8_dec (slice o len d) with
             | Some s => (e, Ok s)
             | None => (o, Err (len_err o len))
             end
      | Err e => (o, Err e)
      | Panic p => (o, Panic p)
      | NoFuel => (o, NoFuel)
      end).

  (** Duration::new (std): nanoseconds >= 10^9 carry into the seconds, with a
      panic on overflow. *)
  Definition duration_new (s ns : N) : bm val :=
    if ns <? 1000000000 then bret (VDur s ns)
    else if s + ns / 1000000000 <? 2 ^ 64 then bret (VDur (s + ns / 1000000000) (ns mod 1000000000))
    else bfail (Panic PDuration).

  (** Duration::de_bin, serde_bin.rs:674-688. *)
  Definition rd_dur : bm val :=
    bbind (rd_fixed 8) (fun bs =>
    bbind (rd_fixed 4) (fun bn =>
      let ns := of_le bn in
      if 1000000000 <? ns then fun o => (o, Err {| e_o := o; e_msg := ERange |})
      else duration_new (of_le bs) ns)).

  (** SystemTime::de_bin, serde_bin.rs:699-706; [UNIX_EPOCH + duration] panics
      when the result is not representable. *)
  Definition rd_time : bm val :=
    bbind (rd_fixed 1) (fun b =>
      if of_le b =? 1 then
        bbind rd_dur (fun v =>
          match v with
          | VDur s ns => if s <=? time_max c then bret (VTime (Z.of_N s) ns) else bfail (Panic PTime)
          | _ => bfail (Panic PIllTyped)
          end)
      else bret (VTime 0 0)).

  (** [Collection::with_capacity(len)]. *)
  Definition with_capacity (t : ty) (len : N) : bm unit :=
    if len <=? alloc_max c t then bret tt else bfail (Panic PCapacity).

  Section Helpers.
    Variable de : ty -> bm val.

    (** [for _ in 0..len { out.push(de_bin(o, d)?) }], serde_bin.rs:296-308,
        323-335, 352-364, 379-391. *)
    Definition de_items (k : seqk) (t : ty) (len : N) : bm (list val) := fun o =>
      iter_N (fun o acc => bbind (de t) (fun v => bret (seq_add k v acc)) o) len o [].

    (** maps, serde_bin.rs:598-613 and 630-645. *)
    Definition de_entries (k : mapk) (tk tv : ty) (len : N) : bm (list (val * val)) := fun o =>
      iter_N (fun o acc =>
        bbind (de tk) (fun x => bbind (de tv) (fun y => bret (map_add k x y acc))) o) len o [].

    (** [T; N], serde_bin.rs:452-484 (the MaybeUninit slots are modelled
        separately, ArrayDrop.v). *)
    Fixpoint de_rep (n : nat) (t : ty) : bm (list val) :=
      match n with
      | O => bret []
      | S n' => bbind (de t) (fun v => bbind (de_rep n' t) (fun r => bret (v :: r)))
      end.

    (** tuples, serde_bin.rs:511-579, tuple variants derive/src/serde_bin.rs:327-341. *)
    Fixpoint de_tys (ts : list ty) : bm (list val) :=
      match ts with
      | [] => bret []
      | t :: ts' => bbind (de t) (fun v => bbind (de_tys ts') (fun r => bret (v :: r)))
      end.

    (** derived structs, derive/src/serde_bin.rs:122-151 and 177-206: skipped
        fields get [Default::default()]; [honour_skip = false]: struct-like
        variants, 342-362. *)
    Fixpoint de_fields (honour_skip : bool) (fs : list field) : bm (list val) :=
      match fs with
      | [] => bret []
      | f :: fs' =>
        bbind (if honour_skip && f_skip f then bret (f_tydefault f) else de (f_ty f))
              (fun v => bbind (de_fields honour_skip fs') (fun r => bret (v :: r)))
      end.
  End Helpers.

  Definition bmap {A B} (f : A -> B) (m : bm A) : bm B := bbind m (fun a => bret (f a)).

  (** The family of [de_bin] functions. *)
  Fixpoint de_bin (fuel : nat) (t : ty) {struct fuel} : bm val :=
    match fuel with
    | O => fun o => (o, NoFuel)
    | S n =>
      let de := de_bin n in
      match t with
      | TInt Usize => bmap (fun m => VZ (Z.of_N m)) rd_usize
      | TInt k => bmap (fun b => VZ (of_bits k (of_le b))) (rd_fixed (N.of_nat (ik_bytes k)))
      | TF32 => bmap (fun b => VF (of_le b)) (rd_fixed 4)
      | TF64 => bmap (fun b => VF (of_le b)) (rd_fixed 8)
      | TBool => bmap (fun b => VBool (negb (of_le b =? 0))) (rd_fixed 1)
      | TStr => bmap VStr rd_str
      | TUnit => bret VUnit                                        (* 493-498 *)
      | TOpt t' =>
        bbind (rd_fixed 1) (fun b =>
          if of_le b =? 1 then bmap VSome (de t') else bret VNone)
      | TSeq k t' =>
        bbind rd_usize (fun len =>
          bbind (match k with SVec | SHSet => with_capacity t' len | _ => bret tt end)
                (fun _ => bmap VSeq (de_items de k t' len)))
      | TMap k tk tv =>
        bbind rd_usize (fun len =>
          bbind (match k with MHash => with_capacity tk len | MBTree => bret tt end)
                (fun _ => bmap VMap (de_entries de k tk tv len)))
      | TArr n' t' => bmap VSeq (de_rep de n' t')
      | TTup ts => bmap VSeq (de_tys de ts)
      | TBox t' => de t'                                           (* 656-663 *)
      | TDur => rd_dur
      | TTime => rd_time
      | TProxy p t' => bmap (p_from p) (de t')                     (* derive/src/serde_bin.rs:123-132 *)
      | TNamed i =>
        match nth_error G i with
        | Some (DStruct _ _ fs) => bmap VSeq (de_fields de true fs)
        | Some (DTuple _ fs) =>
          (* a skipped unnamed field makes the macro panic: field_name.unwrap() *)
          if existsb f_skip fs then bfail (Panic PNotCompiled)
          else bmap VSeq (de_fields de true fs)
        | Some (DProxy p t') => bmap (p_from p) (de t')            (* 25-37 *)
        | Some (DEnum vs) =>                                       (* derive/src/serde_bin.rs:307-391 *)
          bbind (rd_fixed 2) (fun b =>
            let tag := of_le b in
            match nth_error vs (N.to_nat tag) with
            | None => bfail (Err {| e_o := 0; e_msg := EDiscriminant tag |})
            | Some vr =>
              match v_body vr with
              | BUnit => bret (VEnum tag [])
              | BTuple ts => bmap (VEnum tag) (de_tys de ts)
              | BStruct fs => bmap (VEnum tag) (de_fields de false fs)
              end
            end)
        | None => bfail (Panic PNotCompiled)
        end
      end
    end.

  (** [deserialize_bin], serde_bin.rs:37-39. *)
  Definition deserialize_bin (fuel : nat) (t : ty) : res berr val :=
    snd (de_bin fuel t 0).
End De.
