(** Specification side of "a value is written as the document that represents it":
    which JSON document a value of a type is written as.  Nothing here refers to the
    model of the writers. *)
From Verif Require Import Base Utf8 Types Text SpecText SpecGram SpecDoc.
Local Open Scope N_scope.

(** The decimal literal of an integer: a minus sign if negative, no leading zeros. *)
Definition decimal_literal (z : Z) (s : str) : Prop :=
  exists sg d, s = sg ++ d /\ (sg = [] \/ sg = [45] /\ (z < 0)%Z) /\ all_digits d /\ no_leading_zero d /\ signed_value sg d = z.
Definition number_doc (z : Z) (d : doc) : Prop := exists s, decimal_literal z s /\ d = JNum s.
(** A duration: the seconds, and the nanoseconds unless zero. *)
Definition dur_doc (s ns : N) (d : doc) : Prop :=
  exists a b, number_doc (Z.of_N s) a /\ number_doc (Z.of_N ns) b /\
    d = JObj ((chars "secs", a) :: if ns =? 0 then [] else [(chars "nanos", b)]).

(** The documents of the elements of a tuple. *)
Section Tuples.
  Context {doc : Type}.
  Variable show : ty -> val -> doc -> Prop.
  Inductive tuple_shown : list ty -> list val -> list doc -> Prop :=
  | tsh_nil : tuple_shown [] [] []
  | tsh_cons t v d ts l ds : show t v d -> tuple_shown ts l ds -> tuple_shown (t :: ts) (v :: l) (d :: ds).
End Tuples.
Section Members.
  Variable show : ty -> val -> doc -> Prop.
  (** What is written for a field that is written: for [Option] fields the contents. *)
  Definition field_shown (null : bool) (f : field) (v : val) (d : doc) : Prop :=
    if f_isopt f then
      match v with
      | VNone => null = true /\ d = JNull
      | VSome w => match f_ty f with TOpt t => show t w d | TProxy p t => show (TProxy p t) w d | _ => False end
      | _ => False
      end
    else show (f_ty f) v d.
  (** The members of an object, in the order of the fields; [skip], [null], [key]:
      which fields are not written, for which a [None] is written as null, and
      their names. *)
  Inductive members_shown (skip null : field -> bool) (key : field -> str) : list field -> list val -> list (str * doc) -> Prop :=
  | msh_nil : members_shown skip null key [] [] []
  | msh_skip f v fs l ms : skip f = true -> members_shown skip null key fs l ms -> members_shown skip null key (f :: fs) (v :: l) ms
  | msh_none f fs l ms : skip f = false -> f_isopt f = true -> null f = false ->
      members_shown skip null key fs l ms -> members_shown skip null key (f :: fs) (VNone :: l) ms
  | msh_member f v d fs l ms : skip f = false -> json_name (key f) -> field_shown (null f) f v d ->
      members_shown skip null key fs l ms -> members_shown skip null key (f :: fs) (v :: l) ((key f, d) :: ms).
End Members.
(** The last field is written, or none is (otherwise the library leaves a comma
    before the closing brace: C20_refuted_trailing_comma). *)
Definition no_loose_comma (fs : list field) (l : list val) (ms : list (str * doc)) : Prop :=
  ms = [] \/ exists fs' f l' v, fs = fs' ++ [f] /\ l = l' ++ [v] /\ (f_isopt f = true -> v <> VNone).

Fixpoint shows (F : flt) (c : cfg) (G : env) (n : nat) (t : ty) (v : val) (d : doc) {struct n} : Prop :=
  match n with
  | O => False
  | S n' =>
    let show := shows F c G n' in
    match t, v with
    | TInt k, VZ z => k <> U128 /\ k <> I128 /\ int_ok c k z /\ number_doc z d
    | TF32, VF b => finite32 b /\ d = JNum (f32_show F b)
    | TF64, VF b => finite64 b /\ d = JNum (f64_show F b)
    | TBool, VBool b => d = JBool b
    | TStr, VStr s => d = JStr s
    | TUnit, VUnit => d = JNull
    | TOpt _, VNone => d = JNull
    | TOpt t', VSome w => show t' w d
    | TSeq _ t', VSeq l => exists ds, d = JArr ds /\ Forall2 (show t') l ds
    (* keys must be written as strings *)
    | TMap _ tk tv, VMap l => exists ms, d = JObj ms /\
        Forall2 (fun e m => show tk (fst e) (JStr (fst m)) /\ show tv (snd e) (snd m)) l ms
    | TArr m t', VSeq l => length l = m /\ (m = O -> overflow_checks c = false) /\ exists ds, d = JArr ds /\ Forall2 (show t') l ds
    | TTup ts, VSeq l => (2 <= length ts <= 4)%nat /\ exists ds, d = JArr ds /\ tuple_shown show ts l ds
    | TBox t', w => show t' w d
    | TDur, VDur s ns => s < 2 ^ 64 /\ ns < 1000000000 /\ dur_doc s ns d
    (* a time before the epoch is written as null *)
    | TTime, VTime s ns => (s < 0)%Z /\ d = JNull \/ (0 <= s < 2 ^ 64)%Z /\ ns < 1000000000 /\ dur_doc (Z.to_N s) ns d
    | TProxy p t', w => show t' (p_to p w) d
    | TNamed i, w =>
      match nth_error G i, w with
      | Some (DStruct _ cnull fs), VSeq l =>
        exists ms, d = JObj ms /\ members_shown show f_skip (none_as_null Json cnull) key_of_field fs l ms
      | Some (DTuple tr fs), VSeq l =>
        existsb f_hasproxy fs = false /\
        match fs, tr with
        | [], _ => l = [] /\ d = JObj []
        | [f], true => exists w, l = [w] /\ show (f_ty f) w d
        | _, _ => exists ds, d = JArr ds /\ tuple_shown show (map f_ty fs) l ds
        end
      | Some (DProxy p t'), w' => show t' (p_to p w') d
      | Some (DEnum vs), VEnum tag l =>
        match nth_error vs (N.to_nat tag) with
        | None => False
        | Some vr =>
          json_name (key_of_variant Json vr) /\
          match v_body vr with
          | BUnit => l = [] /\ d = JStr (key_of_variant Json vr)
          | BTuple ts => ts <> [] /\ exists ds, d = JObj [(key_of_variant Json vr, JArr ds)] /\ tuple_shown show ts l ds
          (* under the Rust names, [skip] and [serialize_none_as_null] are not honoured *)
          | BStruct fs => exists ms, d = JObj [(key_of_variant Json vr, JObj ms)] /\
              members_shown show (fun _ => false) (fun _ => false) f_name fs l ms /\ no_loose_comma fs l ms
          end
        end
      | _, _ => False
      end
    | _, _ => False
    end
  end.

(** ** From one program to another *)
(** Program 1 (target [c], declarations [G]) writes [v : t]; program 2 ([c'], [G'])
    reads the document as [v' : t']. *)
Section Carry.
  Variables (F : flt) (c : cfg) (G : env) (c' : cfg) (G' : env).
  Definition carries (t : ty) (v : val) (t' : ty) (v' : val) : Prop :=
    exists n m d, shows F c G n t v d /\ means F c' G' m t' d v'.
  (** ... something other than null. *)
  Definition carries_full (t : ty) (v : val) (t' : ty) (v' : val) : Prop :=
    exists n m d, d <> JNull /\ shows F c G n t v d /\ means F c' G' m t' d v'.
  Definition field_carries (null : bool) (f : field) (v : val) (f' : field) (v' : val) : Prop :=
    exists n m d, field_shown (shows F c G n) null f v d /\ field_means (means F c' G' m) f' d v'.
  Inductive tuple_carries : list ty -> list val -> list ty -> list val -> Prop :=
  | tc_nil : tuple_carries [] [] [] []
  | tc_cons t v t' v' ts l ts' l' : carries t v t' v' -> tuple_carries ts l ts' l' -> tuple_carries (t :: ts) (v :: l) (t' :: ts') (v' :: l').
  (** The value of field [f'] of the new struct, if the old struct had the values [l]
      in its fields [fs]: skipped, or that of the old field of that name, or, if no
      field of that name was written, the default. *)
  Definition field_moved (skip null : field -> bool) (key : field -> str) (fs : list field) (l : list val)
      (dflt' : bool) (f' : field) (v' : val) : Prop :=
    if f_skip f' then v' = omitted_value f'
    else (exists f v, In (f, v) (combine fs l) /\ skip f = false /\ key f = key_of_field f' /\ field_carries (null f) f v f' v') \/
         (absent_value dflt' f' = Some v' /\
          forall f v, In (f, v) (combine fs l) -> skip f = false -> key f = key_of_field f' ->
            f_isopt f = true /\ v = VNone /\ null f = false).
End Carry.
