(** Specification side of "a value is written as the RON document that represents
    it" and of RON between two programs.  Nothing here refers to the model. *)
From Verif Require Import Base Utf8 Types Text SpecText SpecGram SpecDoc SpecShow SpecRon.
Local Open Scope N_scope.

Definition number_rdoc (z : Z) (d : rdoc) : Prop := exists s, decimal_literal z s /\ d = RNum s.
(** A duration: the seconds, and the nanoseconds unless zero. *)
Definition dur_rdoc (s ns : N) (d : rdoc) : Prop :=
  exists a b, number_rdoc (Z.of_N s) a /\ number_rdoc (Z.of_N ns) b /\
    d = RMap ((RStr (chars "secs"), a) :: if ns =? 0 then [] else [(RStr (chars "nanos"), b)]).
(** Named fields in round brackets. *)
Definition members_rdoc (ms : list (str * rdoc)) : rdoc := match ms with [] => RTup [] | _ => RObj ms end.

Section Members.
  Variable show : ty -> val -> rdoc -> Prop.
  (** What is written for a field that is written: for [Option] fields the contents. *)
  Definition rfield_shown (f : field) (v : val) (d : rdoc) : Prop :=
    if f_isopt f then
      match v with
      | VSome w => match f_ty f with TOpt t => show t w d | _ => False end
      | _ => False
      end
    else show (f_ty f) v d.
  (** The members, in the order of the fields; [skip], [key]: which fields are not
      written, and their names.  A [None] field is left out. *)
  Inductive rmembers_shown (skip : field -> bool) (key : field -> str) : list field -> list val -> list (str * rdoc) -> Prop :=
  | rmsh_nil : rmembers_shown skip key [] [] []
  | rmsh_skip f v fs l ms : skip f = true -> rmembers_shown skip key fs l ms -> rmembers_shown skip key (f :: fs) (v :: l) ms
  | rmsh_none f fs l ms : skip f = false -> f_isopt f = true ->
      rmembers_shown skip key fs l ms -> rmembers_shown skip key (f :: fs) (VNone :: l) ms
  | rmsh_member f v d fs l ms : skip f = false -> ron_name (key f) -> rfield_shown f v d ->
      rmembers_shown skip key fs l ms -> rmembers_shown skip key (f :: fs) (v :: l) ((key f, d) :: ms).
  (** The elements of a tuple struct: without those skipped. *)
  Inductive unnamed_shown : list field -> list val -> list rdoc -> Prop :=
  | ush_nil : unnamed_shown [] [] []
  | ush_skip f v fs l ds : f_skip f = true -> unnamed_shown fs l ds -> unnamed_shown (f :: fs) (v :: l) ds
  | ush_elem f v d fs l ds : f_skip f = false -> show (f_ty f) v d -> unnamed_shown fs l ds -> unnamed_shown (f :: fs) (v :: l) (d :: ds).
End Members.

(** ... given how the parts are written. *)
Definition rshows1 (F : flt) (c : cfg) (G : env) (show : ty -> val -> rdoc -> Prop) (t : ty) (v : val) (d : rdoc) : Prop :=
  match t, v with
  | TInt k, VZ z => k <> U128 /\ k <> I128 /\ int_ok c k z /\ number_rdoc z d
  | TF32, VF b => finite32 b /\ d = RNum (f32_show F b)
  | TF64, VF b => finite64 b /\ d = RNum (f64_show F b)
  | TBool, VBool b => d = RBool b
  | TStr, VStr s => d = RStr s
  | TUnit, VUnit => d = RTup []
  | TOpt _, VNone => d = RWord (chars "None")
  | TOpt t', VSome w => show t' w d
  | TSeq _ t', VSeq l => exists ds, d = RList ds /\ Forall2 (show t') l ds
  | TMap _ tk tv, VMap l => exists es, d = RMap es /\
      Forall2 (fun e m => show tk (fst e) (fst m) /\ show tv (snd e) (snd m)) l es
  | TArr m t', VSeq l => length l = m /\ (m = O -> overflow_checks c = false) /\ exists ds, d = RTup ds /\ Forall2 (show t') l ds
  | TTup ts, VSeq l => (2 <= length ts <= 4)%nat /\ exists ds, d = RTup ds /\ tuple_shown show ts l ds
  | TBox t', w => show t' w d
  | TDur, VDur s ns => s < 2 ^ 64 /\ ns < 1000000000 /\ dur_rdoc s ns d
  (* a time before the epoch is written as None *)
  | TTime, VTime s ns => (s < 0)%Z /\ d = RWord (chars "None") \/ (0 <= s < 2 ^ 64)%Z /\ ns < 1000000000 /\ dur_rdoc (Z.to_N s) ns d
  | TNamed i, w =>
    match nth_error G i, w with
    | Some (DStruct _ _ fs), VSeq l =>
      exists ms, d = members_rdoc ms /\ rmembers_shown show f_skip key_of_field fs l ms
    | Some (DTuple _ fs), VSeq l =>
      existsb f_hasproxy fs = false /\ fs <> [] /\ exists ds, d = RTup ds /\ unnamed_shown show fs l ds
    | Some (DEnum vs), VEnum tag l =>
      match nth_error vs (N.to_nat tag) with
      | None => False
      | Some vr =>
        ron_name (key_of_variant Ron vr) /\
        match v_body vr with
        | BUnit => l = [] /\ d = RWord (key_of_variant Ron vr)
        | BTuple ts => ts <> [] /\ exists ds, d = RVar (key_of_variant Ron vr) (RTup ds) /\ tuple_shown show ts l ds
        (* under the Rust names, [skip] is not honoured *)
        | BStruct fs => exists ms, d = RVar (key_of_variant Ron vr) (members_rdoc ms) /\
            rmembers_shown show (fun _ => false) f_name fs l ms
        end
      end
    | _, _ => False
    end
  | _, _ => False                                          (* proxies do not compile *)
  end.
(** Some number of such steps. *)
Fixpoint rshows (F : flt) (c : cfg) (G : env) (n : nat) (t : ty) (v : val) (d : rdoc) {struct n} : Prop :=
  match n with
  | O => False
  | S n' => rshows1 F c G (rshows F c G n') t v d
  end.

(** ** From one program to another *)
(** Program 1 (target [c], declarations [G]) writes [v : t]; program 2 ([c'], [G'])
    understands the document as [v' : t']. *)
Section Carry.
  Variables (F : flt) (c : cfg) (G : env) (c' : cfg) (G' : env).
  Definition rcarries (t : ty) (v : val) (t' : ty) (v' : val) : Prop :=
    exists n m d, rshows F c G n t v d /\ rmeans F c' G' m t' d v'.
  (** ... something that does not start with [None]. *)
  Definition rcarries_full (t : ty) (v : val) (t' : ty) (v' : val) : Prop :=
    exists n m d, ~ none_headed d /\ rshows F c G n t v d /\ rmeans F c' G' m t' d v'.
  (** ... the name of a variant only: what follows is not read (only at the top). *)
  Definition rcarries_name (t : ty) (v : val) (t' : ty) (v' : val) : Prop :=
    exists n m w p, rshows F c G n t v (RVar w p) /\ rmeans F c' G' m t' (RWord w) v'.
  Definition rfield_carries (f : field) (v : val) (f' : field) (v' : val) : Prop :=
    exists n m d, rfield_shown (rshows F c G n) f v d /\ field_means (rmeans F c' G' m) f' d v'.
  Inductive rtuple_carries : list ty -> list val -> list ty -> list val -> Prop :=
  | rtc_nil : rtuple_carries [] [] [] []
  | rtc_cons t v t' v' ts l ts' l' : rcarries t v t' v' -> rtuple_carries ts l ts' l' -> rtuple_carries (t :: ts) (v :: l) (t' :: ts') (v' :: l').
  (** As [field_moved] of SpecShow.v. *)
  Definition rfield_moved (skip : field -> bool) (key : field -> str) (fs : list field) (l : list val)
      (dflt' : bool) (f' : field) (v' : val) : Prop :=
    if f_skip f' then v' = omitted_value f'
    else (exists f v, In (f, v) (combine fs l) /\ skip f = false /\ key f = key_of_field f' /\ rfield_carries f v f' v') \/
         (absent_value dflt' f' = Some v' /\
          forall f v, In (f, v) (combine fs l) -> skip f = false -> key f = key_of_field f' -> f_isopt f = true /\ v = VNone).
  (** Every field written has a successor: RON has no unknown fields. *)
  Definition rfields_kept (skip : field -> bool) (key : field -> str) (fs : list field) (l : list val) (fs' : list field) : Prop :=
    forall f v, In (f, v) (combine fs l) -> skip f = false -> ~ (f_isopt f = true /\ v = VNone) ->
      exists f', In f' fs' /\ f_skip f' = false /\ key_of_field f' = key f.
End Carry.
