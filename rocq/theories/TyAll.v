(** Predicates that hold at every node of a type and of all declarations. *)
From Verif Require Import Base Types.

Section TyInd.
  Variable P : ty -> Prop.
  Hypothesis Hint : forall k, P (TInt k).
  Hypothesis Hf32 : P TF32.
  Hypothesis Hf64 : P TF64.
  Hypothesis Hbool : P TBool.
  Hypothesis Hstr : P TStr.
  Hypothesis Hunit : P TUnit.
  Hypothesis Hopt : forall t, P t -> P (TOpt t).
  Hypothesis Hseq : forall k t, P t -> P (TSeq k t).
  Hypothesis Hmap : forall k tk tv, P tk -> P tv -> P (TMap k tk tv).
  Hypothesis Harr : forall n t, P t -> P (TArr n t).
  Hypothesis Htup : forall ts, Forall P ts -> P (TTup ts).
  Hypothesis Hbox : forall t, P t -> P (TBox t).
  Hypothesis Hdur : P TDur.
  Hypothesis Htime : P TTime.
  Hypothesis Hproxy : forall p t, P t -> P (TProxy p t).
  Hypothesis Hnamed : forall i, P (TNamed i).
  Fixpoint ty_ind2 (t : ty) : P t :=
    match t with
    | TInt k => Hint k
    | TF32 => Hf32 | TF64 => Hf64 | TBool => Hbool | TStr => Hstr | TUnit => Hunit
    | TOpt t => Hopt t (ty_ind2 t)
    | TSeq k t => Hseq k t (ty_ind2 t)
    | TMap k a b => Hmap k a b (ty_ind2 a) (ty_ind2 b)
    | TArr n t => Harr n t (ty_ind2 t)
    | TTup ts => Htup ts ((fix go (l : list ty) : Forall P l :=
        match l with [] => Forall_nil P | x :: r => Forall_cons x (ty_ind2 x) (go r) end) ts)
    | TBox t => Hbox t (ty_ind2 t)
    | TDur => Hdur | TTime => Htime
    | TProxy p t => Hproxy p t (ty_ind2 t)
    | TNamed i => Hnamed i
    end.
End TyInd.

(** [ty_all P t]: [P] holds of [t] and of every type written inside [t]
    (declarations are not entered). *)
Fixpoint ty_all (P : ty -> Prop) (t : ty) {struct t} : Prop :=
  P t /\
  match t with
  | TOpt t' | TSeq _ t' | TArr _ t' | TBox t' | TProxy _ t' => ty_all P t'
  | TMap _ a b => ty_all P a /\ ty_all P b
  | TTup ts => (fix go (l : list ty) : Prop :=
                  match l with [] => True | x :: r => ty_all P x /\ go r end) ts
  | _ => True
  end.


Lemma ty_all_list P ts :
  (fix go (l : list ty) : Prop := match l with [] => True | x :: r => ty_all P x /\ go r end) ts
  <-> Forall (ty_all P) ts.
Proof.
  induction ts as [|t ts IH]; split; intro H; auto.
  - destruct H as [H1 H2]. constructor; [assumption|]. apply IH. assumption.
  - inversion H; subst. split; [assumption|]. apply IH. assumption.
Qed.

Lemma ty_all_node P t : ty_all P t -> P t.
Proof. destruct t; simpl; tauto. Qed.

Definition field_all (P : ty -> Prop) (f : field) : Prop := ty_all P (f_ty f).

Definition decl_all (P : ty -> Prop) (d : decl) : Prop :=
  match d with
  | DStruct _ _ fs | DTuple _ fs => Forall (field_all P) fs
  | DProxy _ t => ty_all P t
  | DEnum vs => Forall (fun v => match v_body v with
      | BUnit => True
      | BTuple ts => Forall (ty_all P) ts
      | BStruct fs => Forall (field_all P) fs end) vs
  end.

(** [P] at every type written in the declarations. *)
Definition env_all (P : ty -> Prop) (G : env) : Prop := Forall (decl_all P) G.

Lemma env_all_nth P G i d : env_all P G -> nth_error G i = Some d -> decl_all P d.
Proof. intros H E. apply nth_error_In in E. unfold env_all in H. rewrite Forall_forall in H. auto. Qed.

Lemma decl_all_variant P vs tag vr :
  decl_all P (DEnum vs) -> nth_error vs tag = Some vr ->
  match v_body vr with
  | BUnit => True
  | BTuple ts => Forall (ty_all P) ts
  | BStruct fs => Forall (field_all P) fs
  end.
Proof. simpl. intros H E. apply nth_error_In in E. rewrite Forall_forall in H. exact (H _ E). Qed.

(** The declaration compiles: names resolve, no skipped field in a tuple struct
    (DeBin's derive would fail), at most 65536 variants. *)
Definition name_ok (G : env) (t : ty) : Prop :=
  match t with TNamed i => (i < length G)%nat | _ => True end.
Definition decl_ok (d : decl) : Prop :=
  match d with
  | DTuple _ fs => existsb f_skip fs = false
  | DEnum vs => (lenN vs <= 65536)%N
  | _ => True
  end.
Definition env_ok (G : env) : Prop := env_all (name_ok G) G /\ Forall decl_ok G.
