(** The binary reader with a counter (C86): the model of [de_bin] in BinModel.v,
    line by line, except that every call of a [de_bin] counts one.  [counted] says
    that apart from the counter it is the model. *)
From Verif Require Import Base Utf8 Types BinModel.
Local Open Scope N_scope.

(** State: offset and count. *)
Definition wm (A : Type) := N * N -> (N * N) * res berr A.
Definition wret {A} (a : A) : wm A := fun s => (s, Ok a).
Definition wfail {A} (r : res berr A) : wm A := fun s => (s, r).
Definition wbind {A B} (m : wm A) (f : A -> wm B) : wm B := fun s =>
  match m s with
  | (s', Ok a) => f a s'
  | (s', Err e) => (s', Err e)
  | (s', Panic p) => (s', Panic p)
  | (s', NoFuel) => (s', NoFuel)
  end.
Definition wmap {A B} (f : A -> B) (m : wm A) : wm B := wbind m (fun a => wret (f a)).
(** A piece of the reader that calls no [de_bin]. *)
Definition plain {A} (m : bm A) : wm A := fun s => let (o', r) := m (fst s) in ((o', snd s), r).
Definition tick {A} (m : wm A) : wm A := fun s => m (fst s, snd s + 1).

Section De.
  Variable c : cfg.
  Variable G : env.
  Variable d : list N.

  Section Helpers.
    Variable de : ty -> wm val.
    Definition w_items (k : seqk) (t : ty) (len : N) : wm (list val) := fun o =>
      iter_N (fun o acc => wbind (de t) (fun v => wret (seq_add k v acc)) o) len o [].
    Definition w_entries (k : mapk) (tk tv : ty) (len : N) : wm (list (val * val)) := fun o =>
      iter_N (fun o acc =>
        wbind (de tk) (fun x => wbind (de tv) (fun y => wret (map_add k x y acc))) o) len o [].
    Fixpoint w_rep (n : nat) (t : ty) : wm (list val) :=
      match n with
      | O => wret []
      | S n' => wbind (de t) (fun v => wbind (w_rep n' t) (fun r => wret (v :: r)))
      end.
    Fixpoint w_tys (ts : list ty) : wm (list val) :=
      match ts with
      | [] => wret []
      | t :: ts' => wbind (de t) (fun v => wbind (w_tys ts') (fun r => wret (v :: r)))
      end.
    Fixpoint w_fields (honour_skip : bool) (fs : list field) : wm (list val) :=
      match fs with
      | [] => wret []
      | f :: fs' =>
        wbind (if honour_skip && f_skip f then wret (f_tydefault f) else de (f_ty f))
              (fun v => wbind (w_fields honour_skip fs') (fun r => wret (v :: r)))
      end.
  End Helpers.

  Fixpoint w_bin (fuel : nat) (t : ty) {struct fuel} : wm val :=
    match fuel with
    | O => wfail NoFuel
    | S n =>
      let de := w_bin n in
      tick
      match t with
      | TInt Usize => wmap (fun m => VZ (Z.of_N m)) (plain (rd_usize c d))
      | TInt k => wmap (fun b => VZ (of_bits k (of_le b))) (plain (rd_fixed c d (N.of_nat (ik_bytes k))))
      | TF32 => wmap (fun b => VF (of_le b)) (plain (rd_fixed c d 4))
      | TF64 => wmap (fun b => VF (of_le b)) (plain (rd_fixed c d 8))
      | TBool => wmap (fun b => VBool (negb (of_le b =? 0))) (plain (rd_fixed c d 1))
      | TStr => wmap VStr (plain (rd_str c d))
      | TUnit => wret VUnit
      | TOpt t' =>
        wbind (plain (rd_fixed c d 1)) (fun b =>
          if of_le b =? 1 then wmap VSome (de t') else wret VNone)
      | TSeq k t' =>
        wbind (plain (rd_usize c d)) (fun len =>
          wbind (plain (match k with SVec | SHSet => with_capacity c t' len | _ => bret tt end))
                (fun _ => wmap VSeq (w_items de k t' len)))
      | TMap k tk tv =>
        wbind (plain (rd_usize c d)) (fun len =>
          wbind (plain (match k with MHash => with_capacity c tk len | MBTree => bret tt end))
                (fun _ => wmap VMap (w_entries de k tk tv len)))
      | TArr n' t' => wmap VSeq (w_rep de n' t')
      | TTup ts => wmap VSeq (w_tys de ts)
      | TBox t' => de t'
      | TDur => plain (rd_dur c d)
      | TTime => plain (rd_time c d)
      | TProxy p t' => wmap (p_from p) (de t')
      | TNamed i =>
        match nth_error G i with
        | Some (DStruct _ _ fs) => wmap VSeq (w_fields de true fs)
        | Some (DTuple _ fs) =>
          if existsb f_skip fs then wfail (Panic PNotCompiled)
          else wmap VSeq (w_fields de true fs)
        | Some (DProxy p t') => wmap (p_from p) (de t')
        | Some (DEnum vs) =>
          wbind (plain (rd_fixed c d 2)) (fun b =>
            let tag := of_le b in
            match nth_error vs (N.to_nat tag) with
            | None => wfail (Err {| e_o := 0; e_msg := EDiscriminant tag |})
            | Some vr =>
              match v_body vr with
              | BUnit => wret (VEnum tag [])
              | BTuple ts => wmap (VEnum tag) (w_tys de ts)
              | BStruct fs => wmap (VEnum tag) (w_fields de false fs)
              end
            end)
        | None => wfail (Panic PNotCompiled)
        end
      end
    end.

  (** ** Without the counter it is the model *)
  Definition agrees {A} (w : wm A) (m : bm A) : Prop := forall s, (fst (fst (w s)), snd (w s)) = m (fst s).
  Lemma ag_ret {A} (a : A) : agrees (wret a) (bret a).
  Proof. intro s. reflexivity. Qed.
  Lemma ag_fail {A} (r : res berr A) : agrees (wfail r) (bfail r).
  Proof. intro s. reflexivity. Qed.
  Lemma ag_plain {A} (m : bm A) : agrees (plain m) m.
  Proof. intro s. unfold plain. destruct (m (fst s)); reflexivity. Qed.
  Lemma ag_tick {A} (w : wm A) m : agrees w m -> agrees (tick w) m.
  Proof. intros H s. unfold tick. apply (H (fst s, snd s + 1)). Qed.
  Lemma ag_bind {A B} (w : wm A) m (f : A -> wm B) g : agrees w m -> (forall a, agrees (f a) (g a)) -> agrees (wbind w f) (bbind m g).
  Proof.
    intros H Hf s. unfold wbind, bbind. rewrite <- H. destruct (w s) as [s' [a|e|p|]]; cbn [fst snd]; [apply Hf|reflexivity..].
  Qed.
  Lemma ag_map {A B} (h : A -> B) w m : agrees w m -> agrees (wmap h w) (bmap h m).
  Proof. intro H. apply ag_bind; [exact H|]. intro a. apply ag_ret. Qed.
  Lemma ag_iter {A} (w : A -> wm A) (m : A -> bm A) : (forall a, agrees (w a) (m a)) -> forall n a,
    agrees (fun s => iter_N (fun s a => w a s) n s a) (fun o => iter_N (fun o a => m a o) n o a).
  Proof.
    intros H n a s. rewrite !iter_N_nat. revert a s. induction (N.to_nat n) as [|k IH]; intros a s; [reflexivity|].
    cbn [iter_nat_m]. unfold seq2. rewrite <- H. destruct (w a s) as [s' [a'|e|p|]]; cbn [fst snd]; [apply IH|reflexivity..].
  Qed.
  Lemma counted : forall n t, agrees (w_bin n t) (de_bin c G d n t).
  Proof.
    induction n as [|n IH]; intro t; [intro s; reflexivity|]. cbn [w_bin de_bin]. apply ag_tick.
    assert (Hitems : forall k t' len, agrees (w_items (w_bin n) k t' len) (de_items (de_bin c G d n) k t' len)).
    { intros k t' len. apply (ag_iter (fun acc => wbind (w_bin n t') (fun v => wret (seq_add k v acc))) (fun acc => bbind (de_bin c G d n t') (fun v => bret (seq_add k v acc)))).
      intro acc. apply ag_bind; [apply IH|intro; apply ag_ret]. }
    assert (Hent : forall k tk tv len, agrees (w_entries (w_bin n) k tk tv len) (de_entries (de_bin c G d n) k tk tv len)).
    { intros k tk tv len. apply (ag_iter (fun acc => wbind (w_bin n tk) (fun x => wbind (w_bin n tv) (fun y => wret (map_add k x y acc))))
        (fun acc => bbind (de_bin c G d n tk) (fun x => bbind (de_bin c G d n tv) (fun y => bret (map_add k x y acc))))).
      intro acc. apply ag_bind; [apply IH|]. intro. apply ag_bind; [apply IH|intro; apply ag_ret]. }
    assert (Hrep : forall m t', agrees (w_rep (w_bin n) m t') (de_rep (de_bin c G d n) m t')).
    { induction m as [|m IHm]; intro t'; [apply ag_ret|]. cbn. apply ag_bind; [apply IH|]. intro. apply ag_bind; [apply IHm|intro; apply ag_ret]. }
    assert (Htys : forall ts, agrees (w_tys (w_bin n) ts) (de_tys (de_bin c G d n) ts)).
    { induction ts as [|t' ts IHt]; [apply ag_ret|]. cbn. apply ag_bind; [apply IH|]. intro. apply ag_bind; [apply IHt|intro; apply ag_ret]. }
    assert (Hfs : forall h fs, agrees (w_fields (w_bin n) h fs) (de_fields (de_bin c G d n) h fs)).
    { intro h. induction fs as [|f fs IHf]; [apply ag_ret|]. cbn. apply ag_bind; [destruct (h && f_skip f); [apply ag_ret|apply IH]|].
      intro. apply ag_bind; [apply IHf|intro; apply ag_ret]. }
    destruct t.
    - destruct k; apply ag_map, ag_plain.
    - apply ag_map, ag_plain.
    - apply ag_map, ag_plain.
    - apply ag_map, ag_plain.
    - apply ag_map, ag_plain.
    - apply ag_ret.
    - apply ag_bind; [apply ag_plain|]. intro b. destruct (of_le b =? 1); [apply ag_map, IH|apply ag_ret].
    - apply ag_bind; [apply ag_plain|]. intro len. apply ag_bind; [apply ag_plain|]. intro. apply ag_map, Hitems.
    - apply ag_bind; [apply ag_plain|]. intro len. apply ag_bind; [apply ag_plain|]. intro. apply ag_map, Hent.
    - apply ag_map, Hrep.
    - apply ag_map, Htys.
    - apply IH.
    - apply ag_plain.
    - apply ag_plain.
    - apply ag_map, IH.
    - destruct (nth_error G n0) as [[df nl fs|tr fs|vs|p t']|].
      + apply ag_map, Hfs.
      + destruct (existsb f_skip fs); [apply ag_fail|apply ag_map, Hfs].
      + apply ag_bind; [apply ag_plain|]. intro b. cbv zeta. destruct (nth_error vs _) as [vr|]; [|apply ag_fail].
        destruct (v_body vr); [apply ag_ret|apply ag_map, Htys|apply ag_map, Hfs].
      + apply ag_map, IH.
      + apply ag_fail.
  Qed.
End De.
