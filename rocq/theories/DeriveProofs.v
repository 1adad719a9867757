(** The derive macros read definitions as written. *)
From Verif Require Import Base Types Text TextModel TextLex TextGram DeriveModel SpecDerive.
Local Open Scope N_scope.

Lemma dbind_ok {A B} (m : dm A) (f : A -> dm B) l a l' :
  m l = Ok (a, l') -> dbind m f l = f a l'.
Proof. unfold dbind. intros ->. reflexivity. Qed.

Lemma str_eqb_refl s : str_eqb s s = true.
Proof. apply str_eqb_eq. reflexivity. Qed.
Lemma str_eqb_neq a b : a <> b -> str_eqb a b = false.
Proof. intros H. destruct (str_eqb a b) eqn:E; [|reflexivity]. apply str_eqb_eq in E. contradiction. Qed.

Section StyInd.
  Variable P : sty -> Prop.
  Hypothesis Hpath : forall f m args, Forall P args -> P (SPath f m args).
  Hypothesis Htuple : forall ts b, Forall P ts -> P (STuple ts b).
  Hypothesis Harray : forall t len, P t -> P (SArray t len).
  Hypothesis Hslice : forall t, P t -> P (SSlice t).
  Hypothesis Href : forall lt t, P t -> P (SRef lt t).
  Hypothesis Hlife : forall s, P (SLife s).
  Hypothesis Hnever : P SNever.
  Hypothesis Harrn : forall t f m, P t -> P (SArrayN t f m).
  Hypothesis Hfn : forall k arg ret, (forall t, arg = Some t -> P t) -> (forall t, ret = Some t -> P t) -> P (SFn k arg ret).
  Hypothesis Hobj : forall d t more, P t -> Forall P more -> P (SObj d t more).
  Hypothesis Hassoc : forall f m tr nm, P tr -> P (SAssoc f m tr nm).
  Hypothesis Hbound : forall f m a i, P a -> P i -> P (SBound f m a i).
  Fixpoint sty_ind2 (t : sty) : P t :=
    let go := fix go (l : list sty) : Forall P l :=
      match l with [] => Forall_nil _ | t :: r => Forall_cons _ (sty_ind2 t) (go r) end in
    match t with
    | SPath f m args => Hpath f m args (go args)
    | STuple ts b => Htuple ts b (go ts)
    | SArray t len => Harray t len (sty_ind2 t)
    | SSlice t => Hslice t (sty_ind2 t)
    | SRef lt t => Href lt t (sty_ind2 t)
    | SLife s => Hlife s
    | SNever => Hnever
    | SArrayN t f m => Harrn t f m (sty_ind2 t)
    | SFn k arg ret =>
      let opt := fun o : option sty =>
        match o return forall t, o = Some t -> P t with
        | Some u => fun t e => match e in _ = x return match x with Some v => P v | None => True end with eq_refl => sty_ind2 u end
        | None => fun t e => match e in _ = x return match x with Some v => P v | None => True end with eq_refl => I end
        end in
      Hfn k arg ret (opt arg) (opt ret)
    | SObj d t more => Hobj d t more (sty_ind2 t) (go more)
    | SAssoc f m tr nm => Hassoc f m tr nm (sty_ind2 tr)
    | SBound f m a i => Hbound f m a i (sty_ind2 a) (sty_ind2 i)
    end.
End StyInd.

(** What the parser makes of a type. *)
Fixpoint mk (t : sty) : type :=
  match t with
  | SPath f m args =>
    MkType (CNamed (joins (chars "::") (f :: m)))
           (match args with [] => None | _ => Some (map mk args) end) None None
  | STuple ts b =>
    let l := map mk ts ++ (match ts with [] => [no_type] | _ => if b then [no_type] else [] end) in
    MkType (CTuple l) (Some l) None None
  | SArray t len => MkType (CArray (mk t) (Some (CVal (as_isize len)))) (Some [mk t]) None None
  | SSlice t => MkType (CArray (mk t) None) (Some [mk t]) None None
  | SRef lt t => set_ref (Some lt) (mk t)
  | SLife s => MkType (CLifetime s) None None None
  | SNever => MkType CNever None None None
  | SArrayN t f m =>
    MkType (CArray (mk t) (Some (CNam (MkType (CNamed (joins (chars "::") (f :: m))) None None None)))) (Some [mk t]) None None
  | SFn k arg ret =>
    let a := match arg with Some t => mk t | None => no_type end in
    let r := option_map mk ret in
    let w := opt_wraps r ++ opt_wraps (Some a) in
    match k with
    | FnPointer => MkType (CFn FnBare (Some a) r) (match t_wraps a, r with None, None => None | _, _ => Some w end) None None
    | FnShared => MkType (CFn (FnClosure true false) (Some a) r) (Some w) None None
    | FnMutable => MkType (CFn (FnClosure true true) (Some a) r) (Some w) None None
    | FnOnce_ => MkType (CFn (FnClosure false false) (Some a) r) (Some w) None None
    end
  | SObj d t more => MkType (CObject d (mk t :: map mk more)) (t_wraps (mk t)) None None
  | SAssoc f m tr nm =>
    MkType (CAssociated (MkType (CNamed (joins (chars "::") (f :: m))) None None (Some (mk tr))) (mk tr)
             (MkType (CNamed nm) None None None)) None None None
  | SBound f m a i => MkType (CAssocBound (joins (chars "::") (f :: m)) (mk i)) (Some [mk a]) None None
  end.

Fixpoint tsz (t : sty) : nat :=
  match t with
  | SPath _ m args => 3 + length m + list_sum (map (fun t => S (tsz t)) args)
  | STuple ts _ => 5 + list_sum (map (fun t => S (tsz t)) ts)
  | SArray t _ => 2 + tsz t
  | SSlice t => 2 + tsz t
  | SRef _ t => 1 + tsz t
  | SLife _ => 1
  | SNever => 1
  | SArrayN t _ m => 5 + length m + tsz t
  | SFn _ arg ret => 5 + match arg with Some t => tsz t | None => 0 end + match ret with Some t => tsz t | None => 0 end
  | SObj _ t more => 3 + tsz t + list_sum (map (fun t => S (tsz t)) more)
  | SAssoc _ m tr _ => 6 + length m + tsz tr
  | SBound _ m a i => 4 + length m + tsz a + tsz i
  end.
Definition tszs (l : list sty) : nat := list_sum (map (fun t => S (tsz t)) l).

Lemma ty_ok_list l :
  (fix go (l : list sty) := match l with [] => True | t :: r => ty_ok t /\ go r end) l <-> Forall ty_ok l.
Proof.
  induction l as [|t l IH]; split; intros H; auto.
  - constructor; [apply H|]. apply IH, H.
  - inversion H; subst. split; [assumption|]. apply IH. assumption.
Qed.

(** What may follow a type. *)
Definition loose (rest : list ttree) : Prop :=
  match rest with
  | TIdent s :: _ => s <> chars "as"
  | TPunct a :: r =>
    a <> 60 /\ (a = 58 -> match r with TPunct b :: _ => b <> 58 | _ => True end)
  | _ => True
  end.
Definition follows (rest : list ttree) : Prop :=
  loose rest /\ match rest with TPunct a :: _ => a <> 43 /\ a <> 45 | _ => True end.
Definition after (t : sty) (rest : list ttree) : Prop :=
  follows rest \/ open_end t = false /\ exists r, rest = TPunct 43 :: r.
Lemma after_loose t rest : after t rest -> loose rest.
Proof. intros [H|(_ & r & ->)]; [apply H|]. cbn. split; [discriminate | discriminate]. Qed.

Lemma exact_yes c r : next_exact c (TPunct c :: r) = Ok (true, r).
Proof. unfold next_exact. rewrite N.eqb_refl. reflexivity. Qed.
Lemma exact_no c l : (match l with TPunct c' :: _ => c' <> c | _ => True end) -> next_exact c l = Ok (false, l).
Proof.
  unfold next_exact. destruct l as [|[| c' | |] l]; auto. intros H.
  destruct (N.eqb_spec c' c); [contradiction|reflexivity].
Qed.

Lemma joins_snoc sep a l x : joins sep ((a :: l) ++ [x]) = joins sep (a :: l) ++ sep ++ x.
Proof.
  revert a. induction l as [|b l IH]; intros a; [reflexivity|].
  change (joins sep ((a :: b :: l) ++ [x])) with (a ++ sep ++ joins sep ((b :: l) ++ [x])).
  rewrite IH. change (joins sep (a :: b :: l)) with (a ++ sep ++ joins sep (b :: l)).
  rewrite <- !app_assoc. reflexivity.
Qed.

Lemma path_reads : forall m k f done rest,
  (length m < k)%nat ->
  (match rest with TPunct a :: TPunct b :: _ => ~ (a = 58 /\ b = 58) | _ => True end) ->
  path_loop k (joins (chars "::") (f :: done))
    (concat (map (fun s => [TPunct 58; TPunct 58; TIdent s]) m) ++ rest)
  = Ok (joins (chars "::") (f :: done ++ m), rest).
Proof.
  induction m as [|s m IH]; intros k f done rest Hk Hr; (destruct k as [|k]; [inversion Hk|]).
  - cbn [map concat app path_loop]. rewrite app_nil_r.
    destruct rest as [|[|a| |] rest]; try reflexivity.
    destruct rest as [|[|b| |] rest]; try reflexivity.
    destruct (N.eqb_spec a 58); destruct (N.eqb_spec b 58); cbn [andb]; try reflexivity.
    exfalso. apply Hr. auto.
  - cbn [map concat app path_loop]. rewrite !N.eqb_refl. cbn [andb].
    unfold dbind, next_ident. cbn [dexpect dret]. cbv beta iota.
    rewrite <- joins_snoc.
    change ((f :: done) ++ [s]) with (f :: (done ++ [s])).
    unfold dret. rewrite IH; [|simpl in Hk; lia|exact Hr]. rewrite <- app_assoc. reflexivity.
Qed.

(** The first token of a type. *)
Lemma toks_ty_first t : exists k r, toks_ty t = k :: r /\
  match k with TPunct c => c = 38 \/ c = 33 \/ c = 39 \/ c = 60 | TLit _ => False | TGroup d _ => d = DParen \/ d = DBracket | TIdent _ => True end.
Proof.
  destruct t; cbn [toks_ty]; eexists; eexists; (split; [reflexivity|]); cbn; auto 6.
Qed.

Lemma commas_cons x l : commas (x :: l) = x ++ match l with [] => [] | _ => pc :: commas l end.
Proof. destruct l; simpl; [rewrite app_nil_r|]; reflexivity. Qed.

Lemma follows_p c r : c <> 60 -> c <> 58 -> c <> 43 -> c <> 45 -> follows (TPunct c :: r).
Proof. intros H1 H2 H3 H4. split; [|auto]. split; [exact H1|]. intros H. contradiction. Qed.
Lemma follows_nil : follows []. Proof. split; exact I. Qed.

Definition reads_ty (n : nat) (t : sty) : Prop :=
  forall rest, after t rest -> next_type n (toks_ty t ++ rest) = Ok (Some (mk t), rest).

Lemma nt_expect_ok n t rest : reads_ty n t -> follows rest ->
  nt_expect (next_type n) (toks_ty t ++ rest) = Ok (mk t, rest).
Proof. intros H Hf. unfold nt_expect. erewrite dbind_ok by (apply H; left; exact Hf). reflexivity. Qed.

Lemma args_reads n : forall ts k acc rest,
  Forall (reads_ty n) ts -> (length ts < k)%nat ->
  match rest with TPunct c :: _ => c <> 44 | _ => True end -> follows rest ->
  args_loop (next_type n) k acc ((match ts with [] => [] | _ => pc :: commas (map toks_ty ts) end) ++ rest)
  = Ok (acc ++ map mk ts, rest).
Proof.
  induction ts as [|t ts IH]; intros k acc rest HF Hk Hr Hf; (destruct k as [|k]; [inversion Hk|]); cbn [args_loop].
  - cbn [app map]. rewrite app_nil_r. erewrite dbind_ok by (apply exact_no; exact Hr). reflexivity.
  - inversion HF as [|? ? Ht HF']; subst. cbn [app].
    erewrite dbind_ok by apply exact_yes. cbv iota. cbn [map]. rewrite commas_cons, <- app_assoc.
    erewrite dbind_ok.
    2:{ apply nt_expect_ok; [exact Ht|]. destruct ts; cbn [map app]; [exact Hf|].
        apply follows_p; discriminate. }
    replace (match map toks_ty ts with [] => [] | _ :: _ => pc :: commas (map toks_ty ts) end)
      with (match ts with [] => [] | _ => pc :: commas (map toks_ty ts) end) by (destruct ts; reflexivity).
    rewrite IH; [|exact HF'|simpl in Hk; lia|exact Hr|exact Hf].
    rewrite <- app_assoc. reflexivity.
Qed.

(** No type at all is read as the empty type. *)
Lemma type_none n rest : (2 <= n)%nat ->
  match rest with TPunct c :: _ => ~ In c [44; 33; 39; 38; 60; 58] | [] => True | _ => False end ->
  next_type n rest = Ok (Some no_type, rest).
Proof.
  intros Hn Hr. destruct n as [|[|n]]; [inversion Hn|lia|].
  change (type_body (next_type (S n)) (S n) rest = Ok (Some no_type, rest)). unfold type_body.
  assert (X : forall c, In c [44; 33; 39; 38; 60; 58] -> next_exact c rest = Ok (false, rest)).
  { intros c Hc. apply exact_no. destruct rest as [|[]]; auto. intros ->. contradiction. }
  do 4 (erewrite dbind_ok by (apply X; simpl; tauto); cbv iota).
  erewrite dbind_ok by reflexivity.
  assert (Hp : path_loop (S n) [] rest = Ok ([], rest)).
  { cbn [path_loop]. destruct rest as [|[|a| |] rest]; try reflexivity.
    destruct rest as [|[|b| |] rest]; try reflexivity.
    destruct (N.eqb_spec a 58) as [->|]; [exfalso; apply Hr; simpl; tauto|reflexivity]. }
  assert (Hnm : next_named (next_type (S n)) (S n) None rest = Ok (Some no_type, rest)).
  { unfold next_named. erewrite dbind_ok with (a := None) (l' := rest).
    2:{ destruct rest as [|[]]; try reflexivity; contradiction. }
    erewrite dbind_ok by exact Hp. cbv iota. erewrite dbind_ok by (apply X; simpl; tauto).
    cbv iota. destruct rest as [|[]]; try contradiction; reflexivity. }
  unfold unref_body. destruct rest as [|[]]; try contradiction; exact Hnm.
Qed.

Lemma tuple_reads n : forall ts b k acc,
  (2 <= n)%nat -> Forall (reads_ty n) ts -> (length ts + 1 < k)%nat -> ts <> [] \/ b = false ->
  tuple_loop (next_type n) k acc (commas (map toks_ty ts) ++ trail b)
  = Ok (acc ++ map mk ts ++ match ts with [] => [no_type] | _ => if b then [no_type] else [] end, []).
Proof.
  induction ts as [|t ts IH]; intros b k acc Hn HF Hk Hb; (destruct k as [|k]; [inversion Hk|]); cbn [tuple_loop].
  - destruct Hb as [Hb| ->]; [congruence|].
    erewrite dbind_ok by (apply type_none; [exact Hn|exact I]). cbv iota. reflexivity.
  - inversion HF as [|? ? Ht HF']; subst. cbn [map]. rewrite commas_cons.
    destruct ts as [|t' ts].
    + cbn [map]. rewrite app_nil_r.
      erewrite dbind_ok.
      2:{ apply Ht. left. destruct b; [apply follows_p; discriminate | apply follows_nil]. }
      cbv iota. destruct b; cbn [trail].
      * erewrite dbind_ok by apply exact_yes.
        destruct k as [|k]; [simpl in Hk; lia|]. cbn [tuple_loop].
        erewrite dbind_ok by (apply type_none; [exact Hn|exact I]). cbv iota.
        erewrite dbind_ok by (apply exact_no; exact I). unfold dret.
        rewrite <- app_assoc. reflexivity.
      * erewrite dbind_ok by (apply exact_no; exact I). reflexivity.
    + cbn [map]. rewrite <- app_assoc. cbn [app].
      erewrite dbind_ok by (apply Ht; left; apply follows_p; discriminate).
      cbv iota. erewrite dbind_ok by apply exact_yes. cbv iota.
      change (toks_ty t' :: map toks_ty ts) with (map toks_ty (t' :: ts)).
      rewrite IH; [|exact Hn|exact HF'|simpl in Hk |- *; lia|left; discriminate].
      rewrite <- app_assoc. reflexivity.
Qed.

Lemma keyword_false s : type_keyword s = false ->
  str_eqb s (chars "fn") = false /\ str_eqb s (chars "Fn") = false /\ str_eqb s (chars "FnMut") = false /\
  str_eqb s (chars "FnOnce") = false /\ str_eqb s (chars "impl") = false /\ str_eqb s (chars "dyn") = false.
Proof.
  unfold type_keyword. cbn [existsb]. intros H. repeat (apply orb_false_elim in H as [? H]). tauto.
Qed.

Lemma as_other_none nt rest : loose rest -> as_other nt rest = Ok (None, rest).
Proof.
  unfold as_other. destruct rest as [|[s| | |] rest]; try reflexivity. cbn [loose]. intros H.
  rewrite str_eqb_neq by exact H. reflexivity.
Qed.

Lemma joins_nonempty f m : f <> [] -> joins (chars "::") (f :: m) <> [].
Proof. destruct f; [congruence|]. intros _. destruct m; simpl; discriminate. Qed.

Lemma named_reads n r f m args rest :
  f <> [] -> Forall (reads_ty n) args -> (length m + length args < n)%nat -> loose rest ->
  next_named (next_type n) n r (toks_ty (SPath f m args) ++ rest)
  = Ok (Some (set_ref r (mk (SPath f m args))), rest).
Proof.
  intros Hf HF Hn Hr. cbn [toks_ty mk set_ref]. unfold toks_more.
  pose proof (joins_nonempty f m Hf) as Hne.
  unfold next_named. cbn [app].
  erewrite dbind_ok by reflexivity.
  cbv iota.
  set (rest1 := match args with [] => [] | _ => TPunct 60 :: commas (map toks_ty args) ++ [TPunct 62] end ++ rest).
  rewrite <- app_assoc. fold rest1.
  assert (Hp : path_loop n f (concat (map (fun s => [TPunct 58; TPunct 58; TIdent s]) m) ++ rest1)
               = Ok (joins (chars "::") (f :: m), rest1)).
  { apply (path_reads m n f [] rest1); [lia|]. subst rest1.
      destruct args as [|a args].
      - cbn [app]. destruct rest as [|[|a| |] rest]; try exact I.
        destruct rest as [|[|b| |] rest]; try exact I. destruct Hr as [_ Hr]. intros [-> ->].
        apply (Hr eq_refl eq_refl).
      - cbn [app]. destruct (_ ++ rest) as [|[]]; try exact I. intros [H _]. discriminate. }
  erewrite dbind_ok by exact Hp.
  destruct args as [|a args].
  - cbn [app] in rest1. subst rest1.
    erewrite dbind_ok.
    2:{ apply exact_no. destruct rest as [|[]]; try exact I. apply Hr. }
    cbv iota. erewrite dbind_ok by (apply as_other_none, Hr). unfold dret.
    unfold str in *. destruct (joins (chars "::") (f :: m)); [contradiction|reflexivity].
  - subst rest1. cbn [app]. erewrite dbind_ok by apply exact_yes. cbv iota.
    destruct (joins (chars "::") (f :: m)) as [|c0 p0] eqn:Ep; [contradiction|]. rewrite <- Ep in *. clear Ep c0 p0.
    inversion HF as [|? ? Ha HF']; subst. cbn [map]. rewrite commas_cons, <- !app_assoc.
    cbn [app].
    erewrite dbind_ok.
    2:{ apply nt_expect_ok; [exact Ha|]. destruct args; cbn [map app]; apply follows_p; discriminate. }
    replace (match map toks_ty args with [] => [] | _ :: _ => pc :: commas (map toks_ty args) end)
      with (match args with [] => [] | _ => pc :: commas (map toks_ty args) end) by (destruct args; reflexivity).
    erewrite dbind_ok.
    2:{ apply (args_reads n args n [mk a] (TPunct 62 :: rest)); [exact HF'|simpl in Hn; lia|discriminate|].
        apply follows_p; discriminate. }
    erewrite dbind_ok by reflexivity.
    erewrite dbind_ok by reflexivity.
    erewrite dbind_ok by apply exact_yes. reflexivity.
Qed.

Definition nonref (t : sty) : Prop := match t with SRef _ _ | SLife _ | SNever => False | _ => True end.

Lemma unref_type n t : nonref t ->
  (forall r rest, after t rest ->
     unref_body (next_type n) n r (toks_ty t ++ rest) = Ok (Some (set_ref r (mk t)), rest)) ->
  reads_ty (S n) t.
Proof.
  intros Hn H rest Hr. change (type_body (next_type n) n (toks_ty t ++ rest) = Ok (Some (mk t), rest)). unfold type_body.
  assert (X : forall c, c <> 60 -> next_exact c (toks_ty t ++ rest) = Ok (false, toks_ty t ++ rest)).
  { intros c Hc. apply exact_no. destruct t; try contradiction; cbn; auto. }
  do 4 (erewrite dbind_ok by (apply X; discriminate); cbv iota).
  erewrite dbind_ok by reflexivity. rewrite (H None rest Hr).
  destruct t; try contradiction; try reflexivity. cbn [mk]. destruct kind; reflexivity.
Qed.

Lemma ident_body n f m args r rest : type_keyword f = false ->
  unref_body (next_type n) n r (toks_ty (SPath f m args) ++ rest)
  = next_named (next_type n) n r (toks_ty (SPath f m args) ++ rest).
Proof.
  intros Hk. destruct (keyword_false _ Hk) as (K1 & K2 & K3 & K4 & K5 & K6).
  unfold unref_body. cbn [toks_ty app].
  unfold dbind at 1, next_object. rewrite K5, K6. cbn [orb].
  unfold dbind at 1, next_function. rewrite K1, K2, K3, K4. reflexivity.
Qed.

Lemma tszs_le n ts : (tszs ts <= n)%nat -> Forall (fun t => (tsz t <= n)%nat) ts /\ (length ts <= n)%nat.
Proof.
  unfold tszs. revert n. induction ts as [|t ts IH]; intros n H; simpl in *; [split; [constructor|lia]|].
  destruct (IH (n - S (tsz t))%nat) as [H1 H2]; [lia|]. split; [|lia].
  constructor; [lia|]. eapply Forall_impl; [|exact H1]. simpl. intros; lia.
Qed.

Lemma parse_dec len : len < 2 ^ 64 -> parse_usize (dec len) = Some len.
Proof.
  intros H. unfold parse_usize. rewrite dec_digits, dec_val.
  replace (len <? 2 ^ 64) with true by (symmetry; apply N.ltb_lt; exact H). cbn [andb].
  destruct (dec len) eqn:E; [|reflexivity]. apply dec_nonempty in E. contradiction.
Qed.

Definition reads_unref (n : nat) (t : sty) : Prop :=
  forall r rest, after t rest ->
  unref_body (next_type n) n r (toks_ty t ++ rest) = Ok (Some (set_ref r (mk t)), rest).

(** Paths without arguments. *)
Lemma path_type n f m : name_ok f -> (3 + length m <= n)%nat -> reads_ty n (SPath f m []).
Proof.
  intros [Hf Hk] Hn. destruct n as [|n]; [lia|]. apply unref_type; [exact I|]. intros r rest Hr. rewrite ident_body by exact Hk.
  apply named_reads; [exact Hf | constructor | cbn; lia | eapply after_loose; exact Hr].
Qed.
(** The start of a path, as far as it is read before what follows is looked at. *)
Lemma path_start n f m rest : (length m < n)%nat -> (match rest with TPunct a :: TPunct b :: _ => ~ (a = 58 /\ b = 58) | _ => True end) ->
  path_loop n f (toks_more m ++ rest) = Ok (joins (chars "::") (f :: m), rest).
Proof. intros H1 H2. apply (path_reads m n f [] rest H1 H2). Qed.

Lemma plus_reads n : forall ts k acc rest,
  Forall (reads_ty n) ts -> Forall (fun t => open_end t = false) ts -> (length ts < k)%nat -> follows rest ->
  plus_loop (next_type n) k acc (concat (map (fun u => TPunct 43 :: toks_ty u) ts) ++ rest) = Ok (acc ++ map mk ts, rest).
Proof.
  induction ts as [|t ts IH]; intros k acc rest HF Ho Hk Hf; (destruct k as [|k]; [inversion Hk|]); cbn [plus_loop].
  - cbn [map concat app]. rewrite app_nil_r. erewrite dbind_ok; [|apply exact_no; destruct Hf as [_ Hf]; destruct rest as [|[]]; auto; apply Hf]. reflexivity.
  - inversion HF as [|? ? Ht HF']; inversion Ho as [|? ? Ht2 Ho']; subst. cbn [map concat app].
    erewrite dbind_ok by apply exact_yes. cbv iota. rewrite <- app_assoc.
    erewrite dbind_ok.
    2:{ unfold nt_expect. erewrite dbind_ok with (a := Some (mk t)); [reflexivity|]. apply Ht. destruct ts as [|u ts]; [left; exact Hf|]. right. split; [exact Ht2|]. cbn [map concat app]. eauto. }
    rewrite IH; [|exact HF'|exact Ho'|simpl in Hk; lia|exact Hf]. rewrite <- app_assoc. reflexivity.
Qed.
Lemma return_none nt rest : loose rest -> match rest with TPunct a :: _ => a <> 45 | _ => True end -> next_return nt rest = Ok (None, rest).
Proof.
  intros _ H. unfold next_return. destruct rest as [|[|a| |] rest]; try reflexivity. destruct rest as [|[|b| |] rest]; try reflexivity.
  destruct (N.eqb_spec a 45); [contradiction|]. reflexivity.
Qed.
Lemma return_reads n ret rest : (forall t, ret = Some t -> reads_ty n t /\ after t rest) ->
  (ret = None -> match rest with TPunct a :: _ => a <> 45 | _ => True end) -> loose rest ->
  next_return (next_type n) (match ret with Some t => TPunct 45 :: TPunct 62 :: toks_ty t | None => [] end ++ rest) = Ok (option_map mk ret, rest).
Proof.
  intros H1 H2 H3. destruct ret as [t|]; cbn [app option_map]; [|apply return_none; [exact H3 | apply H2; reflexivity]].
  destruct (H1 t eq_refl) as [Ht Ha]. cbn [next_return]. rewrite !N.eqb_refl. cbn [andb].
  erewrite dbind_ok with (a := mk t) (l' := rest); [reflexivity|]. unfold nt_expect. erewrite dbind_ok with (a := Some (mk t)); [reflexivity|]. apply Ht. exact Ha.
Qed.
(** The argument of a function. *)
Lemma arg_reads n arg : (2 <= n)%nat -> (forall t, arg = Some t -> reads_ty n t) ->
  exists l, nt_expect (next_type n) (match arg with Some t => toks_ty t | None => [] end) = Ok (match arg with Some t => mk t | None => no_type end, l).
Proof.
  intros Hn H. destruct arg as [t|].
  - exists []. pattern (toks_ty t) at 1. rewrite <- (app_nil_r (toks_ty t)). apply nt_expect_ok; [apply H; reflexivity | apply follows_nil].
  - exists []. unfold nt_expect. erewrite dbind_ok by (apply type_none; [exact Hn | exact I]). reflexivity.
Qed.
Lemma fn_reads n k arg ret r rest : (2 <= n)%nat -> (forall t, arg = Some t -> reads_ty n t) -> (forall t, ret = Some t -> reads_ty n t) ->
  after (SFn k arg ret) rest ->
  unref_body (next_type n) n r (toks_ty (SFn k arg ret) ++ rest) = Ok (Some (set_ref r (mk (SFn k arg ret))), rest).
Proof.
  intros Hn Ha Hr Hf. destruct (arg_reads n arg Hn Ha) as [l El].
  assert (Er : next_return (next_type n) (match ret with Some t => TPunct 45 :: TPunct 62 :: toks_ty t | None => [] end ++ rest) = Ok (option_map mk ret, rest)).
  { apply return_reads; [|intros -> |eapply after_loose; exact Hf].
    - intros t ->. split; [apply Hr; reflexivity | exact Hf].
    - destruct Hf as [[_ Hf]|(_ & q & ->)]; [|discriminate]. destruct rest as [|[]]; auto. apply Hf. }
  cbn [toks_ty app]. unfold unref_body.
  set (rest1 := TGroup DParen _ :: _).
  assert (Ed : dinside (nt_expect (next_type n)) (match arg with Some t => toks_ty t | None => [] end) (match ret with Some t => TPunct 45 :: TPunct 62 :: toks_ty t | None => [] end ++ rest)
     = Ok (match arg with Some t => mk t | None => no_type end, match ret with Some t => TPunct 45 :: TPunct 62 :: toks_ty t | None => [] end ++ rest)) by (unfold dinside; rewrite El; reflexivity).
  erewrite dbind_ok with (a := None) (l' := TIdent (fn_word k) :: rest1) by (destruct k; reflexivity). cbv iota.
  assert (Ef : next_function (next_type n) (TIdent (fn_word k) :: rest1) = Ok (Some (mk (SFn k arg ret)), rest)).
  { destruct k; cbn [fn_word next_function]; cbv [str_eqb]; cbn [chars]; subst rest1;
      repeat match goal with |- context [if ?b then _ else _] => let e := eval vm_compute in b in change b with e; cbv iota end.
    - erewrite dbind_ok by reflexivity. erewrite dbind_ok by reflexivity. cbn [snd]. erewrite dbind_ok by exact Ed. erewrite dbind_ok by exact Er. cbn [mk]. destruct ret; reflexivity.
    - unfold next_closure. erewrite dbind_ok with (a := mk (SFn _ arg ret)) (l' := rest); [reflexivity|]. erewrite dbind_ok by reflexivity. cbv iota beta. erewrite dbind_ok by (erewrite dbind_ok by exact Ed; reflexivity). erewrite dbind_ok by exact Er. cbn [mk]. destruct ret; reflexivity.
    - unfold next_closure. erewrite dbind_ok with (a := mk (SFn _ arg ret)) (l' := rest); [reflexivity|]. erewrite dbind_ok by reflexivity. cbv iota beta. erewrite dbind_ok by (erewrite dbind_ok by exact Ed; reflexivity). erewrite dbind_ok by exact Er. cbn [mk]. destruct ret; reflexivity.
    - unfold next_closure. erewrite dbind_ok with (a := mk (SFn _ arg ret)) (l' := rest); [reflexivity|]. erewrite dbind_ok by reflexivity. cbv iota beta. erewrite dbind_ok by (erewrite dbind_ok by exact Ed; reflexivity). erewrite dbind_ok by exact Er. cbn [mk]. destruct ret; reflexivity. }
  erewrite dbind_ok by exact Ef. reflexivity.
Qed.

Lemma mk_as t : t_as (mk t) = None.
Proof.
  induction t as [f m args IH|ts b IH|t len IH|t IH|lt t IH|lf| |t f m IH|k arg ret IHa IHr|d t more IH IHm|f m tr nm IH|f m a i IHa IHi] using sty_ind2; try reflexivity.
  - cbn [mk]. destruct (mk t). exact IH.
  - cbn [mk]. destruct k; reflexivity.
Qed.

Lemma reads_both t : ty_ok t -> forall n, (tsz t <= S n)%nat ->
  reads_ty (S n) t /\ (nonref t -> reads_unref n t).
Proof.
  induction t as [f m args IH|ts b IH|t len IH|t IH|lt t IH|lf| |t f m IH|k arg ret IHa IHr|d t more IH IHm|f m tr nm IH|f m a i IHa IHi] using sty_ind2; intros Hok n Hn.
  - destruct Hok as (Hf & Hk & Hargs). apply ty_ok_list in Hargs.
    assert (Hu : reads_unref n (SPath f m args)).
    { intros r rest Hr.
      rewrite ident_body by exact Hk.
      change (S (S (S (length m + tszs args))) <= S n)%nat in Hn.
      destruct (tszs_le (tszs args) args (Nat.le_refl _)) as [Hs Hl].
      apply named_reads; [exact Hf| |lia|eapply after_loose; exact Hr].
      rewrite Forall_forall in *. intros t Ht.
      destruct n as [|n]; [lia|].
      apply IH; [exact Ht|apply Hargs; exact Ht|].
      specialize (Hs t Ht). simpl in Hs. lia. }
    split; [|auto]. apply unref_type; [exact I|exact Hu].
  - destruct Hok as (Hb & Hts). apply ty_ok_list in Hts.
    assert (Hu : reads_unref n (STuple ts b)).
    { intros r rest Hr.
      change (5 + tszs ts <= S n)%nat in Hn.
      destruct (tszs_le (tszs ts) ts (Nat.le_refl _)) as [Hs Hl].
      cbn [toks_ty app unref_body]. unfold next_tuple.
      assert (HT : tuple_loop (next_type n) n [] (commas (map toks_ty ts) ++ trail b)
                   = Ok (map mk ts ++ match ts with [] => [no_type] | _ => if b then [no_type] else [] end, [])).
      { apply (tuple_reads n ts b n []); [lia| |lia|].
        - rewrite Forall_forall in *. intros t Ht.
          destruct n as [|n]; [lia|]. apply IH; [exact Ht|apply Hts; exact Ht|].
          specialize (Hs t Ht). simpl in Hs. lia.
        - destruct ts; [right; apply Hb; reflexivity|left; discriminate]. }
      unfold dbind, dinside. rewrite HT. reflexivity. }
    split; [|auto]. apply unref_type; [exact I|exact Hu].
  - destruct Hok as (Hok & Hlen). simpl in Hn.
    destruct n as [|n]; [lia|].
    assert (Hu : reads_unref (S n) (SArray t len)).
    { intros r rest Hr. cbn [toks_ty app unref_body].
      assert (HT : next_array (next_type (S n)) (toks_ty t ++ [TPunct 59; TLit (dec len)])
                   = Ok (mk (SArray t len), [TLit (dec len)])).
      { unfold next_array. erewrite dbind_ok.
        2:{ apply nt_expect_ok; [apply IH; [exact Hok|lia]|]. apply follows_p; discriminate. }
        erewrite dbind_ok by apply exact_yes. cbv iota. cbn [tt_text].
        rewrite parse_dec; [reflexivity|]. lia. }
      unfold dbind, dinside. rewrite HT. reflexivity. }
    split; [|auto]. apply unref_type; [exact I|exact Hu].
  - simpl in Hn. destruct n as [|n]; [lia|].
    assert (Hu : reads_unref (S n) (SSlice t)).
    { intros r rest Hr. cbn [toks_ty app unref_body].
      assert (HT : next_array (next_type (S n)) (toks_ty t) = Ok (mk (SSlice t), [])).
      { unfold next_array. rewrite <- (app_nil_r (toks_ty t)). erewrite dbind_ok.
        2:{ apply nt_expect_ok; [apply IH; [exact Hok|lia]|apply follows_nil]. }
        erewrite dbind_ok by (apply exact_no; exact I). reflexivity. }
      unfold dbind, dinside. rewrite HT. reflexivity. }
    split; [|auto]. apply unref_type; [exact I|exact Hu].
  - destruct Hok as (Hok & Hnr). split; [|intros []]. intros rest Hr. simpl in Hn.
    destruct (IH Hok n) as [_ Hu]; [lia|]. specialize (Hu Hnr).
    change (type_body (next_type n) n (toks_ty (SRef lt t) ++ rest) = Ok (Some (mk (SRef lt t)), rest)).
    unfold type_body. cbn [toks_ty app].
    do 3 (erewrite dbind_ok by (apply exact_no; discriminate); cbv iota).
    erewrite dbind_ok by apply exact_yes. cbv iota. rewrite <- app_assoc.
    destruct lt as [lt|]; cbn [app].
    + erewrite dbind_ok by reflexivity. apply Hu. exact Hr.
    + erewrite dbind_ok.
      2:{ erewrite dbind_ok; [reflexivity|]. unfold next_lifetime.
          destruct t; try contradiction; reflexivity. }
      apply Hu. exact Hr.
  - split; [|intros []]. intros rest Hr.
    change (type_body (next_type n) n (TPunct 39 :: TIdent lf :: rest) = Ok (Some (mk (SLife lf)), rest)).
    unfold type_body.
    do 2 (erewrite dbind_ok by (apply exact_no; discriminate); cbv iota).
    erewrite dbind_ok by apply exact_yes. reflexivity.
  - split; [|intros []]. intros rest Hr.
    change (type_body (next_type n) n (TPunct 33 :: rest) = Ok (Some (mk SNever), rest)).
    unfold type_body.
    erewrite dbind_ok by (apply exact_no; discriminate). cbv iota.
    erewrite dbind_ok by apply exact_yes. reflexivity.
  - (* array, its length a constant *)
    destruct Hok as (Hok & Hf & Hd). simpl in Hn. destruct n as [|n]; [lia|].
    assert (Hu : reads_unref (S n) (SArrayN t f m)).
    { intros r rest Hr. cbn [toks_ty app unref_body].
      assert (HT : next_array (next_type (S n)) (toks_ty t ++ TPunct 59 :: TIdent f :: toks_more m)
                   = Ok (mk (SArrayN t f m), [])).
      { unfold next_array. erewrite dbind_ok.
        2:{ apply nt_expect_ok; [apply IH; [exact Hok|lia]|]. apply follows_p; discriminate. }
        erewrite dbind_ok by apply exact_yes. cbv iota. cbn [tt_text].
        assert (Ep : parse_usize f = None) by (unfold parse_usize; rewrite Hd; destruct f; reflexivity). rewrite Ep.
        pose proof (nt_expect_ok (S n) (SPath f m []) [] (path_type (S n) f m Hf ltac:(lia)) follows_nil) as E.
        cbn [toks_ty] in E. rewrite !app_nil_r in E. erewrite dbind_ok by exact E. reflexivity. }
      unfold dbind, dinside. rewrite HT. reflexivity. }
    split; [|auto]. apply unref_type; [exact I|exact Hu].
  - (* functions *)
    destruct Hok as (Hoa & Hor). cbn [tsz] in Hn. destruct n as [|n]; [lia|].
    assert (Hu : reads_unref (S n) (SFn k arg ret)).
    { intros r rest Hr. apply fn_reads; [lia| | |exact Hr].
      - intros t ->. apply IHa; [reflexivity | exact Hoa | lia].
      - intros t ->. apply IHr; [reflexivity | exact Hor | lia]. }
    split; [|auto]. apply unref_type; [exact I|exact Hu].
  - (* objects *)
    destruct Hok as (Ho & Hoe & Hor & Hom). cbn [tsz] in Hn. change (3 + tsz t + tszs more <= S n)%nat in Hn.
    destruct n as [|n]; [lia|].
    destruct (tszs_le (tszs more) more (Nat.le_refl _)) as [Hs Hl].
    assert (Hom' : Forall ty_ok more /\ Forall (fun t => open_end t = false) more).
    { clear -Hom. induction more as [|u more IH]; [split; constructor|]. destruct Hom as [[H1 H2] H3]. destruct (IH H3). split; constructor; assumption. }
    destruct Hom' as [Hm1 Hm2].
    assert (Hu : reads_unref (S n) (SObj d t more)).
    { intros r rest Hr. assert (Hf : follows rest) by (destruct Hr as [Hr|[Q _]]; [exact Hr | discriminate]).
      cbn [toks_ty app unref_body].
      assert (Eo : next_object (next_type (S n)) (S n) (TIdent (obj_word d) :: (toks_ty t ++ concat (map (fun u => TPunct 43 :: toks_ty u) more)) ++ rest)
        = Ok (Some (MkType (CObject d (mk t :: map mk more)) (t_wraps (mk t)) (t_ref (mk t)) (t_as (mk t))), rest)).
      { assert (E1 : nt_expect (next_type (S n)) ((toks_ty t ++ concat (map (fun u => TPunct 43 :: toks_ty u) more)) ++ rest) = Ok (mk t, concat (map (fun u => TPunct 43 :: toks_ty u) more) ++ rest)).
        { rewrite <- app_assoc. unfold nt_expect. erewrite dbind_ok with (a := Some (mk t)); [reflexivity|]. apply IH; [exact Ho | lia|].
          destruct more as [|u more]; [left; exact Hf|]. right. split; [exact Hoe|]. cbn [map concat app]. eauto. }
        assert (E2 : plus_loop (next_type (S n)) (S n) [mk t] (concat (map (fun u => TPunct 43 :: toks_ty u) more) ++ rest) = Ok ([mk t] ++ map mk more, rest)).
        { apply plus_reads; [|exact Hm2|lia|exact Hf]. rewrite Forall_forall in *. intros u Hu. apply IHm; [exact Hu | auto|]. specialize (Hs u Hu). cbv beta in Hs. lia. }
        destruct d; cbn [obj_word next_object];
          repeat match goal with |- context [if ?b then _ else _] => let e := eval vm_compute in b in change b with e; cbv iota end;
          (erewrite dbind_ok by exact E1; erewrite dbind_ok by exact E2; reflexivity). }
      rewrite mk_as in Eo. erewrite dbind_ok by exact Eo. reflexivity. }
    split; [|auto]. apply unref_type; [exact I|exact Hu].
  - (* associated types *)
    destruct Hok as ([Hf Hk] & Ho & Hnm). cbn [tsz] in Hn. destruct n as [|[|n]]; [lia|lia|].
    assert (Hu : reads_unref (S (S n)) (SAssoc f m tr nm)).
    { intros r rest Hr. pose proof (joins_nonempty f m Hf) as Hne. cbn [toks_ty app unref_body].
      erewrite dbind_ok with (a := None) by reflexivity. cbv iota. erewrite dbind_ok with (a := None) by reflexivity. cbv iota.
      unfold next_named. erewrite dbind_ok with (a := None) by reflexivity. cbv iota.
      set (ll := TPunct 60 :: _). erewrite dbind_ok with (a := @nil N) (l' := ll) by reflexivity. subst ll.
      erewrite dbind_ok by apply exact_yes. cbv iota.
      set (tail := TPunct 62 :: TPunct 58 :: TPunct 58 :: TIdent nm :: rest).
      assert (E0 : nt_expect (next_type (S (S n))) (TIdent f :: (toks_more m ++ TIdent (chars "as") :: toks_ty tr ++ [TPunct 62; TPunct 58; TPunct 58; TIdent nm]) ++ rest)
         = Ok (MkType (CNamed (joins (chars "::") (f :: m))) None None (Some (mk tr)), tail)).
      { rewrite <- !app_assoc. cbn [app]. rewrite <- app_assoc. cbn [app]. fold tail. unfold nt_expect.
        erewrite dbind_ok with (a := Some (MkType (CNamed (joins (chars "::") (f :: m))) None None (Some (mk tr)))) (l' := tail); [reflexivity|].
        change (next_type (S (S n))) with (type_body (next_type (S n)) (S n)). unfold type_body.
        do 4 (erewrite dbind_ok by (apply exact_no; exact I); cbv iota). erewrite dbind_ok with (a := None) by reflexivity.
        destruct (keyword_false _ Hk) as (K1 & K2 & K3 & K4 & K5 & K6). unfold unref_body.
        erewrite dbind_ok with (a := None) (l' := TIdent f :: toks_more m ++ TIdent (chars "as") :: toks_ty tr ++ tail) by (unfold next_object; rewrite K5, K6; reflexivity). cbv iota.
        erewrite dbind_ok with (a := None) (l' := TIdent f :: toks_more m ++ TIdent (chars "as") :: toks_ty tr ++ tail) by (unfold next_function; rewrite K1, K2, K3, K4; reflexivity). cbv iota.
        unfold next_named. erewrite dbind_ok with (a := Some f) by reflexivity. cbv iota.
        erewrite dbind_ok by (apply path_start; [lia | exact I]). cbv iota.
        erewrite dbind_ok by (apply exact_no; exact I). cbv iota.
        erewrite dbind_ok with (a := Some (mk tr)) (l' := tail).
        2:{ cbn [as_other]. change (str_eqb (chars "as") (chars "as")) with true. cbv iota. erewrite dbind_ok; [reflexivity|].
            apply nt_expect_ok; [apply IH; [exact Ho | lia]|]. apply follows_p; discriminate. }
        unfold dret, str in *. destruct (joins (chars "::") (f :: m)); [contradiction|reflexivity]. }
      erewrite dbind_ok by exact E0. cbn [t_ident is_named]. cbv iota. subst tail.
      erewrite dbind_ok by apply exact_yes. erewrite dbind_ok by apply exact_yes. erewrite dbind_ok by apply exact_yes. cbn [andb].
      pose proof (nt_expect_ok (S (S n)) (SPath nm [] []) rest) as E1. cbn [toks_ty app toks_more map concat] in E1.
      assert (E2 : nt_expect (next_type (S (S n))) (TIdent nm :: rest) = Ok (MkType (CNamed nm) None None None, rest)).
      { unfold nt_expect. erewrite dbind_ok with (a := Some (MkType (CNamed nm) None None None)) (l' := rest); [reflexivity|]. apply (path_type (S (S n)) nm [] Hnm ltac:(cbn; lia) rest).
        destruct Hr as [Hr|[_ Hr]]; [left; exact Hr | right; auto]. }
      erewrite dbind_ok by exact E2. reflexivity. }
    split; [|auto]. apply unref_type; [exact I|exact Hu].
  - (* bounds on associated types *)
    destruct Hok as ([Hf Hk] & Hoa & Hoi). cbn [tsz] in Hn. destruct n as [|n]; [lia|].
    assert (Hu : reads_unref (S n) (SBound f m a i)).
    { intros r rest Hr. pose proof (joins_nonempty f m Hf) as Hne. cbn [toks_ty app]. rewrite <- !app_assoc. cbn [app]. rewrite <- !app_assoc. cbn [app]. rewrite <- !app_assoc. cbn [app].
      destruct (keyword_false _ Hk) as (K1 & K2 & K3 & K4 & K5 & K6). unfold unref_body.
      set (l0 := toks_more m ++ _).
      erewrite dbind_ok with (a := None) (l' := TIdent f :: l0) by (unfold next_object; rewrite K5, K6; reflexivity). cbv iota.
      erewrite dbind_ok with (a := None) (l' := TIdent f :: l0) by (unfold next_function; rewrite K1, K2, K3, K4; reflexivity). cbv iota.
      unfold next_named. erewrite dbind_ok with (a := Some f) by reflexivity. cbv iota. subst l0.
      erewrite dbind_ok by (apply path_start; [lia | destruct (toks_ty_first a) as (k0 & r0 & -> & _); cbn [app]; destruct k0; auto; intros [Q _]; discriminate Q]). cbv iota.
      erewrite dbind_ok by apply exact_yes. cbv iota.
      destruct (joins (chars "::") (f :: m)) as [|c0 p0] eqn:Ep; [contradiction|]. cbn [mk]. rewrite Ep. clear Ep.
      erewrite dbind_ok.
      2:{ apply nt_expect_ok; [apply IHa; [exact Hoa | lia]|]. apply follows_p; discriminate. }
      cbn [args_loop]. erewrite dbind_ok with (a := [mk a]) (l' := TPunct 61 :: toks_ty i ++ TPunct 62 :: rest) by (erewrite dbind_ok by (apply exact_no; discriminate); reflexivity).
      erewrite dbind_ok with (a := None) by reflexivity.
      erewrite dbind_ok with (a := Some (mk i)) (l' := TPunct 62 :: rest).
      2:{ cbn [as_assoc]. rewrite N.eqb_refl. erewrite dbind_ok; [reflexivity|]. apply nt_expect_ok; [apply IHi; [exact Hoi | lia]|]. apply follows_p; discriminate. }
      erewrite dbind_ok by apply exact_yes. reflexivity. }
    split; [|auto]. apply unref_type; [exact I|exact Hu].
Qed.

Lemma type_reads t n : ty_ok t -> (tsz t <= n)%nat -> reads_ty n t.
Proof.
  intros H Hn. destruct n as [|n]; [destruct t; simpl in Hn; lia|]. apply reads_both; assumption.
Qed.

(** ** The text of what was read *)
Lemma joins_cons2 sep a b l : joins sep (a :: b :: l) = a ++ sep ++ joins sep (b :: l).
Proof. reflexivity. Qed.

Lemma full_set_ref r t : t_ref t = None -> full (set_ref r t) = ref_text r ++ full t.
Proof.
  destruct t as [i w r0 a]. cbn [t_ref]. intros ->. cbn [set_ref full ref_text app]. reflexivity.
Qed.

Lemma as_isize_text len : len < 2 ^ 63 -> dec_z_text (as_isize len) = dec len.
Proof.
  intros H. unfold as_isize. replace (len <? 2 ^ 63) with true by (symmetry; apply N.ltb_lt; exact H).
  unfold dec_z_text, dec_z. destruct (Z.ltb_spec (Z.of_N len) 0); [lia|].
  f_equal. lia.
Qed.

Lemma full_mk t : ty_ok t -> full (mk t) = ty_text t.
Proof.
  induction t as [f m args IH|ts b IH|t len IH|t IH|lt t IH|lf| |t f m IH|k arg ret IHa IHr|d t more IH IHm|f m tr nm IH|f m a i IHa IHi] using sty_ind2; intros Hok.
  - destruct Hok as (_ & _ & Hargs). apply ty_ok_list in Hargs.
    cbn [mk full ty_text ref_text app]. f_equal. destruct args as [|a args]; [reflexivity|].
    do 2 f_equal. rewrite map_map. f_equal. apply map_ext_in. intros t Ht. rewrite Forall_forall in *. auto.
  - destruct Hok as (Hb & Hts). apply ty_ok_list in Hts.
    assert (E : map full (map mk ts) = map ty_text ts).
    { rewrite map_map. apply map_ext_in. intros t Ht. rewrite Forall_forall in *. auto. }
    cbn [mk full ty_text ref_text app]. f_equal. rewrite map_app, E. rewrite !app_assoc. f_equal.
    destruct ts as [|t ts]; [reflexivity|]. cbn [map].
    destruct b; [|cbn [map]; rewrite !app_nil_r; reflexivity].
    cbn [map]. rewrite joins_snoc. rewrite app_nil_r. reflexivity.
  - destruct Hok as (Hok & Hlen). cbn [mk full ty_text ref_text app].
    rewrite as_isize_text by exact Hlen. rewrite (IH Hok). reflexivity.
  - cbn [mk full ty_text ref_text app]. rewrite (IH Hok). reflexivity.
  - destruct Hok as (Hok & Hnr). cbn [mk ty_text].
    rewrite full_set_ref by (destruct t; try contradiction; try reflexivity; cbn [mk]; destruct kind; reflexivity).
    rewrite (IH Hok). destruct lt; cbn [ref_text]; [rewrite <- !app_assoc|]; reflexivity.
  - reflexivity.
  - reflexivity.
  - destruct Hok as (Hok & _). cbn [mk full ty_text ref_text app]. rewrite (IH Hok), app_nil_r. reflexivity.
  - destruct Hok as (Hoa & Hor). 
    assert (Ea : full (match arg with Some t => mk t | None => no_type end) = match arg with Some t => ty_text t | None => [] end).
    { destruct arg as [t|]; [apply IHa; [reflexivity | exact Hoa] | reflexivity]. }
    assert (Er : match option_map mk ret with Some r => chars " -> " ++ full r | None => [] end = match ret with Some t => chars " -> " ++ ty_text t | None => [] end).
    { destruct ret as [t|]; cbn [option_map]; [rewrite (IHr t eq_refl Hor)|]; reflexivity. }
    cbn [ty_text mk]. cbv zeta. destruct k; cbn [full ref_text app fn_word]; rewrite Ea, Er; reflexivity.
  - destruct Hok as (Ho & _ & _ & Hom). 
    assert (E : map full (map mk more) = map ty_text more).
    { rewrite map_map. clear -Hom IHm. induction more as [|u more IH]; [reflexivity|]. inversion IHm as [|? ? H1 H2]; subst. destruct Hom as [[H3 _] H4]. cbn [map]. rewrite (H1 H3), (IH H2 H4). reflexivity. }
    cbn [mk ty_text]. rewrite <- E, <- (IH Ho). destruct d; reflexivity.
  - destruct Hok as (_ & Ho & _). cbn [mk full ty_text ref_text app]. rewrite (IH Ho), !app_nil_r. reflexivity.
  - destruct Hok as (_ & Ha & Hi). cbn [mk full ty_text ref_text app]. rewrite (IHa Ha), (IHi Hi). reflexivity.
Qed.

(** ** Attributes *)
Lemma unquote_item q v : item_ok (IValue [] q v) -> unquote (if q then 34 :: v ++ [34] else v) = v.
Proof.
  intros H. destruct q.
  - cbn [unquote]. change (34 =? 34) with true. cbv iota. apply removelast_last.
  - unfold unquote. destruct v as [|c v]; [reflexivity|]. cbn [item_ok] in H.
    destruct (N.eqb_spec c 34); [contradiction|reflexivity].
Qed.

Lemma attr_args_reads : forall its i k acc, Forall item_ok (i :: its) -> (length its < k)%nat ->
  attr_args k [] acc (commas (map toks_item (i :: its))) = Ok (acc ++ map attr_of (i :: its), []).
Proof.
  induction its as [|j its IH]; intros i k acc Hi Hk; (destruct k as [|k]; [inversion Hk|]); cbn [attr_args];
    inversion Hi as [|? ? Hi1 Hi2]; subst.
  - destruct i as [w|key q v]; [cbn; reflexivity|].
    cbn -[unquote]. rewrite (unquote_item q v Hi1). reflexivity.
  - cbn [map]. rewrite commas_cons.
    change (toks_item j :: map toks_item its) with (map toks_item (j :: its)).
    assert (Hk' : (length its < k)%nat) by (simpl in Hk; lia).
    destruct i as [w|key q v].
    + cbn [toks_item app map].
      erewrite dbind_ok by reflexivity. erewrite dbind_ok by reflexivity.
      erewrite dbind_ok by reflexivity. erewrite dbind_ok by reflexivity.
      cbv iota. cbn [app]. change (44 =? 44) with true. cbv iota.
      change (toks_item j :: map toks_item its) with (map toks_item (j :: its)).
      rewrite IH by assumption. rewrite <- app_assoc. reflexivity.
    + cbn [toks_item app map].
      erewrite dbind_ok by reflexivity. erewrite dbind_ok by reflexivity.
      erewrite dbind_ok by reflexivity. erewrite dbind_ok by reflexivity.
      cbv iota. change (61 =? 44) with false. cbv iota.
      erewrite dbind_ok by reflexivity. erewrite dbind_ok by reflexivity.
      erewrite dbind_ok by reflexivity. erewrite dbind_ok by reflexivity.
      cbv iota. change (44 =? 44) with true. cbv iota. cbn [app]. rewrite (unquote_item q v Hi1).
      change (toks_item j :: map toks_item its) with (map toks_item (j :: its)).
      rewrite IH by assumption. rewrite <- app_assoc. reflexivity.
Qed.

Definition asz (l : list sattr) : nat :=
  list_sum (map (fun a => S (match a with AOurs _ m => S (length m) | AOther _ _ => 0 end)) l).

Lemma attrs_reads : forall l k acc rest, attrs_ok l -> (asz l < k)%nat ->
  match rest with TPunct _ :: _ => False | _ => True end ->
  next_attributes k acc (toks_attrs l ++ rest) = Ok (acc ++ map attr_of (items l), rest).
Proof.
  induction l as [|a l IH]; intros k acc rest Hok Hk Hr; (destruct k as [|k]; [inversion Hk|]); cbn [next_attributes].
  - cbn. rewrite app_nil_r.
    assert (H : next_attribute k rest = Ok (None, rest)).
    { unfold next_attribute. destruct rest as [|[]]; try contradiction; reflexivity. }
    erewrite dbind_ok by exact H. reflexivity.
  - inversion Hok as [|? ? Ha Hok']; subst. unfold toks_attrs. cbn [map concat].
    rewrite <- app_assoc. fold (toks_attrs l).
    unfold asz in Hk. cbn [map list_sum fold_right] in Hk. fold (asz l) in Hk.
    change (fold_right Nat.add 0%nat (map (fun a => S (match a with AOurs _ m => S (length m) | AOther _ _ => 0 end)) l)) with (asz l) in Hk.
    destruct a as [i m|name r].
    + assert (H : next_attribute k (toks_attr (AOurs i m) ++ toks_attrs l ++ rest)
                  = Ok (Some (Some (map attr_of (i :: m))), toks_attrs l ++ rest)).
      { unfold next_attribute. cbn [toks_attr app].
        erewrite dbind_ok by reflexivity. cbv iota. change (35 =? 35) with true. cbv iota.
        erewrite dbind_ok by reflexivity. erewrite dbind_ok by reflexivity.
        unfold dinside at 1. cbn [snd].
        erewrite dbind_ok by reflexivity. erewrite dbind_ok by reflexivity.
        rewrite str_eqb_refl.
        erewrite dbind_ok by reflexivity. erewrite dbind_ok by reflexivity.
        unfold dinside. cbn [snd].
        erewrite dbind_ok by (apply attr_args_reads; [exact Ha|lia]).
        reflexivity. }
      erewrite dbind_ok by exact H. cbv iota.
      rewrite IH by (try assumption; lia). unfold items. cbn [map concat].
      rewrite map_app, app_assoc. reflexivity.
    + assert (H : next_attribute k (toks_attr (AOther name r) ++ toks_attrs l ++ rest)
                  = Ok (Some None, toks_attrs l ++ rest)).
      { unfold next_attribute. cbn [toks_attr app].
        erewrite dbind_ok by reflexivity. cbv iota. change (35 =? 35) with true. cbv iota.
        erewrite dbind_ok by reflexivity. erewrite dbind_ok by reflexivity.
        unfold dinside at 1. cbn [snd].
        erewrite dbind_ok by reflexivity. erewrite dbind_ok by reflexivity.
        rewrite str_eqb_neq by exact Ha. reflexivity. }
      erewrite dbind_ok by exact H. cbv iota.
      rewrite IH by (try assumption; lia). reflexivity.
Qed.

Definition begins_word (t : sty) : Prop := match t with SRef _ _ | SLife _ | SNever | SAssoc _ _ _ _ => False | _ => True end.
Lemma toks_ty_nopunct t rest : begins_word t ->
  match toks_ty t ++ rest with TPunct _ :: _ => False | _ => True end.
Proof. destruct t; try contradiction; intros _; exact I. Qed.

(** ** Fields *)
Definition fsz (f : sfield) : nat := S (S (asz (sf_attrs f) + tsz (sf_type f))).
Definition fszs (l : list sfield) : nat := list_sum (map fsz l).

Definition mk_field (named : bool) (f : sfield) : pfield :=
  MkField (map attr_of (items (sf_attrs f))) (if named then Some (sf_name f) else None) (mk (sf_type f)).

Definition sfield_ok (named : bool) (f : sfield) : Prop := if named then named_ok f else unnamed_ok f.
Definition toks_field (named : bool) : sfield -> list ttree := if named then toks_named else toks_unnamed.

Lemma field_toks_ne named f : exists k r, toks_field named f = k :: r.
Proof.
  assert (H : forall (a b : list ttree), b <> [] -> exists k r, a ++ b = k :: r).
  { intros a b Hb. destruct a as [|x a]; [destruct b as [|y b]; [congruence|exists y, b; reflexivity]|exists x, (a ++ b); reflexivity]. }
  destruct named; cbn [toks_field]; unfold toks_named, toks_unnamed; rewrite app_assoc; apply H; [discriminate|].
  destruct (toks_ty_first (sf_type f)) as (k & r & -> & _). discriminate.
Qed.

(** One field up to its type. *)
Lemma field_reads named n f rest : sfield_ok named f -> (fsz f <= n)%nat -> follows rest ->
  forall k acc, (2 <= n)%nat ->
  fields_loop (next_type n) n named (S k) acc (toks_field named f ++ rest)
  = (do _p <- next_punct; fields_loop (next_type n) n named k (acc ++ [mk_field named f])) rest.
Proof.
  intros Hok Hn Hr k acc Hn2.
  destruct (field_toks_ne named f) as (k0 & r0 & E0).
  cbn [fields_loop]. erewrite dbind_ok with (a := false) (l' := toks_field named f ++ rest).
  2:{ rewrite E0. reflexivity. }
  cbv iota. unfold fsz in Hn.
  destruct named; cbn [toks_field sfield_ok mk_field] in *.
  - destruct Hok as (Ha & Ht & Hv). unfold toks_named.
    rewrite <- !app_assoc.
    erewrite dbind_ok.
    2:{ apply attrs_reads; [exact Ha|lia|]. destruct (sf_vis f); exact I. }
    erewrite dbind_ok with (a := tt) (l' := (TIdent (sf_name f) :: TPunct 58 :: toks_ty (sf_type f)) ++ rest).
    2:{ destruct (sf_vis f) eqn:Ev; cbn [toks_vis app next_visibility].
        - rewrite str_eqb_neq by (apply Hv; reflexivity). reflexivity.
        - reflexivity.
        - reflexivity. }
    cbn [app].
    erewrite dbind_ok.
    2:{ erewrite dbind_ok by reflexivity. erewrite dbind_ok by reflexivity.
        erewrite dbind_ok by apply exact_yes. reflexivity. }
    erewrite dbind_ok.
    2:{ apply nt_expect_ok; [apply type_reads; [exact Ht|lia]|exact Hr]. }
    reflexivity.
  - destruct Hok as (Ha & Ht & Hv). unfold toks_unnamed.
    rewrite <- !app_assoc.
    erewrite dbind_ok.
    2:{ apply attrs_reads; [exact Ha|lia|]. destruct (sf_vis f); cbn [toks_vis app]; try exact I.
        destruct (sf_type f); try contradiction; exact I. }
    erewrite dbind_ok with (a := tt) (l' := toks_ty (sf_type f) ++ rest).
    2:{ destruct (sf_vis f) eqn:Ev; cbn [toks_vis app next_visibility].
        - destruct (sf_type f); try contradiction; try reflexivity.
          all: try (cbn [toks_ty app next_visibility]; rewrite str_eqb_neq by exact Hv; reflexivity).
          all: first [match goal with b : bool |- _ => destruct b; reflexivity end | match goal with k : sfn |- _ => destruct k; reflexivity end].
        - change (str_eqb (chars "pub") (chars "pub")) with true. cbv iota.
          destruct (sf_type f); try contradiction; try reflexivity.
        - reflexivity. }
    erewrite dbind_ok by reflexivity.
    erewrite dbind_ok.
    2:{ apply nt_expect_ok; [apply type_reads; [exact Ht|lia]|exact Hr]. }
    reflexivity.
Qed.

Lemma fszs_le n fs : (fszs fs <= n)%nat -> Forall (fun f => (fsz f <= n)%nat) fs /\ (2 * length fs <= n)%nat.
Proof.
  revert n. induction fs as [|f fs IH]; intros n H; [split; [constructor|simpl; lia]|].
  change (fszs (f :: fs)) with (fsz f + fszs fs)%nat in H.
  destruct (IH (n - fsz f)%nat) as [H1 H2]; [lia|].
  assert (2 <= fsz f)%nat by (unfold fsz; lia).
  split; [|cbn [length]; lia]. constructor; [lia|]. eapply Forall_impl; [|exact H1]. cbv beta. intros; lia.
Qed.

Lemma fields_reads named n : (2 <= n)%nat -> forall fs b k acc,
  Forall (sfield_ok named) fs -> Forall (fun f => (fsz f <= n)%nat) fs -> (length fs < k)%nat ->
  fields_loop (next_type n) n named k acc (toks_fields (toks_field named) fs b)
  = Ok (acc ++ map (mk_field named) fs, []).
Proof.
  intros Hn2. induction fs as [|f fs IH]; intros b k acc Hok Hn Hk; (destruct k as [|k]; [inversion Hk|]).
  - cbn. rewrite app_nil_r. reflexivity.
  - inversion Hok as [|? ? Hf Hok']; subst. inversion Hn as [|? ? Hfn Hn']; subst.
    unfold toks_fields. cbn [map]. rewrite commas_cons, <- app_assoc.
    rewrite field_reads; [|exact Hf|exact Hfn| |exact Hn2].
    2:{ destruct fs; cbn [map app]; [destruct b; [apply follows_p; discriminate | apply follows_nil]|].
        apply follows_p; discriminate. }
    destruct fs as [|f' fs].
    + cbn [map app]. destruct b; cbn [trail].
      * erewrite dbind_ok by reflexivity. destruct k as [|k]; [simpl in Hk; lia|]. reflexivity.
      * erewrite dbind_ok by reflexivity. destruct k as [|k]; [simpl in Hk; lia|]. reflexivity.
    + cbn [map app]. erewrite dbind_ok by reflexivity.
      change (commas (toks_field named f' :: map (toks_field named) fs) ++ trail b)
        with (toks_fields (toks_field named) (f' :: fs) b).
      rewrite IH; [|exact Hok'|exact Hn'|simpl in Hk |- *; lia].
      rewrite <- app_assoc. reflexivity.
Qed.

(** ** Generic parameters *)
Definition mk_gen (g : sgen) : generic :=
  match g with
  | SGLife n bs => GLifetime n bs
  | SGType n bs d => GType n (option_map mk d) (map mk bs)
  | SGConst n t d => GConst n (mk t) (option_map (fun v => CVal (Z.of_N v)) d)
  end.
Definition gsz (g : sgen) : nat :=
  match g with
  | SGLife _ bs => S (length bs)
  | SGType _ bs d => 4 + tszs bs + match d with Some t => tsz t | None => 0 end
  | SGConst _ t _ => tsz t
  end.

Lemma pluses_cons x l : pluses (x :: l) = x ++ match l with [] => [] | _ => TPunct 43 :: pluses l end.
Proof. destruct l; simpl; [rewrite app_nil_r|]; reflexivity. Qed.

(** After a generic parameter: a comma, the closing bracket or the body. *)
Definition ends (rest : list ttree) : Prop :=
  match rest with TPunct c :: _ => c = 44 \/ c = 62 | TGroup DBrace _ :: _ => True | _ => False end.

Lemma ends_exact c rest : ends rest -> c <> 44 -> c <> 62 -> next_exact c rest = Ok (false, rest).
Proof.
  intros H H1 H2. apply exact_no. destruct rest as [|[]]; try contradiction; [|exact I]. destruct H; congruence.
Qed.
Lemma ends_follows rest : ends rest -> follows rest.
Proof. destruct rest as [|[]]; try contradiction; [|intros; split; exact I]. intros [-> | ->]; apply follows_p; discriminate. Qed.

Lemma lifetimes_reads : forall bs b k acc rest, (length bs + 1 < k)%nat -> 
  match rest with TPunct c :: _ => c <> 43 | _ => True end ->
  lifetimes_while k acc (pluses (map (fun b => [TPunct 39; TIdent b]) (b :: bs)) ++ rest)
  = Ok (acc ++ b :: bs, rest).
Proof.
  induction bs as [|b' bs IH]; intros b k acc rest Hk Hr; (destruct k as [|k]; [inversion Hk|]); cbn [lifetimes_while].
  - cbn [map pluses app]. erewrite dbind_ok by reflexivity. cbv iota.
    erewrite dbind_ok by (apply exact_no; exact Hr). reflexivity.
  - cbn [map]. rewrite pluses_cons. cbn [app].
    erewrite dbind_ok by reflexivity. cbv iota.
    erewrite dbind_ok by apply exact_yes. cbv iota.
    change ([TPunct 39; TIdent b'] :: map (fun b => [TPunct 39; TIdent b]) bs)
      with (map (fun b => [TPunct 39; TIdent b]) (b' :: bs)).
    rewrite IH; [|simpl in Hk; lia|exact Hr]. rewrite <- app_assoc. reflexivity.
Qed.

Lemma bounds_reads n : forall ts t k acc rest,
  Forall (reads_ty n) (t :: ts) -> Forall (fun t => open_end t = false) (t :: ts) -> (length ts < k)%nat ->
  match rest with TPunct c :: _ => c <> 43 | _ => True end -> follows rest ->
  bounds_loop (next_type n) k acc (pluses (map toks_ty (t :: ts)) ++ rest)
  = Ok (acc ++ map mk (t :: ts), rest).
Proof.
  induction ts as [|t' ts IH]; intros t k acc rest HF Ho Hk Hr Hf; (destruct k as [|k]; [inversion Hk|]);
    cbn [bounds_loop]; inversion HF as [|? ? Ht HF']; subst.
  - cbn [map pluses]. erewrite dbind_ok by (apply Ht; left; exact Hf). cbv iota.
    erewrite dbind_ok by (apply exact_no; exact Hr). reflexivity.
  - inversion Ho as [|? ? Ho1 Ho']; subst. cbn [map]. rewrite pluses_cons, <- app_assoc. cbn [app].
    erewrite dbind_ok by (apply Ht; right; split; [exact Ho1 | eauto]). cbv iota.
    erewrite dbind_ok by apply exact_yes. cbv iota.
    change (toks_ty t' :: map toks_ty ts) with (map toks_ty (t' :: ts)).
    rewrite IH; [|exact HF'|exact Ho'|simpl in Hk; lia|exact Hr|exact Hf]. rewrite <- app_assoc. reflexivity.
Qed.
Lemma bounds_open ts : Forall bound_ok ts -> Forall (fun t => open_end t = false) ts.
Proof. apply Forall_impl. intros t [_ H]. exact H. Qed.

Lemma types_read n ts : Forall bound_ok ts -> (tszs ts <= n)%nat -> Forall (reads_ty n) ts.
Proof.
  intros H1 H2. destruct (tszs_le n ts H2) as [H3 _]. rewrite Forall_forall in *. intros t Ht.
  apply type_reads; [apply H1 | apply H3]; exact Ht.
Qed.

Lemma pluses_first t ts rest : exists k r, pluses (map toks_ty (t :: ts)) ++ rest = k :: r /\
  match k with TPunct c => c = 38 \/ c = 33 \/ c = 39 \/ c = 60 | _ => True end.
Proof.
  cbn [map]. rewrite pluses_cons. destruct (toks_ty_first t) as (k & r & -> & Hk).
  eexists k, _. split; [reflexivity|]. destruct k; auto.
Qed.

Lemma parse_dec_i v : v < 2 ^ 63 -> parse_isize (dec v) = Some (Z.of_N v).
Proof.
  intros H. unfold parse_isize. rewrite parse_dec by lia.
  replace (v <? 2 ^ 63) with true by (symmetry; apply N.ltb_lt; exact H). reflexivity.
Qed.

Lemma generic_reads n g rest : gen_ok g -> (gsz g < n)%nat -> (2 <= n)%nat -> ends rest ->
  next_generic (next_type n) n (toks_gen g ++ rest) = Ok (Some (mk_gen g), rest).
Proof.
  intros Hok Hn Hn2 Hr. pose proof (ends_follows _ Hr) as Hfr.
  destruct g as [nm bs|nm bs d|nm t d]; cbn [toks_gen mk_gen gsz] in *.
  - cbn [app next_generic]. change (39 =? 62) with false. change (39 =? 39) with true. cbv iota.
    erewrite dbind_ok by reflexivity. erewrite dbind_ok by reflexivity.
    destruct bs as [|b bs].
    + cbn [app]. erewrite dbind_ok by (apply ends_exact; [exact Hr|discriminate|discriminate]).
      cbv iota. reflexivity.
    + cbn [app]. erewrite dbind_ok by apply exact_yes. cbv iota.
      erewrite dbind_ok.
      2:{ apply lifetimes_reads; [simpl in Hn; lia|]. destruct rest as [|[]]; try contradiction; [|exact I].
          destruct Hr; subst; discriminate. }
      reflexivity.
  - destruct Hok as (H1 & H2 & H3 & H4 & H5).
    cbn [app next_generic]. rewrite str_eqb_neq by exact H3.
    rewrite <- app_assoc.
    set (after_b := match d with Some t => TPunct 61 :: toks_ty t | None => [] end ++ rest).
    assert (Hab : match after_b with TPunct c :: _ => c = 61 \/ c = 44 \/ c = 62 | TGroup _ _ :: _ => True | _ => False end).
    { subst after_b. destruct d; cbn [app]; [auto|]. destruct rest as [|[]]; try contradiction; auto. }
    assert (Hfa : follows after_b).
    { destruct after_b as [|[]]; try contradiction; [|split; exact I]. destruct Hab as [-> | [-> | ->]]; apply follows_p; discriminate. }
    assert (Hrd : reads_ty n (SPath nm [] [])).
    { apply type_reads; [cbn; auto|]. cbn [tsz length map list_sum fold_right]. lia. }
    erewrite dbind_ok with (a := mk (SPath nm [] []))
      (l' := match bs with [] => [] | _ => TPunct 58 :: pluses (map toks_ty bs) end ++ after_b).
    2:{ apply (nt_expect_ok n (SPath nm [] []) _ Hrd). destruct bs as [|b bs]; [exact Hfa|]. cbn [app].
        destruct (pluses_first b bs after_b) as (k & r & -> & Hk). split; [|split; discriminate]. split; [discriminate|]. intros _.
        destruct k; auto. destruct Hk as [-> | [-> | [-> | ->]]]; discriminate. }
    assert (Hb : exists c, next_exact 58 (match bs with [] => [] | _ => TPunct 58 :: pluses (map toks_ty bs) end ++ after_b)
       = Ok (c, (match bs with [] => [] | _ => pluses (map toks_ty bs) end ++ after_b)) /\ c = match bs with [] => false | _ => true end).
    { destruct bs; cbn [app].
      - eexists. split; [|reflexivity]. apply exact_no. destruct after_b as [|[]]; try contradiction; [|exact I].
        destruct Hab as [-> | [-> | ->]]; discriminate.
      - eexists. split; [|reflexivity]. apply exact_yes. }
    destruct Hb as (c & Hb & Hc). erewrite dbind_ok by exact Hb. subst c.
    erewrite dbind_ok with (a := map mk bs) (l' := after_b).
    2:{ destruct bs as [|b bs]; [reflexivity|].
        rewrite (bounds_reads n bs b n []); [reflexivity|apply types_read; [exact H4|lia]|apply bounds_open; exact H4| | |exact Hfa].
        - destruct (tszs_le (tszs (b :: bs)) (b :: bs) (Nat.le_refl _)) as [_ Hl]. simpl in Hl. lia.
        - destruct after_b as [|[]]; try contradiction; [|exact I]. destruct Hab as [-> | [-> | ->]]; discriminate. }
    assert (Ht : full (mk (SPath nm [] [])) = nm) by (cbn; apply app_nil_r).
    rewrite Ht. subst after_b. destruct d as [t|]; cbn [app].
    + erewrite dbind_ok by apply exact_yes. cbv iota.
      erewrite dbind_ok.
      2:{ erewrite dbind_ok; [reflexivity|]. apply nt_expect_ok; [apply type_reads; [exact H5|lia]|exact Hfr]. }
      reflexivity.
    + erewrite dbind_ok by (apply ends_exact; [exact Hr|discriminate|discriminate]). reflexivity.
  - destruct Hok as (Ht & Hd). cbn [app next_generic].
    change (str_eqb (chars "const") (chars "const")) with true. cbv iota.
    assert (Hc : next_const_generic (next_type n) (TIdent nm :: TPunct 58 :: (toks_ty t ++ match d with Some v => [TPunct 61; TLit (dec v)] | None => [] end) ++ rest)
                 = Ok (GConst nm (mk t) (option_map (fun v => CVal (Z.of_N v)) d), rest)).
    { unfold next_const_generic. change (58 =? 58) with true. cbv iota. rewrite <- app_assoc.
      erewrite dbind_ok.
      2:{ apply nt_expect_ok; [apply type_reads; [exact Ht|lia]|].
          destruct d; cbn [app]; [apply follows_p; discriminate|exact Hfr]. }
      destruct d as [v|]; cbn [app].
      - erewrite dbind_ok by apply exact_yes. cbv iota. cbn [tt_text]. rewrite parse_dec_i by exact Hd. reflexivity.
      - erewrite dbind_ok by (apply ends_exact; [exact Hr|discriminate|discriminate]). reflexivity. }
    erewrite dbind_ok by exact Hc. reflexivity.
Qed.

Lemma g_full_mk g : g_full (mk_gen g) = gen_name g.
Proof. destruct g; reflexivity. Qed.

Lemma angle_reads n rest : (2 <= n)%nat -> forall gs g k done,
  Forall gen_ok (g :: gs) -> Forall (fun g => (gsz g < n)%nat) (g :: gs) -> (length gs < k)%nat ->
  NoDup (map gen_name (done ++ g :: gs)) ->
  angle_loop (next_type n) n k (map mk_gen done) (commas (map toks_gen (g :: gs)) ++ TPunct 62 :: rest)
  = Ok (map mk_gen (done ++ g :: gs), TPunct 62 :: rest).
Proof.
  intros Hn2. induction gs as [|g' gs IH]; intros g k done Hok Hn Hk Hnd; (destruct k as [|k]; [inversion Hk|]);
    cbn [angle_loop]; inversion Hok as [|? ? Hg Hok']; subst; inversion Hn as [|? ? Hgn Hn']; subst.
  - assert (Hkn : known (mk_gen g) (map mk_gen done) = false).
    { unfold known. destruct (existsb _ _) eqn:E; [|reflexivity]. apply existsb_exists in E as (x & Hx & E).
      apply in_map_iff in Hx as (y & <- & Hy). apply str_eqb_eq in E. rewrite !g_full_mk in E.
      rewrite map_app in Hnd. cbn [map] in Hnd. apply NoDup_remove_2 in Hnd. exfalso. apply Hnd.
      apply in_or_app. left. rewrite <- E. apply in_map. exact Hy. }
    cbn [map commas].
    erewrite dbind_ok by (apply generic_reads; [exact Hg|exact Hgn|exact Hn2|right; reflexivity]).
    cbv iota. rewrite Hkn.
    erewrite dbind_ok by (apply exact_no; discriminate). cbv iota. unfold dret. rewrite map_app. reflexivity.
  - assert (Hkn : known (mk_gen g) (map mk_gen done) = false).
    { unfold known. destruct (existsb _ _) eqn:E; [|reflexivity]. apply existsb_exists in E as (x & Hx & E).
      apply in_map_iff in Hx as (y & <- & Hy). apply str_eqb_eq in E. rewrite !g_full_mk in E.
      rewrite map_app in Hnd. cbn [map] in Hnd. apply NoDup_remove_2 in Hnd. exfalso. apply Hnd.
      apply in_or_app. left. rewrite <- E. apply in_map. exact Hy. }
    cbn [map]. rewrite commas_cons, <- app_assoc. cbn [app].
    erewrite dbind_ok by (apply generic_reads; [exact Hg|exact Hgn|exact Hn2|left; reflexivity]).
    cbv iota. rewrite Hkn.
    erewrite dbind_ok by apply exact_yes. cbv iota.
    change (map mk_gen done ++ [mk_gen g]) with (map mk_gen done ++ map mk_gen [g]). rewrite <- map_app.
    change (toks_gen g' :: map toks_gen gs) with (map toks_gen (g' :: gs)).
    rewrite IH; [|exact Hok'|exact Hn'|simpl in Hk; lia|rewrite <- app_assoc; exact Hnd].
    rewrite <- app_assoc. reflexivity.
Qed.

Definition gszs (l : list sgen) : nat := list_sum (map (fun g => S (gsz g)) l).
Lemma gszs_le n l : (gszs l <= n)%nat -> Forall (fun g => (gsz g < n)%nat) l /\ (length l <= n)%nat.
Proof.
  revert n. induction l as [|g l IH]; intros n H; [split; [constructor|simpl; lia]|].
  change (gszs (g :: l)) with (S (gsz g) + gszs l)%nat in H.
  destruct (IH (n - S (gsz g))%nat) as [H1 H2]; [lia|].
  split; [|cbn [length]; lia]. constructor; [lia|]. eapply Forall_impl; [|exact H1]. cbv beta. intros; lia.
Qed.


(** ** Where clauses *)
Definition mk_w (w : swhere) : generic :=
  match w with WType n bs => GType n None (map mk bs) | WLife n bs => GLifetime n bs end.
Definition wsz (w : swhere) : nat :=
  match w with WType _ bs => 4 + tszs bs | WLife _ bs => S (length bs) end.
Definition mk_genw (ws : list swhere) (g : sgen) : generic :=
  match g with
  | SGLife n bs => GLifetime n (bs ++ where_lifes n ws)
  | SGType n bs d => GType n (option_map mk d) (map mk (bs ++ where_types n ws))
  | SGConst n t d => GConst n (mk t) (option_map (fun v => CVal (Z.of_N v)) d)
  end.
Definition mk_self (ws : list swhere) : list generic :=
  match where_types self ws with [] => [] | bs => [GWhere self (map mk bs)] end.

Lemma where_types_app n a b : where_types n (a ++ b) = where_types n a ++ where_types n b.
Proof. unfold where_types. rewrite map_app, concat_app. reflexivity. Qed.
Lemma where_lifes_app n a b : where_lifes n (a ++ b) = where_lifes n a ++ where_lifes n b.
Proof. unfold where_lifes. rewrite map_app, concat_app. reflexivity. Qed.

Lemma mk_genw_nil g : mk_genw [] g = mk_gen g.
Proof. destruct g; cbn; rewrite ?app_nil_r; reflexivity. Qed.
Lemma g_full_mkw ws g : g_full (mk_genw ws g) = gen_name g.
Proof. destruct g; reflexivity. Qed.

Definition w_name (w : swhere) : str := match w with WType n _ => n | WLife n _ => n end.
Lemma g_full_w w : g_full (mk_w w) = w_name w.
Proof. destruct w; reflexivity. Qed.

Lemma mk_genw_other ws w g : w_name w <> gen_name g -> mk_genw (ws ++ [w]) g = mk_genw ws g.
Proof.
  intros H. destruct g as [n bs|n bs d|n t d]; cbn [mk_genw gen_name] in *; try reflexivity.
  - rewrite where_lifes_app. unfold where_lifes at 2. destruct w; cbn [map concat w_name] in *; rewrite ?app_nil_r; try reflexivity.
    rewrite str_eqb_neq by exact H. rewrite ?app_nil_r. reflexivity.
  - rewrite where_types_app. unfold where_types at 2. destruct w; cbn [map concat w_name] in *; rewrite ?app_nil_r; try reflexivity.
    rewrite str_eqb_neq by exact H. rewrite ?app_nil_r. reflexivity.
Qed.

Lemma merge_declared ws w : forall gs r, NoDup (map gen_name gs) ->
  (exists g, In g gs /\ gen_name g = w_name w /\
     match w, g with WType _ _, SGType _ _ _ => True | WLife _ _, SGLife _ _ => True | _, _ => False end) ->
  merge_into (mk_w w) (map (mk_genw ws) gs ++ r) = Some (map (mk_genw (ws ++ [w])) gs ++ r).
Proof.
  induction gs as [|g gs IH]; intros r Hnd (g0 & Hin & Hnm & Hk); [contradiction|].
  inversion Hnd as [|? ? Hn Hnd']; subst. cbn [map app merge_into]. rewrite g_full_mkw, g_full_w.
  destruct (str_eqb (gen_name g) (w_name w)) eqn:E.
  - apply str_eqb_eq in E.
    assert (g0 = g).
    { destruct Hin as [<- |Hin]; [reflexivity|]. exfalso. apply Hn. rewrite E, <- Hnm. apply in_map. exact Hin. }
    subst g0.
    assert (Hm : merge_generic (mk_genw ws g) (mk_w w) = Some (mk_genw (ws ++ [w]) g)).
    { destruct w as [m bs'|m bs'], g as [n bs|n bs d|n t d]; try contradiction; cbn [merge_generic mk_genw mk_w gen_name w_name] in *; subst m.
      - rewrite where_types_app. unfold where_types at 3. cbn [map concat]. rewrite str_eqb_refl, app_nil_r.
        rewrite !map_app, !app_assoc. reflexivity.
      - rewrite where_lifes_app. unfold where_lifes at 3. cbn [map concat]. rewrite str_eqb_refl, app_nil_r.
        rewrite !app_assoc. reflexivity. }
    rewrite Hm. do 3 f_equal.
    apply map_ext_in. intros x Hx. symmetry. apply mk_genw_other. rewrite <- E. intros Hc.
    apply Hn. rewrite Hc. apply in_map. exact Hx.
  - rewrite IH.
    + rewrite mk_genw_other; [reflexivity|]. intros Hc. rewrite Hc, str_eqb_refl in E. discriminate.
    + exact Hnd'.
    + exists g0. split; [|auto]. destruct Hin as [<- |Hin]; [|exact Hin].
      rewrite Hnm, str_eqb_refl in E. discriminate.
Qed.

Lemma known_declared ws x gs r : In (g_full x) (map gen_name gs) -> known x (map (mk_genw ws) gs ++ r) = true.
Proof.
  intros H. apply in_map_iff in H as (g & Hg & Hin). unfold known. apply existsb_exists.
  exists (mk_genw ws g). split; [apply in_or_app; left; apply in_map; exact Hin|].
  rewrite g_full_mkw, Hg. apply str_eqb_refl.
Qed.
Lemma known_not ws x gs : ~ In (g_full x) (map gen_name gs) -> known x (map (mk_genw ws) gs) = false.
Proof.
  intros H. unfold known. destruct (existsb _ _) eqn:E; [|reflexivity]. exfalso. apply H.
  apply existsb_exists in E as (y & Hy & E). apply in_map_iff in Hy as (g & <- & Hg).
  apply str_eqb_eq in E. rewrite g_full_mkw in E. rewrite <- E. apply in_map. exact Hg.
Qed.

Lemma mk_self_other ws w : is_self w = false -> mk_self (ws ++ [w]) = mk_self ws.
Proof.
  intros H. unfold mk_self. rewrite where_types_app. unfold where_types at 2.
  destruct w as [n bs|n bs]; cbn [map concat is_self] in *; [rewrite H|]; rewrite !app_nil_r; reflexivity.
Qed.
Lemma no_self ws : filter is_self ws = [] -> where_types self ws = [].
Proof.
  induction ws as [|w ws IH]; cbn [filter]; [reflexivity|]. destruct (is_self w) eqn:E; [discriminate|].
  intros H. unfold where_types in *. cbn [map concat]. rewrite (IH H), app_nil_r.
  destruct w as [n bs|n bs]; [|reflexivity]. cbn [is_self] in E. rewrite E. reflexivity.
Qed.

(** One clause more. *)
Lemma where_step gs ws w : NoDup (self :: map gen_name gs) -> where_ok gs w ->
  (length (filter is_self (ws ++ [w])) <= 1)%nat ->
  (if known (mk_w w) (map (mk_genw ws) gs ++ mk_self ws)
   then merge_into (mk_w w) (map (mk_genw ws) gs ++ mk_self ws)
   else match mk_w w with
        | GType nm _ b => Some ((map (mk_genw ws) gs ++ mk_self ws) ++ [GWhere nm b])
        | GWhere nm b => Some ((map (mk_genw ws) gs ++ mk_self ws) ++ [mk_w w])
        | _ => None
        end)
  = Some (map (mk_genw (ws ++ [w])) gs ++ mk_self (ws ++ [w])).
Proof.
  intros Hnd Hok Hs. inversion Hnd as [|? ? Hself Hnd']; subst.
  assert (Hdecl : forall g, In g gs -> gen_name g = w_name w ->
     match w, g with WType _ _, SGType _ _ _ => True | WLife _ _, SGLife _ _ => True | _, _ => False end ->
     is_self w = false ->
     (if known (mk_w w) (map (mk_genw ws) gs ++ mk_self ws)
      then merge_into (mk_w w) (map (mk_genw ws) gs ++ mk_self ws)
      else match mk_w w with
           | GType nm _ b => Some ((map (mk_genw ws) gs ++ mk_self ws) ++ [GWhere nm b])
           | GWhere nm b => Some ((map (mk_genw ws) gs ++ mk_self ws) ++ [mk_w w])
           | _ => None
           end)
     = Some (map (mk_genw (ws ++ [w])) gs ++ mk_self (ws ++ [w]))).
  { intros g Hin Hg Hk Hns. rewrite known_declared.
    2:{ rewrite g_full_w, <- Hg. apply in_map. exact Hin. }
    rewrite merge_declared; [|exact Hnd'|exists g; auto]. rewrite mk_self_other by exact Hns. reflexivity. }
  destruct w as [n bs|n bs].
  - destruct Hok as (Hne & _ & [Hn|(b & d & Hin)]).
    + subst n. rewrite filter_app in Hs. cbn [filter is_self] in Hs. rewrite str_eqb_refl in Hs.
      rewrite app_length in Hs. cbn [length] in Hs.
      assert (E : filter is_self ws = []) by (destruct (filter is_self ws); [reflexivity|simpl in Hs; lia]).
      apply no_self in E. unfold mk_self at 1 2 3 4. rewrite E, app_nil_r.
      rewrite known_not by exact Hself. cbn [mk_w].
      unfold mk_self. rewrite where_types_app, E. unfold where_types. cbn [map concat app].
      rewrite str_eqb_refl, app_nil_r. destruct bs as [|b0 bs0]; [congruence|]. do 2 f_equal.
      apply map_ext_in. intros g Hg. symmetry. apply mk_genw_other. cbn [w_name]. intros Hc.
      apply Hself. rewrite Hc. apply in_map. exact Hg.
    + apply (Hdecl (SGType n b d)); [exact Hin|reflexivity|exact I|]. cbn [is_self]. apply str_eqb_neq.
      intros ->. apply Hself. change self with (gen_name (SGType self b d)). apply in_map. exact Hin.
  - destruct Hok as (Hne & b & Hin).
    apply (Hdecl (SGLife n b)); [exact Hin|reflexivity|exact I|reflexivity].
Qed.

Lemma where1_reads n gs w rest : Forall gen_ok gs -> where_ok gs w -> (wsz w < n)%nat -> (2 <= n)%nat -> ends rest ->
  next_generic (next_type n) n (toks_where1 w ++ rest) = Ok (Some (mk_w w), rest).
Proof.
  intros Hgs Hok Hn Hn2 Hr. destruct w as [nm bs|nm bs]; cbn [wsz] in Hn.
  - destruct Hok as (Hne & Hbs & Hnm).
    assert (Hg : gen_ok (SGType nm bs None)).
    { destruct Hnm as [-> |(b & d & Hin)].
      - cbn [gen_ok]. repeat split; auto; discriminate.
      - rewrite Forall_forall in Hgs. apply Hgs in Hin. cbn [gen_ok] in *. tauto. }
    pose proof (generic_reads n (SGType nm bs None) rest Hg) as H. cbn [toks_gen gsz mk_gen option_map] in H.
    destruct bs as [|b bs]; [congruence|]. rewrite app_nil_r in H. apply H; [lia|exact Hn2|exact Hr].
  - destruct Hok as (Hne & _).
    pose proof (generic_reads n (SGLife nm bs) rest I) as H. cbn [toks_gen gsz mk_gen] in H.
    destruct bs as [|b bs]; [congruence|]. apply H; [lia|exact Hn2|exact Hr].
Qed.

Lemma where_reads n gs inner rest : (2 <= n)%nat -> Forall gen_ok gs -> NoDup (self :: map gen_name gs) ->
  forall ws w b k done,
  Forall (where_ok gs) (w :: ws) -> Forall (fun w => (wsz w < n)%nat) (w :: ws) -> (length ws + 1 < k)%nat ->
  (length (filter is_self (done ++ w :: ws)) <= 1)%nat ->
  where_loop (next_type n) n k (map (mk_genw done) gs ++ mk_self done)
    ((commas (map toks_where1 (w :: ws)) ++ trail b) ++ TGroup DBrace inner :: rest)
  = Ok (map (mk_genw (done ++ w :: ws)) gs ++ mk_self (done ++ w :: ws), TGroup DBrace inner :: rest).
Proof.
  intros Hn2 Hgs Hnd. induction ws as [|w' ws IH]; intros w b k done Hok Hn Hk Hs; (destruct k as [|k]; [inversion Hk|]);
    cbn [where_loop]; inversion Hok as [|? ? Hw Hok']; subst; inversion Hn as [|? ? Hwn Hn']; subst.
  - pose proof (where_step gs done w Hnd Hw Hs) as E.
    cbn [map commas]. rewrite <- app_assoc.
    erewrite dbind_ok.
    2:{ apply (where1_reads n gs); [exact Hgs|exact Hw|exact Hwn|exact Hn2|]. destruct b; cbn; auto. }
    cbv iota. rewrite E. destruct b; cbn [trail app].
    + erewrite dbind_ok by apply exact_yes. cbv iota.
      erewrite dbind_ok by reflexivity. cbv iota. destruct k as [|k]; [simpl in Hk; lia|].
      cbn [where_loop]. erewrite dbind_ok by reflexivity. reflexivity.
    + erewrite dbind_ok by reflexivity. reflexivity.
  - assert (Hs' : (length (filter is_self (done ++ [w])) <= 1)%nat).
    { change (w :: w' :: ws) with ([w] ++ w' :: ws) in Hs. rewrite app_assoc, filter_app, app_length in Hs. lia. }
    pose proof (where_step gs done w Hnd Hw Hs') as E.
    cbn [map]. rewrite commas_cons, <- !app_assoc. cbn [app].
    erewrite dbind_ok by (apply (where1_reads n gs); [exact Hgs|exact Hw|exact Hwn|exact Hn2|left; reflexivity]).
    cbv iota. rewrite E. erewrite dbind_ok by apply exact_yes. cbv iota.
    erewrite dbind_ok with (a := false)
      (l' := (commas (map toks_where1 (w' :: ws)) ++ trail b) ++ TGroup DBrace inner :: rest).
    2:{ cbn [map]. rewrite commas_cons, <- !app_assoc. destruct w'; reflexivity. }
    cbv iota. rewrite IH; [|exact Hok'|exact Hn'|simpl in Hk; lia|].
    + rewrite <- app_assoc. reflexivity.
    + rewrite <- app_assoc. exact Hs.
Qed.

Definition wszs (l : list swhere) : nat := list_sum (map (fun w => S (wsz w)) l).
Lemma wszs_le n l : (wszs l <= n)%nat -> Forall (fun w => (wsz w < n)%nat) l /\ (length l <= n)%nat.
Proof.
  revert n. induction l as [|g l IH]; intros n H; [split; [constructor|simpl; lia]|].
  change (wszs (g :: l)) with (S (wsz g) + wszs l)%nat in H.
  destruct (IH (n - S (wsz g))%nat) as [H1 H2]; [lia|].
  split; [|cbn [length]; lia]. constructor; [lia|]. eapply Forall_impl; [|exact H1]. cbv beta. intros; lia.
Qed.

(** What is made of the parameters and the where clause together. *)
Definition mk_gens (gs : list sgen) (ws : list swhere) : list generic := map (mk_genw ws) gs ++ mk_self ws.
Lemma mk_gens_nil gs : mk_gens gs [] = map mk_gen gs.
Proof. unfold mk_gens. cbn. rewrite app_nil_r. apply map_ext. apply mk_genw_nil. Qed.

Definition gens_ok (gs : list sgen) (ws : list swhere) : Prop :=
  Forall gen_ok gs /\ NoDup (self :: map gen_name gs) /\ Forall (where_ok gs) ws /\
  (length (filter is_self ws) <= 1)%nat /\ (gs = [] -> ws = []).

(** After the parameters stand the where clause and the body, or a semicolon. *)
Lemma gens_reads n gs ws b rest : gens_ok gs ws -> (3 + gszs gs + wszs ws <= n)%nat ->
  match rest with TGroup d _ :: _ => ws = [] \/ d = DBrace | TPunct c :: _ => c = 59 /\ ws = [] | _ => False end ->
  get_bounds (next_type n) n (toks_gens gs ++ toks_where ws b ++ rest) = Ok (mk_gens gs ws, rest).
Proof.
  intros (Hok & Hnd & Hw & Hs & Hne) Hn Hr. destruct gs as [|g gs].
  - rewrite (Hne eq_refl) in *. cbn [toks_gens toks_where app]. rewrite mk_gens_nil.
    destruct rest as [|[]]; try contradiction; [|reflexivity].
    destruct Hr; subst. reflexivity.
  - cbn [toks_gens app]. unfold get_bounds. change (60 =? 60) with true. cbv iota.
    destruct (gszs_le (n - 1) (g :: gs)) as [H1 H2]; [lia|].
    rewrite <- app_assoc. cbn [app].
    erewrite dbind_ok.
    2:{ apply (angle_reads n) with (done := []); [lia|exact Hok| |simpl in H2; lia|].
        - eapply Forall_impl; [|exact H1]. cbv beta. intros; lia.
        - inversion Hnd; subst. assumption. }
    erewrite dbind_ok by apply exact_yes. cbv iota. cbn [app].
    destruct ws as [|w ws].
    + cbn [toks_where app]. rewrite mk_gens_nil. destruct rest as [|[]]; try contradiction; reflexivity.
    + destruct rest as [|[]]; try contradiction; [destruct Hr; discriminate|].
      destruct Hr as [Hr| ->]; [discriminate|].
      cbn [toks_where app]. change (str_eqb (chars "where") (chars "where")) with true. cbv iota.
      destruct (wszs_le (n - 1) (w :: ws)) as [W1 W2]; [lia|].
      assert (E : map mk_gen (g :: gs) = map (mk_genw []) (g :: gs) ++ mk_self []).
      { rewrite app_nil_r. apply map_ext. intros x. symmetry. apply mk_genw_nil. }
      rewrite E.
      rewrite (where_reads n (g :: gs)) with (done := []); [reflexivity|lia|exact Hok|exact Hnd|exact Hw| |simpl in W2; lia|exact Hs].
      eapply Forall_impl; [|exact W1]. cbv beta. intros; lia.
Qed.

(** ** Structs and enums *)
Lemma named_toks fs b : toks_fields (toks_field true) fs b = toks_fields toks_named fs b.
Proof. reflexivity. Qed.

Definition struct_toks (kind : bool) (fs : list sfield) (b : bool) : list ttree :=
  if kind then [TGroup DBrace (toks_fields toks_named fs b)]
  else [TGroup DParen (toks_fields toks_unnamed fs b); TPunct 59].

Lemma struct_reads n nm gs ws wb named fs b rest :
  gens_ok gs ws -> (named = false -> ws = []) -> Forall (sfield_ok named) fs ->
  (4 + gszs gs + wszs ws + fszs fs <= n)%nat ->
  next_struct (next_type n) n (TIdent nm :: toks_gens gs ++ toks_where ws wb ++ struct_toks named fs b ++ rest)
  = Ok (MkStruct (Some nm) named (map (mk_field named) fs) [] (mk_gens gs ws), rest).
Proof.
  intros Hg Hws Hf Hn. unfold next_struct.
  destruct (fszs_le (n - 1) fs) as [H1 H2]; [lia|].
  assert (HF : fields_loop (next_type n) n named n [] (toks_fields (toks_field named) fs b)
               = Ok (map (mk_field named) fs, [])).
  { apply (fields_reads named n) with (acc := []); [lia|exact Hf| |lia].
    eapply Forall_impl; [|exact H1]. cbv beta. intros; lia. }
  erewrite dbind_ok by reflexivity.
  erewrite dbind_ok.
  2:{ apply gens_reads; [exact Hg|lia|]. destruct named; [right; reflexivity|left; apply Hws; reflexivity]. }
  destruct named; cbn [struct_toks app toks_field] in *.
  - erewrite dbind_ok by reflexivity. cbv iota.
    erewrite dbind_ok.
    2:{ unfold dinside. rewrite HF. reflexivity. }
    reflexivity.
  - erewrite dbind_ok by reflexivity. cbv iota.
    erewrite dbind_ok.
    2:{ unfold dinside. rewrite HF. reflexivity. }
    erewrite dbind_ok by apply exact_yes. reflexivity.
Qed.

Lemma unit_reads n nm gs rest :
  gens_ok gs [] -> (3 + gszs gs <= n)%nat ->
  next_struct (next_type n) n (TIdent nm :: toks_gens gs ++ TPunct 59 :: rest)
  = Ok (MkStruct (Some nm) false [] [] (mk_gens gs []), rest).
Proof.
  intros Hg Hn. unfold next_struct.
  erewrite dbind_ok by reflexivity.
  pose proof (gens_reads n gs [] false (TPunct 59 :: rest) Hg) as E. cbn [toks_where app] in E.
  erewrite dbind_ok by (apply E; [unfold wszs; cbn [map list_sum fold_right]; lia|auto]).
  reflexivity.
Qed.

Definition mk_payload (p : spayload) : type :=
  match p with
  | PUnit => no_type
  | PTuple ts b => mk (STuple ts b)
  | PStruct fs _ =>
    MkType (CAnonymous (MkStruct None true (map (mk_field true) fs) [] []))
           (Some (map fl_type (map (mk_field true) fs))) None None
  end.
Definition psz (p : spayload) : nat :=
  match p with PUnit => 2 | PTuple ts b => tsz (STuple ts b) | PStruct fs _ => 4 + fszs fs end.
Definition mk_variant (v : svariant) : pfield :=
  MkField (map attr_of (items (sv_attrs v))) (Some (sv_name v)) (mk_payload (sv_payload v)).
Definition vsz (v : svariant) : nat := 2 + asz (sv_attrs v) + psz (sv_payload v).

Lemma anon_reads n fs b rest : Forall named_ok fs -> (3 + fszs fs <= n)%nat ->
  next_struct (next_type n) n (TGroup DBrace (toks_fields toks_named fs b) :: rest)
  = Ok (MkStruct None true (map (mk_field true) fs) [] [], rest).
Proof.
  intros Hf Hn. unfold next_struct.
  destruct (fszs_le (n - 1) fs) as [H1 H2]; [lia|].
  assert (HF : fields_loop (next_type n) n true n [] (toks_fields toks_named fs b)
               = Ok (map (mk_field true) fs, [])).
  { apply (fields_reads true n) with (acc := []); [lia|exact Hf| |lia].
    eapply Forall_impl; [|exact H1]. cbv beta. intros; lia. }
  do 3 (erewrite dbind_ok by reflexivity). cbv iota.
  erewrite dbind_ok.
  2:{ unfold dinside. rewrite HF. reflexivity. }
  reflexivity.
Qed.

(** A payload other than none. *)
Lemma payload_reads n p rest : payload_ok p -> p <> PUnit -> (psz p <= n)%nat -> follows rest ->
  next_type n (toks_payload p ++ rest) = Ok (Some (mk_payload p), rest).
Proof.
  intros Hok Hp Hn Hr. destruct p as [|ts b|fs b]; [congruence| |]; cbn [toks_payload mk_payload psz] in *.
  - destruct Hok as (H1 & H2 & H3).
    change ([TGroup DParen (commas (map toks_ty ts) ++ trail b)]) with (toks_ty (STuple ts b)).
    apply type_reads; [|exact Hn|left; exact Hr]. split; [intros; contradiction|]. apply ty_ok_list. exact H3.
  - destruct n as [|n]; [lia|]. cbn [app].
    change (type_body (next_type n) n (TGroup DBrace (toks_fields toks_named fs b) :: rest)
            = Ok (Some (mk_payload (PStruct fs b)), rest)). unfold type_body.
    do 4 (erewrite dbind_ok by (apply exact_no; exact I); cbv iota).
    erewrite dbind_ok by reflexivity. unfold unref_body.
    erewrite dbind_ok by (apply anon_reads; [exact Hok|lia]). reflexivity.
Qed.

(** What may follow a variant: nothing, or a comma and not another one. *)
Definition vrest (rest : list ttree) : Prop :=
  rest = [] \/ exists r, rest = pc :: r /\ match r with TPunct c :: _ => c <> 44 | _ => True end.
Definition drop_comma (rest : list ttree) : list ttree := tl rest.

Lemma variant_reads n v rest k acc : variant_ok v -> (vsz v <= n)%nat -> vrest rest ->
  exists k', (k <= k')%nat /\
  variants_loop (next_type n) n (S (S k)) acc (toks_variant v ++ rest)
  = variants_loop (next_type n) n k' (acc ++ [mk_variant v]) (drop_comma rest).
Proof.
  intros (Ha & Hp) Hn Hr. unfold vsz in Hn. destruct v as [attrs nm p val]; cbn [sv_attrs sv_name sv_payload sv_value] in *.
  unfold toks_variant, mk_variant. cbn [sv_attrs sv_name sv_payload sv_value].
  set (after := match val with Some t => [TPunct 61; t] | None => [] end ++ rest).
  assert (E : (toks_attrs attrs ++ TIdent nm :: toks_payload p ++ match val with Some t => [TPunct 61; t] | None => [] end) ++ rest
              = toks_attrs attrs ++ TIdent nm :: toks_payload p ++ after).
  { subst after. rewrite <- !app_assoc. cbn [app]. rewrite <- !app_assoc. reflexivity. }
  rewrite E. clear E.
  assert (Hstep : forall kk acc, variants_loop (next_type n) n (S kk) acc (toks_attrs attrs ++ TIdent nm :: toks_payload p ++ after)
     = (do ty <- next_type n;
        match ty with
        | None => do _c <- next_exact 44; variants_loop (next_type n) n kk (acc ++ [MkField (map attr_of (items attrs)) (Some nm) no_type])
        | Some t => do _s <- next_exact 59; do _c <- next_exact 44;
                    variants_loop (next_type n) n kk (acc ++ [MkField (map attr_of (items attrs)) (Some nm) t])
        end) (toks_payload p ++ after)).
  { intros kk acc0. cbn [variants_loop].
    assert (Hfirst : next_eof (toks_attrs attrs ++ TIdent nm :: toks_payload p ++ after) = Ok (false, toks_attrs attrs ++ TIdent nm :: toks_payload p ++ after) /\
                     next_exact 61 (toks_attrs attrs ++ TIdent nm :: toks_payload p ++ after) = Ok (false, toks_attrs attrs ++ TIdent nm :: toks_payload p ++ after)).
    { destruct attrs as [|[] attrs]; split; reflexivity. }
    destruct Hfirst as [F1 F2].
    erewrite dbind_ok by exact F1. cbv iota.
    erewrite dbind_ok by exact F2. cbv iota.
    erewrite dbind_ok by (apply attrs_reads; [exact Ha|lia|exact I]).
    erewrite dbind_ok by reflexivity. erewrite dbind_ok by reflexivity. reflexivity. }
  assert (Hval : forall kk acc t, val = Some t ->
     variants_loop (next_type n) n (S kk) acc after = variants_loop (next_type n) n kk acc (drop_comma rest)).
  { intros kk acc0 t ->. subst after. cbn [app variants_loop].
    erewrite dbind_ok by reflexivity. cbv iota.
    erewrite dbind_ok by apply exact_yes. cbv iota.
    erewrite dbind_ok by reflexivity. cbn [tl].
    destruct Hr as [-> | (r & -> & _)]; [reflexivity|].
    erewrite dbind_ok by apply exact_yes. reflexivity. }
  assert (Hfol : follows after).
  { subst after. destruct val; cbn [app]; [apply follows_p; discriminate|].
    destruct Hr as [-> | (r & -> & _)]; [apply follows_nil|apply follows_p; discriminate]. }
  assert (Hnone : val = None -> next_exact 59 after = Ok (false, after) /\
                  exists c, next_exact 44 after = Ok (c, drop_comma rest)).
  { intros ->. subst after. cbn [app]. destruct Hr as [-> | (r & -> & _)]; (split; [reflexivity|]); eexists; [reflexivity|].
    apply exact_yes. }
  assert (Hsome : forall t, val = Some t -> next_exact 59 after = Ok (false, after) /\ next_exact 44 after = Ok (false, after)).
  { intros t ->. split; reflexivity. }
  assert (Hgo : forall ty, next_type n (toks_payload p ++ after) = Ok (Some ty, after) ->
    exists k', (k <= k')%nat /\
      variants_loop (next_type n) n (S (S k)) acc (toks_attrs attrs ++ TIdent nm :: toks_payload p ++ after)
      = variants_loop (next_type n) n k' (acc ++ [MkField (map attr_of (items attrs)) (Some nm) ty]) (drop_comma rest)).
  { intros ty Hty. rewrite Hstep. erewrite dbind_ok by exact Hty. cbv iota.
    destruct val as [t|].
    - destruct (Hsome t eq_refl) as [S1 S2].
      erewrite dbind_ok by exact S1. erewrite dbind_ok by exact S2.
      exists k. split; [lia|]. eapply Hval. reflexivity.
    - destruct (Hnone eq_refl) as [S1 [c S2]].
      erewrite dbind_ok by exact S1. erewrite dbind_ok by exact S2.
      exists (S k). split; [lia|]. reflexivity. }
  destruct p as [|ts b|fs b].
  - cbn [psz mk_payload] in *. cbn [toks_payload app] in *.
    destruct val as [t|].
    + apply Hgo. apply type_none; [lia|]. subst after. cbn [app]. simpl. intuition discriminate.
    + destruct Hr as [-> | (r & -> & Hrr)].
      * apply Hgo. apply type_none; [lia|exact I].
      * subst after. rewrite Hstep. cbn [app drop_comma tl].
        destruct n as [|n]; [lia|].
        erewrite dbind_ok with (a := None) (l' := r).
        2:{ change (type_body (next_type n) n (pc :: r) = Ok (None, r)). unfold type_body.
            erewrite dbind_ok by apply exact_yes. reflexivity. }
        cbv iota. erewrite dbind_ok by (apply exact_no; exact Hrr).
        exists (S k). split; [lia|reflexivity].
  - apply Hgo. apply payload_reads; [exact Hp|discriminate|lia|exact Hfol].
  - apply Hgo. apply payload_reads; [exact Hp|discriminate|lia|exact Hfol].
Qed.

Lemma variant_first v : exists k r, toks_variant v = k :: r /\ match k with TPunct c => c <> 44 | _ => True end.
Proof.
  unfold toks_variant. destruct (sv_attrs v) as [|[] l]; eexists _, _; (split; [reflexivity|]); simpl; auto; discriminate.
Qed.

Lemma variants_reads n : forall vs b k acc,
  Forall variant_ok vs -> Forall (fun v => (vsz v <= n)%nat) vs -> (2 * length vs < k)%nat ->
  variants_loop (next_type n) n k acc (commas (map toks_variant vs) ++ match vs with [] => [] | _ => trail b end)
  = Ok (acc ++ map mk_variant vs, []).
Proof.
  induction vs as [|v vs IH]; intros b k acc Hok Hn Hk.
  - destruct k as [|k]; [inversion Hk|]. cbn. rewrite app_nil_r. reflexivity.
  - inversion Hok as [|? ? Hv Hok']; subst. inversion Hn as [|? ? Hvn Hn']; subst.
    destruct k as [|[|k]]; [inversion Hk|simpl in Hk; lia|].
    cbn [map]. rewrite commas_cons, <- app_assoc.
    destruct vs as [|v' vs].
    + cbn [map app]. destruct (variant_reads n v (trail b) k acc Hv Hvn) as (k' & Hk' & E).
      { destruct b; [right; exists []; auto|left; reflexivity]. }
      rewrite E. destruct k' as [|k']; [simpl in Hk; lia|]. destruct b; reflexivity.
    + cbn [map app].
      destruct (variant_reads n v (pc :: (commas (toks_variant v' :: map toks_variant vs) ++ trail b)) k acc Hv Hvn) as (k' & Hk' & E).
      { right. eexists. split; [reflexivity|]. rewrite commas_cons.
        destruct (variant_first v') as (k0 & r0 & -> & H0). cbn [app]. destruct k0; auto. }
      rewrite E. cbn [drop_comma tl].
      change (toks_variant v' :: map toks_variant vs) with (map toks_variant (v' :: vs)).
      rewrite (IH b k'); [|exact Hok'|exact Hn'|simpl in Hk |- *; lia].
      rewrite <- app_assoc. reflexivity.
Qed.

Definition vszs (l : list svariant) : nat := list_sum (map vsz l).
Lemma vszs_le n l : (vszs l <= n)%nat -> Forall (fun v => (vsz v <= n)%nat) l /\ (2 * length l <= n)%nat.
Proof.
  revert n. induction l as [|g l IH]; intros n H; [split; [constructor|simpl; lia]|].
  change (vszs (g :: l)) with (vsz g + vszs l)%nat in H.
  destruct (IH (n - vsz g)%nat) as [H1 H2]; [lia|].
  assert (2 <= vsz g)%nat by (unfold vsz; lia).
  split; [|cbn [length]; lia]. constructor; [lia|]. eapply Forall_impl; [|exact H1]. cbv beta. intros; lia.
Qed.

Lemma enum_reads n nm gs ws wb vs b rest :
  gens_ok gs ws -> Forall variant_ok vs ->
  (4 + gszs gs + wszs ws + vszs vs <= n)%nat ->
  next_enum (next_type n) n (TIdent nm :: toks_gens gs ++ toks_where ws wb ++
     TGroup DBrace (commas (map toks_variant vs) ++ match vs with [] => [] | _ => trail b end) :: rest)
  = Ok (MkEnum nm (map mk_variant vs) [] (mk_gens gs ws), rest).
Proof.
  intros Hg Hv Hn. unfold next_enum.
  destruct (vszs_le (n - 1) vs) as [H1 H2]; [lia|].
  erewrite dbind_ok by reflexivity. erewrite dbind_ok by reflexivity.
  erewrite dbind_ok by (apply gens_reads; [exact Hg|lia|right; reflexivity]).
  erewrite dbind_ok by reflexivity. cbv iota.
  assert (HV : variants_loop (next_type n) n n [] (commas (map toks_variant vs) ++ match vs with [] => [] | _ => trail b end)
               = Ok (map mk_variant vs, [])).
  { apply (variants_reads n) with (acc := []); [exact Hv| |lia].
    eapply Forall_impl; [|exact H1]. cbv beta. intros; lia. }
  erewrite dbind_ok.
  2:{ unfold dinside. rewrite HV. reflexivity. }
  reflexivity.
Qed.

(** ** A whole definition *)
Definition mk_def (d : sdef) : data :=
  match sd_body d with
  | KNamed fs _ =>
    DataStruct (MkStruct (Some (sd_name d)) true (map (mk_field true) fs)
                         (map attr_of (items (sd_attrs d))) (mk_gens (sd_gens d) (sd_where d)))
  | KTuple fs _ =>
    DataStruct (MkStruct (Some (sd_name d)) false (map (mk_field false) fs)
                         (map attr_of (items (sd_attrs d))) (mk_gens (sd_gens d) (sd_where d)))
  | KUnit =>
    DataStruct (MkStruct (Some (sd_name d)) false [] (map attr_of (items (sd_attrs d))) (mk_gens (sd_gens d) (sd_where d)))
  | KEnum vs _ => DataEnum (MkEnum (sd_name d) (map mk_variant vs) [] (mk_gens (sd_gens d) (sd_where d)))
  end.
Definition dsz (d : sdef) : nat :=
  4 + asz (sd_attrs d) + gszs (sd_gens d) + wszs (sd_where d) +
  match sd_body d with KNamed fs _ => fszs fs | KTuple fs _ => fszs fs | KUnit => 0 | KEnum vs _ => vszs vs end.

Lemma def_reads d n : def_ok d -> (dsz d <= n)%nat -> parse_data n (toks_def d) = Ok (mk_def d).
Proof.
  intros (Ha & Hvis & Hg1 & Hg2 & Hg3 & Hg4 & Hg5 & Hb) Hn. unfold dsz in Hn.
  assert (Hg : gens_ok (sd_gens d) (sd_where d)) by (repeat split; assumption). unfold parse_data, toks_def, mk_def.
  destruct d as [attrs vis nm gs ws wb body]; cbn [sd_attrs sd_vis sd_name sd_gens sd_where sd_wtrail sd_body] in *.
  match goal with |- match dbind _ ?f (_ ++ ?r) with _ => _ end = _ => set (k := f); set (rst := r) end.
  erewrite (dbind_ok _ k) with (a := map attr_of (items attrs)) (l' := rst).
  2:{ rewrite (attrs_reads attrs n []); [reflexivity|exact Ha|lia|].
      subst rst. destruct vis; [|exact I|exact I]. destruct body; exact I. }
  subst k. cbv beta.
  assert (Hkw : forall (B : Type) kw r (f : str -> dm B),
    rst = toks_vis vis ++ TIdent kw :: r -> kw <> chars "pub" ->
    (do i <- next_ident; do kw0 <- dexpect i;
     do kw <- (if str_eqb kw0 (chars "pub") then do j <- next_ident; dexpect j else dret kw0); f kw) rst = f kw r).
  { intros B kw r f -> Hne. destruct vis as [| |inn]; cbn [toks_vis app]; [| |exfalso; apply (Hvis inn); reflexivity].
    2:{ do 2 (erewrite dbind_ok by reflexivity). change (str_eqb (chars "pub") (chars "pub")) with true. cbv iota.
      erewrite dbind_ok by reflexivity. reflexivity. }
    do 2 (erewrite dbind_ok by reflexivity). rewrite str_eqb_neq by exact Hne. erewrite dbind_ok by reflexivity.
    reflexivity. }
  destruct body as [fs b|fs b| |vs b].
  - erewrite Hkw; [|reflexivity|discriminate].
    change (str_eqb (chars "struct") (chars "struct")) with true. cbv iota.
    erewrite dbind_ok.
    2:{ erewrite dbind_ok; [reflexivity|].
        apply (struct_reads n nm gs ws wb true fs b []); [exact Hg|discriminate|exact Hb|lia]. }
    reflexivity.
  - erewrite Hkw; [|reflexivity|discriminate].
    change (str_eqb (chars "struct") (chars "struct")) with true. cbv iota.
    erewrite dbind_ok.
    2:{ erewrite dbind_ok; [reflexivity|].
        destruct Hb as [Hb Hws].
        pose proof (struct_reads n nm gs ws wb false fs b [] Hg) as E. rewrite Hws in E |- *. apply E; [auto|exact Hb|].
        rewrite Hws in Hn. lia. }
    reflexivity.
  - erewrite Hkw; [|reflexivity|discriminate].
    change (str_eqb (chars "struct") (chars "struct")) with true. cbv iota.
    erewrite dbind_ok.
    2:{ erewrite dbind_ok; [reflexivity|].
        rewrite Hb in Hg. apply (unit_reads n nm gs []); [exact Hg|lia]. }
    rewrite Hb.
    reflexivity.
  - erewrite Hkw; [|reflexivity|discriminate].
    change (str_eqb (chars "enum") (chars "struct")) with false.
    change (str_eqb (chars "enum") (chars "enum")) with true. cbv iota.
    erewrite dbind_ok.
    2:{ erewrite dbind_ok; [reflexivity|].
        apply (enum_reads n nm gs ws wb vs b []); [exact Hg|exact Hb|lia]. }
    reflexivity.
Qed.

Lemma mk_field_seen named f : ty_ok (sf_type f) -> field_seen named f (mk_field named f).
Proof.
  intros Ht. unfold field_seen, mk_field. cbn [fl_attrs fl_name fl_type].
  split; [reflexivity|]. split; [reflexivity|]. split; [apply full_mk, Ht|].
  intros nm m args ->. reflexivity.
Qed.
Lemma mk_fields_seen named fs : Forall (sfield_ok named) fs -> Forall2 (field_seen named) fs (map (mk_field named) fs).
Proof.
  induction 1 as [|f fs Hf _ IH]; constructor; [|exact IH]. apply mk_field_seen. destruct named; apply Hf.
Qed.

Lemma map_full ts : Forall ty_ok ts -> map full (map mk ts) = map ty_text ts.
Proof. intros H. rewrite map_map. apply map_ext_in. intros t Ht. rewrite Forall_forall in H. apply full_mk; auto. Qed.

Lemma mk_variants_seen vs : Forall variant_ok vs -> Forall2 variant_seen vs (map mk_variant vs).
Proof.
  induction 1 as [|v vs Hv _ IH]; constructor; [|exact IH]. destruct Hv as [_ Hp].
  unfold variant_seen, mk_variant. cbn [fl_attrs fl_name fl_type]. do 2 (split; [reflexivity|]).
  destruct (sv_payload v) as [|ts b|fs b]; cbn [payload_seen mk_payload].
  - split; reflexivity.
  - destruct Hp as (H1 & -> & H3). cbn [mk t_ident]. eexists. split; [reflexivity|].
    destruct ts as [|t ts]; [congruence|]. rewrite app_nil_r. apply map_full, H3.
  - eexists. split; [reflexivity|]. apply (mk_fields_seen true), Hp.
Qed.

Lemma mk_gens_seen gs ws : Forall gen_ok gs -> Forall (where_ok gs) ws -> gens_seen gs ws (mk_gens gs ws).
Proof.
  intros Hgs Hws. exists (map (mk_genw ws) gs), (mk_self ws). split; [reflexivity|]. split.
  2:{ unfold mk_self. destruct (where_types self ws); repeat constructor. eexists. reflexivity. }
  assert (Hw : forall n, Forall ty_ok (where_types n ws)).
  { intros n. unfold where_types. rewrite Forall_forall in *. intros t Ht.
    apply in_concat in Ht as (l & Hl & Ht). apply in_map_iff in Hl as (w & <- & Hin).
    destruct w as [m bs|m bs]; [|contradiction]. destruct (str_eqb m n); [|contradiction].
    apply Hws in Hin. destruct Hin as (_ & Hbs & _). rewrite Forall_forall in Hbs. apply Hbs. exact Ht. }
  clear Hws. induction Hgs as [|g gs Hg _ IH]; constructor; [|exact IH].
  destruct g as [nm bs|nm bs d|nm t d]; cbn [gen_seen mk_genw].
  - split; reflexivity.
  - destruct Hg as (_ & _ & _ & Hb & Hd). split; [reflexivity|].
    split; [apply map_full, Forall_app; split; [|apply Hw]; eapply Forall_impl; [|exact Hb]; intros t [H _]; exact H|].
    destruct d; cbn [option_map]; [rewrite full_mk by exact Hd|]; reflexivity.
  - destruct Hg as (Ht & Hd). split; [reflexivity|]. split; [apply full_mk, Ht|reflexivity].
Qed.

Lemma mk_def_seen d : def_ok d -> def_seen d (mk_def d).
Proof.
  intros (Ha & _ & Hg & _ & Hw & _ & _ & Hb). unfold def_seen, mk_def.
  pose proof (mk_gens_seen _ _ Hg Hw) as HG.
  destruct (sd_body d) as [fs b|fs b| |vs b]; cbn [st_name st_named st_attrs st_fields st_generics en_name en_variants en_generics].
  - repeat split; auto. apply (mk_fields_seen true), Hb.
  - repeat split; auto. apply (mk_fields_seen false), Hb.
  - repeat split; auto.
  - repeat split; auto. apply mk_variants_seen, Hb.
Qed.
