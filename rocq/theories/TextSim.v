(** Readers only use the interface [lexer]: related states give related outcomes. *)
From Verif Require Import Base Utf8 Types BinModel Text TextModel.
Local Open Scope N_scope.

(** Advancing never panics and never runs out of fuel. *)
Definition next_ok {S} (L : lexer S) : Prop :=
  forall s, match snd (l_next L s) with Ok _ => True | Err _ => True | _ => False end.

(** [ok] passes to the parts of a type, and holds in a declaration. *)
Definition sub_ok (ok : ty -> Prop) (t : ty) : Prop :=
  match t with
  | TOpt t' | TSeq _ t' | TArr _ t' | TBox t' | TProxy _ t' => ok t'
  | TMap _ a b => ok a /\ ok b
  | TTup ts => Forall ok ts
  | _ => True
  end.
Definition body_ok (ok : ty -> Prop) (b : vbody) : Prop :=
  match b with
  | BUnit => True
  | BTuple ts => Forall ok ts
  | BStruct fs => Forall (fun f => ok (f_ty f)) fs
  end.
Definition decl_ok (ok : ty -> Prop) (d : decl) : Prop :=
  match d with
  | DStruct _ _ fs | DTuple _ fs => Forall (fun f => ok (f_ty f)) fs
  | DEnum vs => Forall (fun v => body_ok ok (v_body v)) vs
  | DProxy _ t => ok t
  end.

Section Sim.
  Context {S1 S2 : Type}.
  Variable L1 : lexer S1.
  Variable L2 : lexer S2.
  Variable R : S1 -> S2 -> Prop.
  Variable F : flt.
  Variable c : cfg.
  Variable G : env.
  Variable fm : fmt.

  (** Reason of the error and set of states the second machine is in once it could not advance. *)
  Variable lexbad : tmsg.
  Variable bad : S2 -> Prop.
  (** States of the first machine about which nothing more is claimed; there is no way back. *)
  Variable over : S1 -> Prop.
  (** How the errors are related, given the state in which the first machine stops. *)
  Variable E : S1 -> terr -> terr -> Prop.
  (** Types that are read. *)
  Variable ok : ty -> Prop.

  (** Same result, related states; errors are related, unless the second
      machine could not advance. *)
  Definition rel {A} (r1 : S1 * res terr A) (r2 : S2 * res terr A) : Prop :=
    over (fst r1) \/
    match r1, r2 with
    | (s1, Ok a), (s2, Ok b) => a = b /\ R s1 s2
    | (s1, Err e1), (s2, Err e2) => E s1 e1 e2 /\ R s1 s2 \/ e_reason e2 = lexbad /\ bad s2
    | (_, Panic p), (_, Panic q) => p = q
    | (_, NoFuel), (_, NoFuel) => True
    | _, _ => False
    end.
  Definition pre (s1 : S1) (s2 : S2) : Prop := over s1 \/ R s1 s2.
  (** Where nothing is claimed, nothing is claimed afterwards. *)
  Definition stays {A} (m1 : @pm S1 A) : Prop := forall s1, over s1 -> over (fst (m1 s1)).
  Definition prel {A} (m1 : @pm S1 A) (m2 : @pm S2 A) : Prop :=
    stays m1 /\ forall s1 s2, R s1 s2 -> rel (m1 s1) (m2 s2).

  Hypothesis R_tok : forall s1 s2, R s1 s2 -> l_tok L1 s1 = l_tok L2 s2.
  Hypothesis R_str : forall s1 s2, R s1 s2 -> l_str L1 s1 = l_str L2 s2.
  Hypothesis R_id : forall s1 s2, R s1 s2 -> l_id L1 s1 = l_id L2 s2.
  Hypothesis R_take : forall s1 s2, R s1 s2 -> R (l_take L1 s1) (l_take L2 s2).
  Hypothesis R_next : forall s1 s2, R s1 s2 -> rel (l_next L1 s1) (l_next L2 s2).
  Hypothesis over_take : forall s, over s -> over (l_take L1 s).
  Hypothesis over_next : stays (l_next L1).
  Hypothesis bad_eat : forall k w s, bad s ->
    match eat_comma L2 k w s with (s', Err e) => e_reason e = lexbad /\ bad s' | _ => False end.
  Hypothesis N1 : next_ok L1.
  Hypothesis N2 : next_ok L2.
  Hypothesis E_err : forall s1 s2 m, R s1 s2 -> E s1 (mk_err (l_pos L1 s1) m) (mk_err (l_pos L2 s2) m).
  Hypothesis ok_sub : forall t, ok t -> sub_ok ok t.
  Hypothesis ok_env : forall i d, nth_error G i = Some d -> decl_ok ok d.
  (** Tuples go on after an error. *)
  Hypothesis ok_tup : forall ts, ok (TTup ts) -> forall s e1 e2, E s e1 e2 -> E (fst (l_next L1 s)) e1 e2.

  Lemma prel_at {A} (m1 : @pm S1 A) m2 s1 s2 : prel m1 m2 -> R s1 s2 -> rel (m1 s1) (m2 s2).
  Proof. intros [_ H]. apply H. Qed.
  Lemma prel_next : prel (l_next L1) (l_next L2).
  Proof. split; assumption. Qed.
  Lemma prel_ret {A} (a : A) : prel (pret a) (pret a).
  Proof. split; [intros s O; exact O|]. intros s1 s2 H. right. simpl. auto. Qed.
  Lemma prel_fail_panic {A} p : prel (A:=A) (pfail (Panic p)) (pfail (Panic p)).
  Proof. split; [intros s O; exact O|]. intros s1 s2 H. right. simpl. auto. Qed.
  Lemma prel_fail_nofuel {A} : prel (A:=A) (pfail NoFuel) (pfail NoFuel).
  Proof. split; [intros s O; exact O|]. intros s1 s2 H. right. simpl. auto. Qed.
  Lemma prel_bind {A B} (m1 : @pm S1 A) m2 (f1 : A -> @pm S1 B) f2 :
    prel m1 m2 -> (forall a, prel (f1 a) (f2 a)) -> prel (pbind m1 f1) (pbind m2 f2).
  Proof.
    intros [Om Hm] Hf. split.
    - intros s1 O. unfold pbind. specialize (Om s1 O). destruct (m1 s1) as [t1 [a|e|p|]]; auto. apply (Hf a). exact Om.
    - intros s1 s2 H. unfold pbind. specialize (Hm s1 s2 H).
      destruct Hm as [O|Hm].
      { left. destruct (m1 s1) as [t1 [a|e|p|]]; auto. apply (Hf a). exact O. }
      destruct (m1 s1) as [t1 [a|e|p|]], (m2 s2) as [t2 [b|e'|q|]]; simpl in Hm; try contradiction; try (right; simpl; auto; fail).
      destruct Hm as [-> Hm]. apply prel_at; auto.
  Qed.
  Lemma prel_map {A B} (f : A -> B) (m1 : @pm S1 A) m2 : prel m1 m2 -> prel (pmap f m1) (pmap f m2).
  Proof. intro H. unfold pmap. apply prel_bind; [assumption|]. intro. apply prel_ret. Qed.
  (** Looking at the state before going on. *)
  Lemma prel_get {A X} (g1 : S1 -> X) (g2 : S2 -> X) (m1 : X -> @pm S1 A) m2 :
    (forall s1 s2, R s1 s2 -> g1 s1 = g2 s2) -> (forall x, prel (m1 x) (m2 x)) ->
    prel (fun s => m1 (g1 s) s) (fun s => m2 (g2 s) s).
  Proof.
    intros Hg Hm. split.
    - intros s O. apply (Hm (g1 s)). exact O.
    - intros s1 s2 H. rewrite <- (Hg _ _ H). apply prel_at; auto.
  Qed.
  Lemma prel_err {A} m : prel (A:=A) (perr L1 m) (perr L2 m).
  Proof. split; [intros s O; exact O|]. intros s1 s2 H. right. simpl. left. auto. Qed.
  Lemma prel_err_token {A} w : prel (A:=A) (err_token L1 w) (err_token L2 w).
  Proof.
    apply (prel_get (l_tok L1) (l_tok L2) (fun x => perr L1 (UnexpectedToken x w)) (fun x => perr L2 (UnexpectedToken x w)) R_tok).
    intro. apply prel_err.
  Qed.
  Lemma prel_ok {A} (a : A) : prel (fun s => (s, Ok a)) (fun s => (s, Ok a)).
  Proof. apply prel_ret. Qed.
  Lemma prel_panic {A} p : prel (A:=A) (fun s => (s, Panic p)) (fun s => (s, Panic p)).
  Proof. apply prel_fail_panic. Qed.

  Hint Resolve prel_ret prel_ok prel_panic prel_fail_panic prel_fail_nofuel prel_err prel_err_token prel_next : prel.

  Lemma prel_expect k w : prel (expect L1 k w) (expect L2 k w).
  Proof.
    apply (prel_get (l_tok L1) (l_tok L2) (fun x s => if tok_is x k then l_next L1 s else err_token L1 w s)
      (fun x s => if tok_is x k then l_next L2 s else err_token L2 w s) R_tok).
    intro x. destruct (tok_is x k); auto with prel.
  Qed.
  Lemma prel_colon : prel (p_colon L1) (p_colon L2).
  Proof. apply prel_expect. Qed.
  Lemma prel_next_colon : prel (p_next_colon L1) (p_next_colon L2).
  Proof. unfold p_next_colon. apply prel_bind; [apply prel_next|]. intro. apply prel_colon. Qed.
  Lemma prel_eat_comma k w : prel (eat_comma L1 k w) (eat_comma L2 k w).
  Proof.
    apply (prel_get (l_tok L1) (l_tok L2)
      (fun x s => if tok_is x KComma then l_next L1 s else if tok_is x k then (s, Ok tt) else err_token L1 w s)
      (fun x s => if tok_is x KComma then l_next L2 s else if tok_is x k then (s, Ok tt) else err_token L2 w s) R_tok).
    intro x. destruct (tok_is x KComma); [|destruct (tok_is x k)]; auto with prel.
  Qed.
  Lemma prel_while {A} n (c1 : S1 -> bool) (c2 : S2 -> bool) (b1 : A -> @pm S1 A) b2 :
    (forall s1 s2, R s1 s2 -> c1 s1 = c2 s2) -> (forall a, prel (b1 a) (b2 a)) ->
    forall a, prel (while_ n c1 b1 a) (while_ n c2 b2 a).
  Proof.
    intros Hc Hb. induction n as [|n IH]; intros a; simpl; [apply prel_fail_nofuel|].
    apply (prel_get c1 c2 (fun x s => if x then pbind (b1 a) (while_ n c1 b1) s else (s, Ok a))
      (fun x s => if x then pbind (b2 a) (while_ n c2 b2) s else (s, Ok a)) Hc).
    intros [|]; [|auto with prel]. apply (prel_bind (b1 a) (b2 a)); auto.
  Qed.
  Lemma prel_whole n d : prel (whole_loop L1 n d) (whole_loop L2 n d).
  Proof.
    revert d; induction n as [|n IH]; intros d; simpl; [apply prel_fail_nofuel|].
    apply (prel_get (l_tok L1) (l_tok L2)
      (fun x s => pbind (l_next L1) (fun _ => if match x with KBlockClose | KCurlyClose => match x with KBlockOpen | KCurlyOpen => d + 1 | _ => d end - 1 | _ => match x with KBlockOpen | KCurlyOpen => d + 1 | _ => d end end =? 0 then pret tt else whole_loop L1 n match x with KBlockClose | KCurlyClose => match x with KBlockOpen | KCurlyOpen => d + 1 | _ => d end - 1 | _ => match x with KBlockOpen | KCurlyOpen => d + 1 | _ => d end end) s)
      (fun x s => pbind (l_next L2) (fun _ => if match x with KBlockClose | KCurlyClose => match x with KBlockOpen | KCurlyOpen => d + 1 | _ => d end - 1 | _ => match x with KBlockOpen | KCurlyOpen => d + 1 | _ => d end end =? 0 then pret tt else whole_loop L2 n match x with KBlockClose | KCurlyClose => match x with KBlockOpen | KCurlyOpen => d + 1 | _ => d end - 1 | _ => match x with KBlockOpen | KCurlyOpen => d + 1 | _ => d end end) s) R_tok).
    intro x. apply (prel_bind (l_next L1) (l_next L2)); [apply prel_next|]. intros _.
    destruct (_ =? 0); [apply prel_ret | apply IH].
  Qed.
  Lemma prel_whole_field n : prel (whole_field L1 n) (whole_field L2 n).
  Proof.
    apply (prel_get (l_tok L1) (l_tok L2)
      (fun x s => match x with
         | KF64 _ | KI64 _ | KStr | KU64 _ | KBool _ | KNull => l_next L1 s
         | KBlockOpen | KCurlyOpen => whole_loop L1 n 0 s
         | _ => (s, Panic PUnimplemented) end)
      (fun x s => match x with
         | KF64 _ | KI64 _ | KStr | KU64 _ | KBool _ | KNull => l_next L2 s
         | KBlockOpen | KCurlyOpen => whole_loop L2 n 0 s
         | _ => (s, Panic PUnimplemented) end) R_tok).
    intro x. destruct x; auto with prel; apply prel_whole.
  Qed.
  Lemma prel_u64_range m : prel (u64_range L1 m) (u64_range L2 m).
  Proof.
    apply (prel_get (l_tok L1) (l_tok L2)
      (fun x s => match x with
         | KU64 v => if m <? v then perr L1 (OutOfRange (dec v ++ chars ">" ++ dec m)) s else (s, Ok v)
         | _ => err_token L1 (chars "unsigned integer") s end)
      (fun x s => match x with
         | KU64 v => if m <? v then perr L2 (OutOfRange (dec v ++ chars ">" ++ dec m)) s else (s, Ok v)
         | _ => err_token L2 (chars "unsigned integer") s end) R_tok).
    intro x. destruct x; try (apply (prel_err_token (chars "unsigned integer"))).
    destruct (m <? n); [apply (prel_err (OutOfRange _)) | auto with prel].
  Qed.
  Lemma prel_i64_range m M : prel (i64_range L1 m M) (i64_range L2 m M).
  Proof.
    apply (prel_get (l_tok L1) (l_tok L2)
      (fun x s => match x with
         | KI64 v => if (v <? m)%Z then perr L1 (OutOfRange (dec_z v ++ chars "<" ++ dec_z m)) s else (s, Ok v)
         | KU64 v => if (M <? u64_as_i64 v)%Z then perr L1 (OutOfRange (dec v ++ chars ">" ++ dec_z M)) s else (s, Ok (u64_as_i64 v))
         | _ => err_token L1 (chars "signed integer") s end)
      (fun x s => match x with
         | KI64 v => if (v <? m)%Z then perr L2 (OutOfRange (dec_z v ++ chars "<" ++ dec_z m)) s else (s, Ok v)
         | KU64 v => if (M <? u64_as_i64 v)%Z then perr L2 (OutOfRange (dec v ++ chars ">" ++ dec_z M)) s else (s, Ok (u64_as_i64 v))
         | _ => err_token L2 (chars "signed integer") s end) R_tok).
    intro x. destruct x; try (apply (prel_err_token (chars "signed integer"))).
    - destruct (M <? _)%Z; [apply (prel_err (OutOfRange _)) | auto with prel].
    - destruct (_ <? _)%Z; [apply (prel_err (OutOfRange _)) | auto with prel].
  Qed.
  Hint Resolve prel_expect prel_colon prel_next_colon prel_eat_comma prel_whole_field prel_u64_range prel_i64_range : prel.
  Ltac go := repeat first
    [ progress (intros; auto with prel)
    | apply prel_bind | apply prel_map
    | match goal with |- prel (match ?x with _ => _ end) _ => destruct x end
    | match goal with |- prel (if ?x then _ else _) _ => destruct x end ].

  Lemma prel_int k : prel (de_int L1 c k) (de_int L2 c k).
  Proof. unfold de_int. destruct k; simpl ik_signed; cbn iota; go. Qed.
  Lemma prel_f64 : prel (de_f64 L1 F) (de_f64 L2 F).
  Proof.
    unfold de_f64. apply prel_bind; [|go].
    apply (prel_get (l_tok L1) (l_tok L2)
      (fun x s => match x with KI64 v => (s, Ok (f64_of_z F v)) | KU64 v => (s, Ok (f64_of_z F (Z.of_N v))) | KF64 b => (s, Ok b) | _ => err_token L1 (chars "floating point") s end)
      (fun x s => match x with KI64 v => (s, Ok (f64_of_z F v)) | KU64 v => (s, Ok (f64_of_z F (Z.of_N v))) | KF64 b => (s, Ok b) | _ => err_token L2 (chars "floating point") s end) R_tok).
    intro x. destruct x; first [apply (prel_err_token (chars "floating point")) | auto with prel].
  Qed.
  Lemma prel_bool : prel (de_bool L1 fm) (de_bool L2 fm).
  Proof.
    unfold de_bool. apply prel_bind; [|go].
    apply (prel_get (l_tok L1) (l_tok L2)
      (fun x s => match x, fm with KBool b, _ => (s, Ok b) | KU64 n, Ron => (s, Ok (negb (n =? 0))) | _, _ => err_token L1 (chars "boolean") s end)
      (fun x s => match x, fm with KBool b, _ => (s, Ok b) | KU64 n, Ron => (s, Ok (negb (n =? 0))) | _, _ => err_token L2 (chars "boolean") s end) R_tok).
    intro x. destruct x, fm; first [apply (prel_err_token (chars "boolean")) | auto with prel].
  Qed.
  Lemma prel_str : prel (de_str L1) (de_str L2).
  Proof.
    unfold de_str. apply prel_bind; [|go].
    apply (prel_get (fun s => (l_tok L1 s, l_str L1 s)) (fun s => (l_tok L2 s, l_str L2 s))
      (fun x s => if tok_is (fst x) KStr then (l_take L1 s, Ok (snd x)) else err_token L1 (chars "string") s)
      (fun x s => if tok_is (fst x) KStr then (l_take L2 s, Ok (snd x)) else err_token L2 (chars "string") s)).
    - intros s1 s2 H. rewrite (R_tok _ _ H), (R_str _ _ H). reflexivity.
    - intro x. destruct (tok_is _ _); [|apply (prel_err_token (chars "string"))].
      split; [intros s O; apply over_take; exact O|]. intros s1 s2 H. right. simpl. auto.
  Qed.
  Lemma at_none_eq s1 s2 : R s1 s2 -> at_none L1 fm s1 = at_none L2 fm s2.
  Proof. intro H. unfold at_none. rewrite (R_tok _ _ H), (R_id _ _ H). reflexivity. Qed.
  Lemma prel_opt d1 d2 : prel d1 d2 -> prel (de_opt L1 fm d1) (de_opt L2 fm d2).
  Proof.
    intros Hd.
    apply (prel_get (at_none L1 fm) (at_none L2 fm)
      (fun x s => if x then pbind (l_next L1) (fun _ => pret VNone) s else pmap VSome d1 s)
      (fun x s => if x then pbind (l_next L2) (fun _ => pret VNone) s else pmap VSome d2 s) at_none_eq).
    intros [|].
    - apply (prel_bind (l_next L1) (l_next L2)); go.
    - apply (prel_map VSome d1 d2). assumption.
  Qed.
  Lemma tok_cond (f : tok -> bool) s1 s2 : R s1 s2 -> f (l_tok L1 s1) = f (l_tok L2 s2).
  Proof. intro H. rewrite (R_tok _ _ H). reflexivity. Qed.
  Lemma prel_dur n : prel (de_dur L1 n) (de_dur L2 n).
  Proof.
    unfold de_dur, de_u64. go.
    apply prel_while.
    - apply (tok_cond (fun x => negb (tok_is x KCurlyClose))).
    - intros [x y]. unfold dur_body, de_u64. apply prel_bind; [apply prel_str|]. intro key.
      apply prel_bind; [|go]. destruct (str_eqb _ _); [|destruct (str_eqb _ _)]; simpl; go.
  Qed.
  Lemma prel_time n : prel (de_time L1 c fm n) (de_time L2 c fm n).
  Proof.
    unfold de_time. apply prel_bind; [apply prel_opt, prel_dur|]. intros v. go.
  Qed.

  Lemma next_ok_eat {S} (L : lexer S) : next_ok L -> forall k w s,
    match snd (eat_comma L k w s) with Ok _ => True | Err _ => True | _ => False end.
  Proof.
    intros N k w s. unfold eat_comma. destruct (tok_is _ KComma); [apply N|].
    destruct (tok_is _ k); simpl; auto.
  Qed.

  Section H.
    Variable d1 : ty -> @pm S1 val.
    Variable d2 : ty -> @pm S2 val.
    Hypothesis Hd : forall t, ok t -> prel (d1 t) (d2 t).
    Variable n : nat.
    Hint Resolve Hd : prel.
    Let fok (f : field) : Prop := ok (f_ty f).

    Lemma prel_seq k t : ok t -> prel (de_seq L1 d1 n k t) (de_seq L2 d2 n k t).
    Proof.
      intro Ht. unfold de_seq. go. apply prel_while.
      - apply (tok_cond (fun x => negb (tok_is x KBlockClose))).
      - intros acc. go.
    Qed.
    Lemma prel_maps k tk tv : ok tk -> ok tv -> prel (de_map L1 d1 n k tk tv) (de_map L2 d2 n k tk tv).
    Proof.
      intros Hk Hv. unfold de_map. go. apply prel_while.
      - apply (tok_cond (fun x => negb (tok_is x KCurlyClose))).
      - intros acc. go.
    Qed.
    Lemma prel_item t : ok t -> prel (de_item L1 fm d1 t) (de_item L2 fm d2 t).
    Proof. intro Ht. unfold de_item, eat_tcomma. go. Qed.
    Lemma prel_comma_block t : (forall s e1 e2, E s e1 e2 -> E (fst (l_next L1 s)) e1 e2) -> ok t ->
      prel (comma_block L1 fm d1 t) (comma_block L2 fm d2 t).
    Proof.
      intros Keep Ht. destruct (Hd t Ht) as [Od Rd].
      destruct (prel_eat_comma (k_tclose fm) (w_tcomma fm)) as [Oe Re].
      fold (eat_tcomma L1 fm) in Oe, Re. fold (eat_tcomma L2 fm) in Re.
      split.
      - intros s O. unfold comma_block. specialize (Od s O). destruct (d1 t s) as [t1 [a|e|p|]]; auto;
          cbn [fst] in Od; specialize (Oe t1 Od); destruct (eat_tcomma L1 fm t1) as [u1 [x|e1|p|]]; exact Oe.
      - intros s1 s2 H. unfold comma_block. pose proof (Rd s1 s2 H) as Hr.
        assert (E1 := fun s => next_ok_eat L1 N1 (k_tclose fm) (w_tcomma fm) s).
        fold (eat_tcomma L1 fm) in E1.
        destruct Hr as [O|Hr].
        { left. destruct (d1 t s1) as [t1 [a|e|p|]]; auto; cbn [fst] in O; specialize (Oe t1 O);
            destruct (eat_tcomma L1 fm t1) as [u1 [x|e1|p|]]; exact Oe. }
        destruct (d1 t s1) as [t1 [a|e|p|]], (d2 t s2) as [t2 [b|e'|q|]]; simpl in Hr; try contradiction; try (right; simpl; auto; fail).
        + destruct Hr as [-> Hr]. pose proof (Re _ _ Hr) as He.
          destruct He as [O|He]; [left; destruct (eat_tcomma L1 fm t1) as [u1 [x|e|p|]]; exact O|]. right.
          destruct (eat_tcomma L1 fm t1) as [u1 [x|e|p|]], (eat_tcomma L2 fm t2) as [u2 [y|e'|q|]];
            simpl in He |- *; try contradiction; intuition.
        + destruct Hr as [[He Hr]|[He Hb]].
          * pose proof (Re _ _ Hr) as Hc.
            destruct Hc as [O|Hc]; [left; destruct (eat_tcomma L1 fm t1) as [u1 [x|e1|p|]]; exact O|].
            assert (K : E (fst (eat_tcomma L1 fm t1)) e e').
            { unfold eat_tcomma, eat_comma. destruct (tok_is _ KComma); [apply Keep; exact He|]. destruct (tok_is _ _); exact He. }
            right.
            destruct (eat_tcomma L1 fm t1) as [u1 [x|e1|p|]], (eat_tcomma L2 fm t2) as [u2 [y|e2|q|]];
              simpl in Hc, K |- *; try contradiction; auto. left. split; [exact K | apply Hc].
          * pose proof (bad_eat (k_tclose fm) (w_tcomma fm) _ Hb) as Hc. fold (eat_tcomma L2 fm) in Hc. right.
            specialize (E1 t1). destruct (eat_tcomma L2 fm t2) as [u2 [y|e2|q|]]; try contradiction.
            destruct (eat_tcomma L1 fm t1) as [u1 [x|e1|p|]]; simpl in *; try contradiction; auto.
    Qed.
    Lemma prel_list l1 l2 : Forall2 prel l1 l2 -> prel (de_list l1) (de_list l2).
    Proof. induction 1; simpl; go. Qed.
    Lemma prel_bracketed l1 l2 : Forall2 prel l1 l2 ->
      prel (de_bracketed L1 fm l1) (de_bracketed L2 fm l2).
    Proof. intro H. unfold de_bracketed. go. apply prel_list; assumption. Qed.
    Lemma Forall2_map_prel {A} (Q : A -> Prop) (f : A -> @pm S1 val) g l :
      (forall a, Q a -> prel (f a) (g a)) -> Forall Q l -> Forall2 prel (map f l) (map g l).
    Proof. intros H HQ. induction HQ; simpl; constructor; auto. Qed.
    Lemma prel_field f : fok f -> prel (de_field d1 f) (de_field d2 f).
    Proof. intro Hf. unfold fok in Hf. unfold de_field. destruct (_ && _); go. Qed.
    Lemma find_field_ok key fs : Forall fok fs -> forall i j f, find_field key fs i = Some (j, f) -> fok f.
    Proof.
      intro Hf. induction Hf as [|g fs Hg Hf IH]; intros i j f; cbn; [discriminate|]. destruct (_ && _); [intros [= _ <-]; exact Hg | apply IH].
    Qed.
    Lemma key_eq s1 s2 : R s1 s2 -> (key_of L1 fm s1, l_id L1 s1) = (key_of L2 fm s2, l_id L2 s2).
    Proof. intro H. unfold key_of. rewrite (R_str _ _ H), (R_id _ _ H). reflexivity. Qed.
    Lemma prel_named_body fs acc : Forall fok fs ->
      prel (named_body L1 fm d1 n fs acc) (named_body L2 fm d2 n fs acc).
    Proof.
      intro Hf. unfold named_body, eat_scomma. apply prel_bind; [|go].
      apply (prel_get (fun s => (key_of L1 fm s, l_id L1 s)) (fun s => (key_of L2 fm s, l_id L2 s))
        (fun x s => match find_field (fst x) fs 0 with
        | Some (i, f) => pbind (p_next_colon L1) (fun _ => pbind (de_field d1 f) (fun v => pret (set_nth i (Some v) acc))) s
        | None => match fs, fm with
          | [], _ => (s, Ok acc)
          | _, Json => pbind (p_next_colon L1) (fun _ => pbind (whole_field L1 n) (fun _ => pret acc)) s
          | _, Ron => perr L1 (UnexpectedKey (snd x)) s
          end end)
        (fun x s => match find_field (fst x) fs 0 with
        | Some (i, f) => pbind (p_next_colon L2) (fun _ => pbind (de_field d2 f) (fun v => pret (set_nth i (Some v) acc))) s
        | None => match fs, fm with
          | [], _ => (s, Ok acc)
          | _, Json => pbind (p_next_colon L2) (fun _ => pbind (whole_field L2 n) (fun _ => pret acc)) s
          | _, Ron => perr L2 (UnexpectedKey (snd x)) s
          end end) key_eq).
      intros [key id]. cbn [fst snd]. destruct (find_field key fs 0) as [[i f]|] eqn:Ef.
      - apply (prel_bind (p_next_colon L1) (p_next_colon L2)); [apply prel_next_colon|]. intros _.
        apply prel_bind; [apply prel_field; eapply find_field_ok; eauto|]. intro; apply prel_ret.
      - clear Ef. destruct fs as [|f fs]; [auto with prel|]. destruct fm.
        + apply (prel_bind (p_next_colon L1) (p_next_colon L2)); [apply prel_next_colon|]. intros _.
          apply prel_bind; [apply prel_whole_field|]. intro; apply prel_ret.
        + apply (prel_err (UnexpectedKey id)).
    Qed.
    Lemma prel_unwrap dflt fs l :
      prel (unwrap_fields L1 dflt fs l) (unwrap_fields L2 dflt fs l).
    Proof.
      revert l; induction fs as [|f fs IH]; intros [|o l]; simpl; go.
      unfold unwrap_field. destruct o; [destruct (f_skip f); go|]. destruct (f_default f); go.
    Qed.
    Lemma prel_named dflt fs : Forall fok fs -> prel (de_named L1 fm d1 n dflt fs) (de_named L2 fm d2 n dflt fs).
    Proof.
      intro Hf. unfold de_named. go; [|apply prel_unwrap]. apply prel_while.
      - apply (tok_cond (fun x => tok_is x (k_key fm))).
      - intros acc. apply prel_named_body. exact Hf.
    Qed.
    Lemma prel_body tag b : body_ok ok b -> prel (de_body L1 fm d1 n tag b) (de_body L2 fm d2 n tag b).
    Proof.
      destruct b; simpl; intro Hb.
      - apply prel_ret.
      - apply prel_map, prel_bracketed, (Forall2_map_prel ok); [apply prel_item | exact Hb].
      - apply prel_map, prel_named. exact Hb.
    Qed.
    Lemma find_variant_ok p vs : Forall (fun v => body_ok ok (v_body v)) vs -> forall i j v, find_variant p vs i = Some (j, v) -> body_ok ok (v_body v).
    Proof.
      intro Hf. induction Hf as [|g fs Hg Hf IH]; intros i j f; cbn; [discriminate|]. destruct (p g); [intros [= _ <-]; exact Hg | apply IH].
    Qed.
    Lemma prel_enum_json vs : Forall (fun v => body_ok ok (v_body v)) vs -> prel (de_enum_json L1 fm d1 n vs) (de_enum_json L2 fm d2 n vs).
    Proof.
      intro Hv.
      assert (P1 : prel (fun s1 => match find_variant (fun v => negb (is_unit v) && str_eqb (variant_key Json v) (l_str L1 s1)) vs 0 with
        | Some (i, v) => pbind (de_body L1 fm d1 n i (v_body v)) (fun r => pbind (expect L1 KCurlyClose (chars "}")) (fun _ => pret r)) s1
        | None => perr L1 (NoSuchEnum (l_str L1 s1)) s1 end)
        (fun s1 => match find_variant (fun v => negb (is_unit v) && str_eqb (variant_key Json v) (l_str L2 s1)) vs 0 with
        | Some (i, v) => pbind (de_body L2 fm d2 n i (v_body v)) (fun r => pbind (expect L2 KCurlyClose (chars "}")) (fun _ => pret r)) s1
        | None => perr L2 (NoSuchEnum (l_str L2 s1)) s1 end)).
      { apply (prel_get (l_str L1) (l_str L2)
          (fun x s1 => match find_variant (fun v => negb (is_unit v) && str_eqb (variant_key Json v) x) vs 0 with
            | Some (i, v) => pbind (de_body L1 fm d1 n i (v_body v)) (fun r => pbind (expect L1 KCurlyClose (chars "}")) (fun _ => pret r)) s1
            | None => perr L1 (NoSuchEnum x) s1 end)
          (fun x s1 => match find_variant (fun v => negb (is_unit v) && str_eqb (variant_key Json v) x) vs 0 with
            | Some (i, v) => pbind (de_body L2 fm d2 n i (v_body v)) (fun r => pbind (expect L2 KCurlyClose (chars "}")) (fun _ => pret r)) s1
            | None => perr L2 (NoSuchEnum x) s1 end) R_str).
        intro x. destruct (find_variant _ vs 0) as [[i v]|] eqn:Ef; [|apply (prel_err (NoSuchEnum x))].
        apply (prel_bind (de_body L1 fm d1 n i (v_body v)) (de_body L2 fm d2 n i (v_body v))); [apply prel_body; eapply find_variant_ok; eauto | go]. }
      assert (P2 : prel (fun s1 => match find_variant (fun v => is_unit v && str_eqb (variant_key Json v) (l_str L1 s1)) vs 0 with
        | Some (i, _) => (s1, Ok (VEnum i []))
        | None => perr L1 (NoSuchEnum (l_str L1 s1)) s1 end)
        (fun s1 => match find_variant (fun v => is_unit v && str_eqb (variant_key Json v) (l_str L2 s1)) vs 0 with
        | Some (i, _) => (s1, Ok (VEnum i []))
        | None => perr L2 (NoSuchEnum (l_str L2 s1)) s1 end)).
      { apply (prel_get (l_str L1) (l_str L2)
          (fun x s1 => match find_variant (fun v => is_unit v && str_eqb (variant_key Json v) x) vs 0 with
            | Some (i, _) => (s1, Ok (VEnum i [])) | None => perr L1 (NoSuchEnum x) s1 end)
          (fun x s1 => match find_variant (fun v => is_unit v && str_eqb (variant_key Json v) x) vs 0 with
            | Some (i, _) => (s1, Ok (VEnum i [])) | None => perr L2 (NoSuchEnum x) s1 end) R_str).
        intro x. destruct (find_variant _ vs 0) as [[i v]|]; [auto with prel|apply (prel_err (NoSuchEnum x))]. }
      apply (prel_get (l_tok L1) (l_tok L2)
        (fun x s => if tok_is x KCurlyOpen && existsb (fun v => negb (is_unit v)) vs then
          pbind (expect L1 KCurlyOpen (chars "{")) (fun _ => pbind (expect L1 KStr (chars "String")) (fun _ =>
          pbind (p_colon L1) (fun _ s1 => match find_variant (fun v => negb (is_unit v) && str_eqb (variant_key Json v) (l_str L1 s1)) vs 0 with
          | Some (i, v) => pbind (de_body L1 fm d1 n i (v_body v)) (fun r => pbind (expect L1 KCurlyClose (chars "}")) (fun _ => pret r)) s1
          | None => perr L1 (NoSuchEnum (l_str L1 s1)) s1 end))) s
          else if tok_is x KStr && existsb is_unit vs then
          pbind (expect L1 KStr (chars "String")) (fun _ s1 => match find_variant (fun v => is_unit v && str_eqb (variant_key Json v) (l_str L1 s1)) vs 0 with
          | Some (i, _) => (s1, Ok (VEnum i []))
          | None => perr L1 (NoSuchEnum (l_str L1 s1)) s1 end) s
          else err_token L1 (chars "String or {") s)
        (fun x s => if tok_is x KCurlyOpen && existsb (fun v => negb (is_unit v)) vs then
          pbind (expect L2 KCurlyOpen (chars "{")) (fun _ => pbind (expect L2 KStr (chars "String")) (fun _ =>
          pbind (p_colon L2) (fun _ s1 => match find_variant (fun v => negb (is_unit v) && str_eqb (variant_key Json v) (l_str L2 s1)) vs 0 with
          | Some (i, v) => pbind (de_body L2 fm d2 n i (v_body v)) (fun r => pbind (expect L2 KCurlyClose (chars "}")) (fun _ => pret r)) s1
          | None => perr L2 (NoSuchEnum (l_str L2 s1)) s1 end))) s
          else if tok_is x KStr && existsb is_unit vs then
          pbind (expect L2 KStr (chars "String")) (fun _ s1 => match find_variant (fun v => is_unit v && str_eqb (variant_key Json v) (l_str L2 s1)) vs 0 with
          | Some (i, _) => (s1, Ok (VEnum i []))
          | None => perr L2 (NoSuchEnum (l_str L2 s1)) s1 end) s
          else err_token L2 (chars "String or {") s) R_tok).
      intro x. destruct (tok_is x KCurlyOpen && existsb _ vs).
      - apply (prel_bind (expect L1 KCurlyOpen (chars "{")) (expect L2 KCurlyOpen (chars "{"))); [apply prel_expect|]. intros _.
        apply prel_bind; [apply prel_expect|]. intros _.
        apply prel_bind; [apply prel_colon|]. intros _. exact P1.
      - destruct (tok_is x KStr && existsb is_unit vs); [|apply (prel_err_token (chars "String or {"))].
        apply (prel_bind (expect L1 KStr (chars "String")) (expect L2 KStr (chars "String"))); [apply prel_expect|]. intros _. exact P2.
    Qed.
    Lemma prel_enum_ron vs : Forall (fun v => body_ok ok (v_body v)) vs -> prel (de_enum_ron L1 fm d1 n vs) (de_enum_ron L2 fm d2 n vs).
    Proof.
      intro Hv. unfold de_enum_ron. apply prel_bind; [apply prel_expect|]. intros _.
      apply (prel_get (l_id L1) (l_id L2)
        (fun x s1 => match find_variant (fun v => str_eqb (variant_key Ron v) x) vs 0 with
          | Some (i, v) => de_body L1 fm d1 n i (v_body v) s1 | None => perr L1 (NoSuchEnum x) s1 end)
        (fun x s1 => match find_variant (fun v => str_eqb (variant_key Ron v) x) vs 0 with
          | Some (i, v) => de_body L2 fm d2 n i (v_body v) s1 | None => perr L2 (NoSuchEnum x) s1 end) R_id).
      intro x. destruct (find_variant _ vs 0) as [[i v]|] eqn:Ef; [|apply (prel_err (NoSuchEnum x))].
      apply (prel_body i (v_body v)). eapply find_variant_ok; eauto.
    Qed.
    Lemma prel_unnamed tr fs : Forall fok fs -> prel (de_unnamed L1 fm d1 tr fs) (de_unnamed L2 fm d2 tr fs).
    Proof.
      intro Hf.
      assert (HB : prel (de_bracketed L1 fm (map (fun f => de_item L1 fm d1 (f_ty f)) fs))
                        (de_bracketed L2 fm (map (fun f => de_item L2 fm d2 (f_ty f)) fs))).
      { apply prel_bracketed, (Forall2_map_prel fok); [|exact Hf]. intros a Ha; apply prel_item; exact Ha. }
      assert (H1 : forall f, fok f -> prel (de_bracketed L1 fm [d1 (f_ty f)]) (de_bracketed L2 fm [d2 (f_ty f)])).
      { intros f H. apply prel_bracketed. constructor; [apply (Hd _ H) | constructor]. }
      unfold de_unnamed. destruct fm; [|exact HB]. destruct fs as [|f [|g fs]]; [| |exact HB].
      - go.
      - pose proof (Forall_inv Hf) as Hf1. destruct tr; [apply prel_map; apply Hd; exact Hf1|]. apply H1. exact Hf1.
    Qed.
  End H.

  Theorem prel_de n : forall t, ok t -> prel (de_text L1 F c G fm n t) (de_text L2 F c G fm n t).
  Proof.
    induction n as [|n IH]; intros t Ht; [apply prel_fail_nofuel|]. pose proof (ok_sub t Ht) as Hs.
    destruct t; cbn [de_text]; cbn in Hs.
    - apply prel_int.
    - apply prel_map, prel_f64.
    - apply prel_map, prel_f64.
    - apply prel_bool.
    - apply prel_map, prel_str.
    - destruct fm; go.
    - apply prel_opt. auto.
    - apply prel_map, prel_seq; auto.
    - destruct Hs. apply prel_map, prel_maps; auto.
    - apply prel_map, prel_bracketed.
      assert (H : prel (de_item L1 fm (de_text L1 F c G fm n) t) (de_item L2 fm (de_text L2 F c G fm n) t))
        by (apply prel_item; auto).
      clear Ht. induction n0; simpl; constructor; auto.
    - destruct (tuple_arity _); [|apply prel_fail_panic].
      apply prel_map, prel_bracketed, (Forall2_map_prel ok); [|exact Hs]. intros a Ha. apply prel_comma_block; [exact IH | eapply ok_tup; exact Ht | exact Ha].
    - auto.
    - apply prel_dur.
    - apply prel_time.
    - destruct fm; [apply prel_map; auto | apply prel_fail_panic].
    - pose proof (ok_env n0) as He. destruct (nth_error G n0) as [d|]; [|apply prel_fail_panic].
      specialize (He d eq_refl). destruct d as [dflt nl fs|tr fs|vs|p t]; cbn in He.
      + apply prel_map, prel_named; auto.
      + destruct (existsb f_hasproxy fs); [apply prel_fail_panic|].
        assert (Hu : prel (pmap VSeq (de_unnamed L1 fm (de_text L1 F c G fm n) tr fs))
                          (pmap VSeq (de_unnamed L2 fm (de_text L2 F c G fm n) tr fs)))
          by (apply prel_map, prel_unnamed; auto).
        destruct fm; [exact Hu|]. destruct fs; [apply prel_fail_panic | exact Hu].
      + pose proof (prel_enum_json _ _ IH n vs He) as HJ. pose proof (prel_enum_ron _ _ IH n vs He) as HR.
        destruct fm; assumption.
      + destruct fm; [apply prel_map; auto | apply prel_fail_panic].
  Qed.
End Sim.
