(** From runs on token lists to runs on texts. *)
From Verif Require Import Base Utf8 Types BinModel Text TextModel TextSim TextToks TextLex TextRead TextFuel.
Local Open Scope N_scope.

(** [v.serialize_json()] / [v.serialize_ron()] ends and returns [out]. *)
Definition writes (F : flt) (c : cfg) (G : env) (fm : fmt) (t : ty) (v : val) (out : str) : Prop :=
  returns (fun n => serialize_text F c G fm n t v) (Ok out).
(** [T::deserialize_json(text)] / [T::deserialize_ron(text)] ends with outcome [r]. *)
Definition parses (F : flt) (c : cfg) (G : env) (fm : fmt) (t : ty) (text : str) (r : res terr val) : Prop :=
  returns (fun n => deserialize_text F c G fm n t text) r.
(** ... ends with an error. *)
Definition rejects (F : flt) (c : cfg) (G : env) (fm : fmt) (t : ty) (text : str) : Prop :=
  exists e, parses F c G fm t text (Err e).
(** ... never ends. *)
Definition hangs (F : flt) (c : cfg) (G : env) (fm : fmt) (t : ty) (text : str) : Prop :=
  diverges (fun n => deserialize_text F c G fm n t text).

Definition st0 (l : list ltok) (b : bool) : tst :=
  {| t_toks := l; t_bad := b; t_sb := match l with a :: _ => ltok_str a [] | [] => [] end;
     t_ib := match l with a :: _ => ltok_id a [] | [] => [] end |}.
Lemma st0_at l b : at_ (st0 l b) l b.
Proof. split; [reflexivity|]. split; [reflexivity|]. unfold loaded, st0. cbn. destruct l as [|[]]; cbn; auto. Qed.

Section Run.
  Variables (F : flt) (c : cfg) (G : env) (fm : fmt).
  Notation de := (de_text tok_lexer F c G fm).

  Lemma run_agree n t text l b : lexs F fm text = (l, b) -> go_on l b ->
    agree (deserialize_text F c G fm n t text) (snd (de n t (st0 l b))).
  Proof.
    intros Hl Hg. eapply agree_trans; [apply deserialize_tokens|]. rewrite Hl. unfold de_toks.
    destruct l as [|x r]; [|apply agree_refl]. destruct Hg as [Hg| ->]; [congruence|]. apply agree_refl.
  Qed.
  Lemma run_bad n t text : lexs F fm text = ([], true) -> exists e, deserialize_text F c G fm n t text = Err e.
  Proof.
    intro Hl. pose proof (deserialize_tokens F fm c G n t text) as H. rewrite Hl in H. cbn in H.
    destruct (deserialize_text F c G fm n t text); try contradiction. eauto.
  Qed.

  Lemma parses_ok t text l b v : lexs F fm text = (l, b) -> go_on l b ->
    (exists N, forall n, (N <= n)%nat -> snd (de n t (st0 l b)) = Ok v) ->
    parses F c G fm t text (Ok v).
  Proof.
    intros Hl Hg [N H]. exists N. intros n Hn. apply agree_ok. rewrite <- (H n Hn). apply run_agree; assumption.
  Qed.
  Lemma parses_err t text l b : lexs F fm text = (l, b) -> go_on l b ->
    (exists N e, snd (de N t (st0 l b)) = Err e) -> rejects F c G fm t text.
  Proof.
    intros Hl Hg (N & e & H). pose proof (run_agree N t text l b Hl Hg) as A. rewrite H in A.
    destruct (deserialize_text F c G fm N t text) as [|e'| |] eqn:E; try contradiction.
    exists e'. eapply de_text_returns; [exact E | discriminate].
  Qed.
  (** The reason of an error that is not a lexical one. *)
  Lemma parses_reason t text l b m : lexs F fm text = (l, b) -> go_on l b ->
    (exists N e, snd (de N t (st0 l b)) = Err e /\ e_reason e = m) -> m <> lexbad ->
    exists e, parses F c G fm t text (Err e) /\ e_reason e = m.
  Proof.
    intros Hl Hg (N & e & H & Hm) Hne. pose proof (run_agree N t text l b Hl Hg) as A. rewrite H in A.
    destruct (deserialize_text F c G fm N t text) as [|e'| |] eqn:E; try contradiction. simpl in A.
    exists e'. split; [eapply de_text_returns; [exact E | discriminate]|]. destruct A as [A|A]; congruence.
  Qed.
  Lemma parses_panic t text l b p : lexs F fm text = (l, b) -> go_on l b ->
    (exists N, snd (de N t (st0 l b)) = Panic p) -> parses F c G fm t text (Panic p).
  Proof.
    intros Hl Hg (N & H). pose proof (run_agree N t text l b Hl Hg) as A. rewrite H in A.
    destruct (deserialize_text F c G fm N t text) as [|e'|q|] eqn:E; try contradiction. simpl in A. subst q.
    eapply de_text_returns; [exact E | discriminate].
  Qed.
  Lemma parses_hang t text l b : lexs F fm text = (l, b) -> go_on l b ->
    (forall n, snd (de n t (st0 l b)) = NoFuel) -> hangs F c G fm t text.
  Proof.
    intros Hl Hg H n. pose proof (run_agree n t text l b Hl Hg) as A. rewrite H in A.
    destruct (deserialize_text F c G fm n t text); try contradiction. reflexivity.
  Qed.

  (** The other way round. *)
  Lemma parses_inv_ok t text l b v : lexs F fm text = (l, b) -> go_on l b ->
    parses F c G fm t text (Ok v) -> exists N u', forall n, (N <= n)%nat -> de n t (st0 l b) = (u', Ok v).
  Proof.
    intros Hl Hg [N H]. pose proof (run_agree N t text l b Hl Hg) as A. rewrite (H N (le_n N)) in A.
    destruct (de N t (st0 l b)) as [u' r] eqn:E. simpl in A. destruct r; try contradiction. subst a.
    exists N, u'. intros n Hn. rewrite <- E. apply de_mono; [exact Hn|]. rewrite E. discriminate.
  Qed.
  Lemma parses_lexs t text v : parses F c G fm t text (Ok v) -> exists l b, lexs F fm text = (l, b) /\ go_on l b.
  Proof.
    intros [N H]. destruct (lexs F fm text) as [l b] eqn:E. exists l, b. split; [reflexivity|].
    destruct l; [|left; discriminate]. destruct b; [|right; reflexivity].
    destruct (run_bad N t text E) as [e He]. rewrite (H N (le_n N)) in He. discriminate.
  Qed.

  (** Same value; both an error; same panic; both not over yet. *)
  Definition same_result (r1 r2 : res terr val) : Prop :=
    match r1, r2 with
    | Ok a, Ok b => a = b
    | Err _, Err _ => True
    | Panic p, Panic q => p = q
    | NoFuel, NoFuel => True
    | _, _ => False
    end.
  (** Texts with the same tokens have the same outcome. *)
  Lemma same_tokens n t a b : lexs F fm a = lexs F fm b ->
    same_result (deserialize_text F c G fm n t a) (deserialize_text F c G fm n t b).
  Proof.
    intro H. pose proof (deserialize_tokens F fm c G n t a) as Ha. pose proof (deserialize_tokens F fm c G n t b) as Hb. rewrite H in Ha.
    destruct (deserialize_text F c G fm n t a), (deserialize_text F c G fm n t b), (de_toks F fm c G n t (lexs F fm b)); simpl in *; try tauto; congruence.
  Qed.
End Run.
