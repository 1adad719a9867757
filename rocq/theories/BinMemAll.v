(** The two bounds, by induction on the model of the reader. *)
From Verif Require Import Base Utf8 Types TyAll BinModel BinRead BinLocal BinMore SpecMem BinMem.
Local Open Scope N_scope.

Lemma tot_cells l : tot cells l = cells_of l.
Proof. reflexivity. Qed.
Lemma forall2_diag {A} (P : A -> Z -> Prop) (e : Z) (l : list A) : Forall (fun x => P x e) l -> Forall2 P l (map (fun _ => e) l).
Proof. induction 1; constructor; assumption. Qed.
Lemma sumz_zero {A} (l : list A) : sumz (map (fun _ => 0%Z) l) = 0%Z.
Proof. induction l as [|x l IH]; [reflexivity|]. cbn [map sumz fold_right]. fold (sumz (map (fun _ => 0%Z) l)). lia. Qed.

Section Contents.
  Variables (c : cfg) (G : env).
  Hypothesis Hc : cfg_ok c.
  Hypothesis HG : env_all no_proxy G.
  Hypothesis HD : Forall no_proxy_decl G.
  Hypothesis HS : Forall skipped_empty G.
  Let cost {A} := @Costs c 1%Z A.
  Lemma contents_tys de ts : (forall t, ty_all no_proxy t -> cost (fun v => Z.of_N (contents v)) (fun d => de d t)) -> Forall (ty_all no_proxy) ts ->
    cost (fun l => Z.of_N (tot contents l)) (fun d => de_tys (de d) ts).
  Proof.
    intros Hde H. assert (K0 : (0 <= 1)%Z) by lia. eapply cost_weaken; [apply (cost_tys c 1%Z de contents ts (map (fun _ => 0%Z) ts))|].
    - apply forall2_diag. revert H. apply Forall_impl. intros t Ht. eapply cost_weaken; [apply Hde; exact Ht|]. intro v. cbv beta. lia.
    - intro l. cbv beta. rewrite sumz_zero. lia.
  Qed.
  Lemma contents_fields de hs fs : (forall t, ty_all no_proxy t -> cost (fun v => Z.of_N (contents v)) (fun d => de d t)) -> Forall (field_all no_proxy) fs ->
    Forall (fun f => f_skip f = true -> contents (f_tydefault f) = 0) fs ->
    cost (fun l => Z.of_N (tot contents l)) (fun d => de_fields (de d) hs fs).
  Proof.
    intros Hde H H2. assert (K0 : (0 <= 1)%Z) by lia. eapply cost_weaken; [apply (cost_fields c 1%Z de contents hs fs (map (fun _ => 0%Z) fs))|].
    - apply forall2_diag. rewrite Forall_forall in *. intros f Hf. destruct (hs && f_skip f) eqn:E.
      + apply andb_prop in E as [_ E]. rewrite (H2 f Hf E). lia.
      + eapply cost_weaken; [apply Hde; exact (H f Hf)|]. intro v. cbv beta. lia.
    - intro l. cbv beta. rewrite sumz_zero. lia.
  Qed.
  Theorem contents_all n : forall t, ty_all no_proxy t -> cost (fun v => Z.of_N (contents v)) (fun d => de_bin c G d n t).
  Proof.
    induction n as [|n IH]; intros t Ht; [intros d o o' a _ _ H; discriminate|]. assert (K0 : (0 <= 1)%Z) by lia.
    assert (Fx : forall (g : list N -> val) w, 1 <= w <= 16 -> (forall b, contents (g b) <= 1) -> cost (fun v => Z.of_N (contents v)) (fun d => bmap g (rd_fixed c d w))).
    { intros g w Hw Hg. apply cost_map. eapply cost_weaken; [apply cost_fixed; [exact Hc | lia]|]. intro b. specialize (Hg b). cbv beta. lia. }
    destruct t as [k| | | | | |t'|k t'|k tk tv|m t'|ts|t'| | |p t'|i]; cbn [de_bin]; cbn [ty_all] in Ht.
    - destruct k; try (apply Fx; [cbn; lia | intro; cbn; lia]).
      apply cost_map. eapply cost_weaken; [apply cost_usize; assumption|]. intro b. cbn. lia.
    - apply Fx; [lia | intro; cbn; lia].
    - apply Fx; [lia | intro; cbn; lia].
    - apply Fx; [lia | intro; cbn; lia].
    - apply cost_map. eapply cost_weaken; [apply cost_str; assumption|]. intro s. cbn [contents]. lia.
    - apply cost_ret; cbn. lia.
    - apply (cost_bind c 1%Z (fun _ => 1)%Z _ (fun d => rd_fixed c d 1) (fun d b => _)); [eapply cost_weaken; [apply cost_fixed; [assumption..|lia]|]; cbv beta; lia|].
      intro b. cbv beta. destruct (of_le b =? 1); [|apply cost_ret; cbn; lia].
      apply cost_map. eapply cost_weaken; [apply IH; apply Ht|]. intro v. cbn [contents]. lia.
    - apply (cost_bind c 1%Z (fun _ => 8)%Z _ (fun d => rd_usize c d) (fun d len => _)); [eapply cost_weaken; [apply cost_usize; assumption|]; cbv beta; lia|].
      intro len. apply (cost_bind c 1%Z (fun _ => 0)%Z _ (fun _ => match k with SVec | SHSet => with_capacity c t' len | _ => bret tt end) (fun d _ => bmap VSeq (de_items (de_bin c G d n) k t' len))).
      + destruct k; first [apply cost_capacity | apply cost_ret; lia].
      + intros _. apply cost_map. eapply cost_weaken; [apply (cost_items c 1%Z (fun d => de_bin c G d n) contents); apply IH; apply Ht|].
        intro l. cbn [contents]. fold (tot contents l). lia.
    - apply (cost_bind c 1%Z (fun _ => 8)%Z _ (fun d => rd_usize c d) (fun d len => _)); [eapply cost_weaken; [apply cost_usize; assumption|]; cbv beta; lia|].
      intro len. apply (cost_bind c 1%Z (fun _ => 0)%Z _ (fun _ => match k with MHash => with_capacity c tk len | MBTree => bret tt end) (fun d _ => bmap VMap (de_entries (de_bin c G d n) k tk tv len))).
      + destruct k; first [apply cost_capacity | apply cost_ret; lia].
      + intros _. apply cost_map. eapply cost_weaken.
        * apply (cost_entries c 1%Z (fun d => de_bin c G d n) contents k tk tv len 0 0); [| |lia].
          -- eapply cost_weaken; [apply IH; apply Ht|]. intro v. cbv beta. lia.
          -- eapply cost_weaken; [apply IH; apply Ht|]. intro v. cbv beta. lia.
        * intro l. cbn [contents]. fold (tot2 contents l). lia.
    - apply cost_map. eapply cost_weaken; [apply (cost_rep c 1%Z (fun d => de_bin c G d n) contents m t' 0)|].
      + eapply cost_weaken; [apply IH; apply Ht|]. intro v. cbv beta. lia.
      + intro l. cbn [contents]. fold (tot contents l). lia.
    - destruct Ht as [_ Ht]. apply ty_all_list in Ht. apply cost_map. eapply cost_weaken; [apply (contents_tys (fun d => de_bin c G d n) ts IH Ht)|].
      intro l. cbn [contents]. fold (tot contents l). lia.
    - apply IH. apply Ht.
    - apply cost_dur; [assumption..|]. intros. cbn. lia.
    - apply cost_time; [assumption..|]. intros. cbn. lia.
    - destruct Ht as [[] _].
    - destruct (nth_error G i) as [d|] eqn:E; [|apply cost_fail; discriminate]. pose proof (env_all_nth _ _ _ _ HG E) as Hd. apply nth_error_In in E.
      rewrite Forall_forall in HD, HS. specialize (HD _ E). specialize (HS _ E). destruct d as [dflt nul fs|tr fs|vs|p t']; [| | |destruct HD].
      + apply cost_map. eapply cost_weaken; [apply (contents_fields (fun d => de_bin c G d n) true fs IH Hd HS)|]. intro l. cbn [contents]. fold (tot contents l). lia.
      + destruct (existsb f_skip fs); [apply cost_fail; discriminate|].
        apply cost_map. eapply cost_weaken; [apply (contents_fields (fun d => de_bin c G d n) true fs IH Hd HS)|]. intro l. cbn [contents]. fold (tot contents l). lia.
      + apply (cost_bind c 1%Z (fun _ => 2)%Z _ (fun d => rd_fixed c d 2) (fun d b => let tag := of_le b in _)); [eapply cost_weaken; [apply cost_fixed; [assumption..|lia]|]; cbv beta; lia|].
        intro b. cbv beta zeta. destruct (nth_error vs (N.to_nat (of_le b))) as [vr|] eqn:Ev; [|apply cost_fail; discriminate]. apply nth_error_In in Ev.
        cbn [decl_all] in Hd. rewrite Forall_forall in Hd. specialize (Hd _ Ev).
        destruct (v_body vr) as [|ts|fs] eqn:Eb; [apply cost_ret; cbn; lia| |].
        * apply cost_map. eapply cost_weaken; [apply (contents_tys (fun d => de_bin c G d n) ts IH Hd)|]. intro l. cbn [contents]. fold (tot contents l). lia.
        * apply cost_map. eapply cost_weaken; [apply (contents_fields (fun d => de_bin c G d n) false fs IH Hd)|].
          -- unfold skipped_empty in HS. cbn [fields_of] in HS. rewrite Forall_forall in HS |- *. intros f Hf. apply HS. apply in_flat_map. exists vr. rewrite Eb. auto.
          -- intro l. cbn [contents]. fold (tot contents l). lia.
  Qed.
End Contents.

(** ** Cells *)
Definition sumn (l : list N) : N := fold_right N.add 0 l.
(** The cells that are not paid for by bytes of their own: a type up to its
    collections, options and enums. *)
Inductive shell (G : env) : ty -> N -> Prop :=
| sh_one t : match t with TInt _ | TF32 | TF64 | TBool | TStr | TUnit | TOpt _ | TSeq _ _ | TMap _ _ _ | TDur | TTime => True | _ => False end -> shell G t 1
| sh_arr m t n : shell G t n -> shell G (TArr m t) (1 + N.of_nat m * n)
| sh_tup ts ns : Forall2 (shell G) ts ns -> shell G (TTup ts) (1 + sumn ns)
| sh_box t n : shell G t n -> shell G (TBox t) n
| sh_struct i dflt nul fs ns : nth_error G i = Some (DStruct dflt nul fs) ->
    Forall2 (fun f n => f_skip f = true /\ n = cells (f_tydefault f) \/ f_skip f = false /\ shell G (f_ty f) n) fs ns -> shell G (TNamed i) (1 + sumn ns)
| sh_tuple i tr fs ns : nth_error G i = Some (DTuple tr fs) ->
    Forall2 (fun f n => f_skip f = true /\ n = cells (f_tydefault f) \/ f_skip f = false /\ shell G (f_ty f) n) fs ns -> shell G (TNamed i) (1 + sumn ns)
| sh_enum i vs : nth_error G i = Some (DEnum vs) -> shell G (TNamed i) 1.

Section Exists.
  Variable G : env.
  Lemma ex_list {A} (P : A -> N -> Prop) (l : list A) : Forall (fun x => exists n, P x n) l -> exists ns, Forall2 P l ns.
  Proof. induction 1 as [|x l [n H] Hs [ns IH]]; [exists []; constructor | exists (n :: ns); constructor; assumption]. Qed.
  Fixpoint shell_ex t (H : finite G t) {struct H} : exists n, shell G t n.
  Proof.
    assert (Fs : forall fs, Forall (fun f => f_skip f = true \/ finite G (f_ty f)) fs ->
                  exists ns, Forall2 (fun f n => f_skip f = true /\ n = cells (f_tydefault f) \/ f_skip f = false /\ shell G (f_ty f) n) fs ns).
    { intros fs Hs. apply ex_list. induction Hs as [|f fs [Hf|Hf] Hs IH]; constructor; try exact IH.
      - eauto.
      - destruct (f_skip f); [eauto|]. destruct (shell_ex _ Hf) as [n Hn]. eauto. }
    destruct H as [k| | | | | |t|k t|k a b|m t H|ts Hs|t H| | |i dflt nul fs E Hs|i tr fs E Hs|i vs E];
      try (exists 1; constructor; exact I).
    - destruct (shell_ex _ H) as [n Hn]. exists (1 + N.of_nat m * n). constructor. exact Hn.
    - assert (E : exists ns, Forall2 (shell G) ts ns).
      { apply ex_list. induction Hs as [|t ts Ht Hs IH]; constructor; [exact (shell_ex _ Ht) | exact IH]. }
      destruct E as [ns E]. exists (1 + sumn ns). constructor. exact E.
    - destruct (shell_ex _ H) as [n Hn]. exists n. constructor. exact Hn.
    - destruct (Fs _ Hs) as [ns Hn]. exists (1 + sumn ns). eapply sh_struct; eassumption.
    - destruct (Fs _ Hs) as [ns Hn]. exists (1 + sumn ns). eapply sh_tuple; eassumption.
    - exists 1. eapply sh_enum; eassumption.
  Defined.
End Exists.

Section Cells.
  Variables (c : cfg) (G : env) (S : N).
  Hypothesis Hc : cfg_ok c.
  Hypothesis HS : 1 <= S.
  (** What is asked of every type that is written. *)
  Definition fine (t : ty) : Prop := no_proxy t /\ solid_elements G t /\ exists n, shell G t n /\ n <= S.
  Definition fine_body (b : vbody) : Prop :=
    match b with
    | BUnit => True
    | BTuple ts => exists ns, Forall2 (shell G) ts ns /\ sumn ns <= S
    | BStruct fs => exists ns, Forall2 (fun f n => shell G (f_ty f) n) fs ns /\ sumn ns <= S
    end.
  Hypothesis HG : env_all fine G.
  Hypothesis HD : Forall no_proxy_decl G.
  Hypothesis HB : forall i vs, nth_error G i = Some (DEnum vs) -> Forall (fun v => fine_body (v_body v)) vs.
  Notation K := (4 * Z.of_N S)%Z.
  Notation R := (2 * Z.of_N S)%Z.
  Let cost {A} := @Costs c K A.
  (** The claim about one type. *)
  Definition claim (de : list N -> ty -> bm val) (t : ty) : Prop :=
    forall n, shell G t n -> cost (fun v => Z.of_N (cells v) - Z.of_N n)%Z (fun d => de d t) /\
      (solid G t -> cost (fun v => Z.of_N (cells v) - Z.of_N n + R)%Z (fun d => de d t)).

  Lemma sum_split (ns : list N) : sumz (map Z.of_N ns) = Z.of_N (sumn ns).
  Proof. induction ns as [|n ns IH]; [reflexivity|]. cbn [map sumz fold_right sumn]. fold (sumz (map Z.of_N ns)) (sumn ns). rewrite IH. lia. Qed.
  Lemma claim_tys de ts ns : Forall (claim de) ts -> Forall2 (shell G) ts ns ->
    cost (fun l => Z.of_N (cells_of l) - Z.of_N (sumn ns))%Z (fun d => de_tys (de d) ts) /\
    (forall t, In t ts -> solid G t -> cost (fun l => Z.of_N (cells_of l) - Z.of_N (sumn ns) + R)%Z (fun d => de_tys (de d) ts)).
  Proof.
    intros Hcl Hsh. split.
    - eapply cost_weaken; [apply (cost_tys c K de cells ts (map Z.of_N ns))|].
      + revert Hcl. induction Hsh as [|t n ts ns Hn Hs IH]; intro Hcl; inversion Hcl as [|? ? C1 C2]; subst; cbn [map]; constructor; [apply C1; exact Hn | apply IH; exact C2].
      + intro l. cbv beta. rewrite sum_split. change (tot cells l) with (cells_of l). lia.
    - intros t Hin Hso. revert Hin. induction Hsh as [|t0 n ts ns Hn Hs IH]; intro Hin; [destruct Hin|]; destruct Hin as [-> |Hin]; inversion Hcl as [|? ? C1 C2]; subst.
      + eapply cost_weaken; [apply (cost_tys c K de cells (t :: ts) ((Z.of_N n - R)%Z :: map Z.of_N ns))|].
        * constructor; [eapply cost_weaken; [exact (proj2 (C1 n Hn) Hso)|]; intro v; cbv beta; lia|]. clear IH Hcl Hn.
          revert C2. induction Hs as [|t1 n1 ts ns Hn Hs IH]; intro C2; inversion C2 as [|? ? D1 D2]; subst; cbn [map]; constructor; [apply D1; exact Hn | apply IH; exact D2].
        * intro l. cbn [sumz fold_right sumn]. fold (sumz (map Z.of_N ns)) (sumn ns). rewrite sum_split. change (tot cells l) with (cells_of l). lia.
      + cbn [de_tys]. apply (cost_bind c K (fun v => Z.of_N (cells v) - Z.of_N n)%Z _ (fun d => de d t0) (fun d v => _)); [exact (proj1 (C1 n Hn))|]. intro v.
        apply (cost_map c K (cons v)). eapply cost_weaken; [apply IH; assumption|]. intro l. unfold cells_of. cbn [fold_right sumn]. fold (cells_of l) (sumn ns). lia.
  Qed.
  Lemma claim_fields de (hs : bool) fs ns : Forall (fun f => claim de (f_ty f)) fs ->
    Forall2 (fun f n => if hs && f_skip f then n = cells (f_tydefault f) else shell G (f_ty f) n) fs ns ->
    cost (fun l => Z.of_N (cells_of l) - Z.of_N (sumn ns))%Z (fun d => de_fields (de d) hs fs) /\
    (forall f, In f fs -> hs && f_skip f = false -> solid G (f_ty f) -> cost (fun l => Z.of_N (cells_of l) - Z.of_N (sumn ns) + R)%Z (fun d => de_fields (de d) hs fs)).
  Proof.
    assert (Bl : forall fs ns, Forall (fun f => claim de (f_ty f)) fs ->
      Forall2 (fun f n => if hs && f_skip f then n = cells (f_tydefault f) else shell G (f_ty f) n) fs ns ->
      Forall2 (fun f e => if hs && f_skip f then (Z.of_N (cells (f_tydefault f)) <= e)%Z else cost (fun v => Z.of_N (cells v) - e)%Z (fun d => de d (f_ty f))) fs (map Z.of_N ns)).
    { clear. intros fs ns Hcl Hsh. revert Hcl. induction Hsh as [|f n fs ns Hn Hs IH]; intro Hcl; inversion Hcl as [|? ? C1 C2]; subst; cbn [map]; constructor; [|apply IH; exact C2].
      destruct (hs && f_skip f); [subst n; lia | apply C1; exact Hn]. }
    intros Hcl Hsh. split.
    - eapply cost_weaken; [apply (cost_fields c K de cells hs fs (map Z.of_N ns)); apply Bl; assumption|].
      intro l. cbv beta. rewrite sum_split. change (tot cells l) with (cells_of l). lia.
    - intros f Hin Hsk Hso. revert Hin. induction Hsh as [|f0 n fs ns Hn Hs IH]; intro Hin; [destruct Hin|]; destruct Hin as [-> |Hin]; inversion Hcl as [|? ? C1 C2]; subst.
      + eapply cost_weaken; [apply (cost_fields c K de cells hs (f :: fs) ((Z.of_N n - R)%Z :: map Z.of_N ns))|].
        * constructor; [rewrite Hsk; rewrite Hsk in Hn; eapply cost_weaken; [exact (proj2 (C1 n Hn) Hso)|]; intro v; cbv beta; lia | apply Bl; assumption].
        * intro l. cbn [sumz fold_right sumn]. fold (sumz (map Z.of_N ns)) (sumn ns). rewrite sum_split. change (tot cells l) with (cells_of l). lia.
      + cbn [de_fields]. apply (cost_bind c K (fun v => Z.of_N (cells v) - Z.of_N n)%Z _ (fun d => if hs && f_skip f0 then bret (f_tydefault f0) else de d (f_ty f0)) (fun d v => _)).
        * destruct (hs && f_skip f0); [apply cost_ret; subst n; lia | apply C1; exact Hn].
        * intro v. apply (cost_map c K (cons v)). eapply cost_weaken; [apply IH; assumption|]. intro l. unfold cells_of. cbn [fold_right sumn]. fold (cells_of l) (sumn ns). lia.
  Qed.

  Lemma shells_if fs ns : Forall2 (fun f n => f_skip f = true /\ n = cells (f_tydefault f) \/ f_skip f = false /\ shell G (f_ty f) n) fs ns ->
    Forall2 (fun f n => if true && f_skip f then n = cells (f_tydefault f) else shell G (f_ty f) n) fs ns.
  Proof. induction 1 as [|f n fs ns [[E H]|[E H]] Hs IH]; constructor; try exact IH; rewrite E; exact H. Qed.
  Lemma claim_one de t : match t with TInt _ | TF32 | TF64 | TBool | TStr | TOpt _ | TSeq _ _ | TMap _ _ _ | TDur | TTime => True | _ => False end ->
    cost (fun v => Z.of_N (cells v) - 1 + R)%Z (fun d => de d t) -> claim de t.
  Proof.
    intros Ht H n Hn. assert (n = 1) as -> by (inversion Hn; subst; try contradiction; reflexivity).
    split; [eapply cost_weaken; [exact H|]; intro v; cbv beta; lia | intros _; exact H].
  Qed.
  Lemma fine_node t : ty_all fine t -> exists n, shell G t n /\ n <= S.
  Proof. intro H. apply ty_all_node in H. apply H. Qed.

  Theorem cells_all k : forall t, ty_all fine t -> claim (fun d => de_bin c G d k) t.
  Proof.
    induction k as [|k IH]; intros t Ht; [intros n _; split; [intros d o o' a _ _ H; discriminate | intros _ d o o' a _ _ H; discriminate]|].
    assert (Fx : forall (g : list N -> val) w, 1 <= w <= 16 -> (forall b, cells (g b) <= 1) -> cost (fun v => Z.of_N (cells v) - 1 + R)%Z (fun d => bmap g (rd_fixed c d w))).
    { intros g w Hw Hg. apply cost_map. eapply cost_weaken; [apply cost_fixed; [exact Hc | lia]|]. intro b. specialize (Hg b). cbv beta. nia. }
    assert (Fu : forall w : Z, (w <= K * 8)%Z -> cost (fun _ => w) (fun d => rd_usize c d)).
    { intros w Hw. eapply cost_weaken; [apply cost_usize; assumption|]. intro a. exact Hw. }
    destruct t as [ik| | | | | |t'|sk t'|mk tk tv|m t'|ts|t'| | |p t'|i].
    - apply claim_one; [exact I|]. cbn [de_bin]. destruct ik; try (apply Fx; [cbn; lia | intro; cbn; lia]).
      apply cost_map. cbn [cells]. apply (Fu (Z.of_N 1 - 1 + R)%Z). lia.
    - apply claim_one; [exact I|]. apply Fx; [lia | intro; cbn; lia].
    - apply claim_one; [exact I|]. apply Fx; [lia | intro; cbn; lia].
    - apply claim_one; [exact I|]. apply Fx; [lia | intro; cbn; lia].
    - apply claim_one; [exact I|]. cbn [de_bin]. apply cost_map. eapply cost_weaken; [apply cost_str; [assumption | lia]|]. intro s. cbn [cells]. nia.
    - intros n Hn. split; [|intro H; inversion H]. assert (n = 1) as -> by (inversion Hn; subst; try contradiction; reflexivity).
      apply cost_ret. cbn. lia.
    - (* Option *) apply claim_one; [exact I|]. cbn [de_bin].
      apply (cost_bind c K (fun _ => K)%Z _ (fun d => rd_fixed c d 1) (fun d b => _)); [eapply cost_weaken; [apply cost_fixed; [assumption..|lia]|]; cbv beta; lia|].
      intro b. cbv beta. destruct (of_le b =? 1); [|apply cost_ret; cbn [cells]; lia]. cbn [ty_all] in Ht. destruct Ht as [_ Ht]. destruct (fine_node _ Ht) as (n & Hn & Hle).
      apply cost_map. eapply cost_weaken; [exact (proj1 (IH _ Ht _ Hn))|]. intro v. cbn [cells]. lia.
    - (* sequences *) apply claim_one; [exact I|]. cbn [de_bin]. cbn [ty_all] in Ht. destruct Ht as [(_ & Hso & _) Ht]. cbn [solid_elements] in Hso. destruct (fine_node _ Ht) as (n & Hn & Hle).
      apply (cost_bind c K (fun _ => K * 8)%Z _ (fun d => rd_usize c d) (fun d len => _)); [apply Fu; lia|].
      intro len. apply (cost_bind c K (fun _ => 0)%Z _ (fun _ => match sk with SVec | SHSet => with_capacity c t' len | _ => bret tt end) (fun d _ => bmap VSeq (de_items (de_bin c G d k) sk t' len))).
      + destruct sk; first [apply cost_capacity | apply cost_ret; lia].
      + intros _. apply cost_map. eapply cost_weaken; [apply (cost_items c K (fun d => de_bin c G d k) cells)|].
        * eapply cost_weaken; [exact (proj2 (IH _ Ht _ Hn) Hso)|]. intro v. cbv beta. lia.
        * intro l. cbn [cells]. fold (tot cells l). lia.
    - (* maps *) apply claim_one; [exact I|]. cbn [de_bin]. cbn [ty_all] in Ht. destruct Ht as [(_ & Hso & _) [Hk Hv]]. cbn [solid_elements] in Hso.
      destruct (fine_node _ Hk) as (n1 & Hn1 & Hle1). destruct (fine_node _ Hv) as (n2 & Hn2 & Hle2).
      apply (cost_bind c K (fun _ => K * 8)%Z _ (fun d => rd_usize c d) (fun d len => _)); [apply Fu; lia|].
      intro len. apply (cost_bind c K (fun _ => 0)%Z _ (fun _ => match mk with MHash => with_capacity c tk len | MBTree => bret tt end) (fun d _ => bmap VMap (de_entries (de_bin c G d k) mk tk tv len))).
      + destruct mk; first [apply cost_capacity | apply cost_ret; lia].
      + intros _. apply cost_map. assert (Q : cost (fun l => Z.of_N (tot2 cells l)) (fun d => de_entries (de_bin c G d k) mk tk tv len)).
        { destruct Hso as [Hso|Hso].
          - apply (cost_entries c K (fun d => de_bin c G d k) cells mk tk tv len (R - Z.of_N n1)%Z (- Z.of_N n2)%Z); [| |lia].
            + eapply cost_weaken; [exact (proj2 (IH _ Hk _ Hn1) Hso)|]. intro v. cbv beta. lia.
            + eapply cost_weaken; [exact (proj1 (IH _ Hv _ Hn2))|]. intro v. cbv beta. lia.
          - apply (cost_entries c K (fun d => de_bin c G d k) cells mk tk tv len (- Z.of_N n1)%Z (R - Z.of_N n2)%Z); [| |lia].
            + eapply cost_weaken; [exact (proj1 (IH _ Hk _ Hn1))|]. intro v. cbv beta. lia.
            + eapply cost_weaken; [exact (proj2 (IH _ Hv _ Hn2) Hso)|]. intro v. cbv beta. lia. }
        eapply cost_weaken; [exact Q|]. intro l. cbn [cells]. fold (tot2 cells l). lia.
    - (* arrays *) intros n Hn. inversion Hn as [? X|? ? e He| | | | |]; subst; try contradiction. cbn [ty_all] in Ht. destruct Ht as [_ Ht]. cbn [de_bin]. split.
      + apply cost_map. eapply cost_weaken; [apply (cost_rep c K (fun d => de_bin c G d k) cells m t' (Z.of_N e)); exact (proj1 (IH _ Ht _ He))|].
        intro l. cbn [cells]. fold (tot cells l). lia.
      + intro Hso. inversion Hso as [| | | | | | | |? ? Hm Hs| | | | | | | | |]; subst.
        apply cost_map. eapply cost_weaken; [apply (cost_rep c K (fun d => de_bin c G d k) cells m t' (Z.of_N e - R)%Z)|].
        * eapply cost_weaken; [exact (proj2 (IH _ Ht _ He) Hs)|]. intro v. cbv beta. lia.
        * intro l. cbn [cells]. fold (tot cells l). rewrite Z.mul_sub_distr_l. assert (Z.of_N S * 2 <= Z.of_nat m * R)%Z by nia. lia.
    - (* tuples *) intros n Hn. inversion Hn as [? X| |? ns Hs| | | |]; subst; try contradiction. cbn [ty_all] in Ht. destruct Ht as [_ Ht]. apply ty_all_list in Ht. cbn [de_bin].
      destruct (claim_tys (fun d => de_bin c G d k) ts ns) as [A1 A2]; [revert Ht; apply Forall_impl; exact IH | exact Hs|]. split.
      + apply cost_map. eapply cost_weaken; [exact A1|]. intro l. cbn [cells]. fold (cells_of l). lia.
      + intro Hso. inversion Hso as [| | | | | | | | |? t Hin Ht2| | | | | | | |]; subst. apply cost_map. eapply cost_weaken; [exact (A2 t Hin Ht2)|]. intro l. cbn [cells]. fold (cells_of l). lia.
    - (* Box *) intros n Hn. inversion Hn as [? X| | |? ? Hb| | |]; subst; try contradiction. cbn [ty_all] in Ht. destruct Ht as [_ Ht]. cbn [de_bin]. split; [exact (proj1 (IH _ Ht _ Hb))|].
      intro Hso. inversion Hso as [| | | | | | | | | |? Hs| | | | | | |]; subst. exact (proj2 (IH _ Ht _ Hb) Hs).
    - apply claim_one; [exact I|]. apply cost_dur; [assumption..|]. intros. cbn [cells]. lia.
    - apply claim_one; [exact I|]. apply cost_time; [assumption|lia|]. intros. cbn [cells]. lia.
    - cbn [ty_all] in Ht. destruct Ht as [[[] _] _].
    - (* declarations *) intros n Hn. cbn [de_bin]. inversion Hn as [? X| | | |? dflt nul fs ns E Hs|? tr fs ns E Hs|? vs E]; subst; [contradiction|..]; rewrite E; pose proof (env_all_nth _ _ _ _ HG E) as Hd; cbn [decl_all] in Hd.
      + assert (Hcl : Forall (fun f => claim (fun d => de_bin c G d k) (f_ty f)) fs) by (revert Hd; apply Forall_impl; intros f Hf; apply IH; exact Hf).
        destruct (claim_fields (fun d => de_bin c G d k) true fs ns Hcl (shells_if _ _ Hs)) as [A1 A2]. split.
        * apply cost_map. eapply cost_weaken; [exact A1|]. intro l. cbn [cells]. fold (cells_of l). lia.
        * intro Hso. inversion Hso as [| | | | | | | | | | | | |? ? ? fs2 f E2 Hin Hsk Hf|? ? fs2 f E2|? ? E2| |? ? ? E2]; subst; rewrite E in E2; try discriminate. injection E2 as <- <- <-.
          apply cost_map. eapply cost_weaken; [apply (A2 f Hin Hsk Hf)|]. intro l. cbn [cells]. fold (cells_of l). lia.
      + destruct (existsb f_skip fs) eqn:Ek; [split; [apply cost_fail; discriminate | intros _; apply cost_fail; discriminate]|].
        assert (Hcl : Forall (fun f => claim (fun d => de_bin c G d k) (f_ty f)) fs) by (revert Hd; apply Forall_impl; intros f Hf; apply IH; exact Hf).
        destruct (claim_fields (fun d => de_bin c G d k) true fs ns Hcl (shells_if _ _ Hs)) as [A1 A2]. split.
        * apply cost_map. eapply cost_weaken; [exact A1|]. intro l. cbn [cells]. fold (cells_of l). lia.
        * intro Hso. inversion Hso as [| | | | | | | | | | | | |? ? ? fs2 f E2|? ? fs2 f E2 Hin Hf|? ? E2| |? ? ? E2]; subst; rewrite E in E2; try discriminate. injection E2 as <- <-.
          assert (Hsk : f_skip f = false) by (destruct (f_skip f) eqn:Q; [|reflexivity]; assert (existsb f_skip fs = true) by (apply existsb_exists; eauto); congruence).
          apply cost_map. eapply cost_weaken; [apply (A2 f Hin Hsk Hf)|]. intro l. cbn [cells]. fold (cells_of l). lia.
      + assert (Q : cost (fun v => Z.of_N (cells v) - 1 + R)%Z (fun d => bbind (rd_fixed c d 2) (fun b => let tag := of_le b in
            match nth_error vs (N.to_nat tag) with
            | None => bfail (Err {| e_o := 0; e_msg := EDiscriminant tag |})
            | Some vr => match v_body vr with BUnit => bret (VEnum tag []) | BTuple ts => bmap (VEnum tag) (de_tys (de_bin c G d k) ts) | BStruct fs => bmap (VEnum tag) (de_fields (de_bin c G d k) false fs) end end))).
        { apply (cost_bind c K (fun _ => K * 2)%Z _ (fun d => rd_fixed c d 2) (fun d b => let tag := of_le b in _)); [eapply cost_weaken; [apply cost_fixed; [assumption..|lia]|]; cbv beta; lia|].
          intro b. cbv beta zeta. destruct (nth_error vs (N.to_nat (of_le b))) as [vr|] eqn:Ev; [|apply cost_fail; discriminate]. apply nth_error_In in Ev.
          specialize (HB _ _ E). rewrite Forall_forall in HB, Hd. specialize (HB _ Ev). specialize (Hd _ Ev).
          destruct (v_body vr) as [|ts|fs]; cbn [fine_body] in HB; [apply cost_ret; cbn [cells fold_right]; lia| |]; destruct HB as (ns & Hns & Hle).
          - destruct (claim_tys (fun d => de_bin c G d k) ts ns) as [A1 _]; [revert Hd; apply Forall_impl; exact IH | exact Hns|].
            apply cost_map. eapply cost_weaken; [exact A1|]. intro l. cbn [cells]. fold (cells_of l). lia.
          - destruct (claim_fields (fun d => de_bin c G d k) false fs ns) as [A1 _]; [revert Hd; apply Forall_impl; intros f Hf; apply IH; exact Hf | exact Hns|].
            apply cost_map. eapply cost_weaken; [exact A1|]. intro l. cbn [cells]. fold (cells_of l). lia. }
        split; [eapply cost_weaken; [exact Q|]; intro v; cbv beta; lia | intros _; exact Q].
  Qed.
End Cells.

(** ** At least one byte *)
Section Solid.
  Variables (c : cfg) (G : env).
  Hypothesis Hc : cfg_ok c.
  Let cost {A} := @Costs c 1%Z A.
  Let zero : val -> N := fun _ => 0.
  Lemma tot_zero l : tot (fun _ => 0) l = 0.
  Proof. induction l as [|x l IH]; [reflexivity|]. rewrite tot_cons, IH. reflexivity. Qed.
  Theorem cost_none n : forall t, cost (fun _ => 0%Z) (fun d => de_bin c G d n t).
  Proof. intros t d o o' a Hf Ho H. destruct (Local_de c Hc G n t d o o' a Hf Ho H) as (L1 & L2 & _). lia. Qed.
  Lemma some_tys de ts t : (forall t, cost (fun _ => 0%Z) (fun d => de d t)) -> In t ts -> cost (fun _ => 1%Z) (fun d => de d t) ->
    cost (fun _ => 1%Z) (fun d => de_tys (de d) ts).
  Proof.
    intros H0 Hin H1. induction ts as [|t0 ts IH]; [destruct Hin|]. destruct Hin as [-> |Hin]; cbn [de_tys].
    - apply (cost_bind c 1 (fun _ => 1)%Z _ (fun d => de d t) (fun d v => _) H1). intro v. apply (cost_map c 1 (cons v)).
      eapply cost_weaken; [apply (cost_tys c 1 de (fun _ => 0) ts (map (fun _ => 0%Z) ts)); apply forall2_diag; apply Forall_forall; intros x _; eapply cost_weaken; [apply H0|]; intro w; cbv beta; lia|].
      intro l. cbv beta. rewrite sumz_zero, tot_zero. lia.
    - apply (cost_bind c 1 (fun _ => 0)%Z _ (fun d => de d t0) (fun d v => _) (H0 t0)). intro v. apply (cost_map c 1 (cons v)). eapply cost_weaken; [apply IH; exact Hin|]. intro l. cbv beta. lia.
  Qed.
  Lemma none_fields de hs fs : (forall t, cost (fun _ => 0%Z) (fun d => de d t)) -> cost (fun _ => 0%Z) (fun d => de_fields (de d) hs fs).
  Proof.
    intro H0. eapply cost_weaken; [apply (cost_fields c 1 de (fun _ => 0) hs fs (map (fun _ => 0%Z) fs)); apply forall2_diag; apply Forall_forall; intros x _; destruct (hs && f_skip x); [cbn; lia|]; eapply cost_weaken; [apply H0|]; intro w; cbv beta; lia|].
    intro l. cbv beta. rewrite sumz_zero, tot_zero. lia.
  Qed.
  Lemma some_fields de hs fs f : (forall t, cost (fun _ => 0%Z) (fun d => de d t)) -> In f fs -> hs && f_skip f = false -> cost (fun _ => 1%Z) (fun d => de d (f_ty f)) ->
    cost (fun _ => 1%Z) (fun d => de_fields (de d) hs fs).
  Proof.
    intros H0 Hin Hsk H1. induction fs as [|f0 fs IH]; [destruct Hin|]. destruct Hin as [-> |Hin]; cbn [de_fields].
    - apply (cost_bind c 1 (fun _ => 1)%Z _ (fun d => if hs && f_skip f then bret (f_tydefault f) else de d (f_ty f)) (fun d v => _)); [rewrite Hsk; exact H1|].
      intro v. apply (cost_map c 1 (cons v)). eapply cost_weaken; [apply none_fields; exact H0|]. intro l. cbv beta. lia.
    - apply (cost_bind c 1 (fun _ => 0)%Z _ (fun d => if hs && f_skip f0 then bret (f_tydefault f0) else de d (f_ty f0)) (fun d v => _)).
      + destruct (hs && f_skip f0); [apply cost_ret; lia | apply H0].
      + intro v. apply (cost_map c 1 (cons v)). eapply cost_weaken; [apply IH; exact Hin|]. intro l. cbv beta. lia.
  Qed.
  Lemma after_fixed {A} w (f : list N -> list N -> bm A) : 1 <= w <= 16 -> (forall b, Local c (fun d => f d b)) -> cost (fun _ => 1%Z) (fun d => bbind (rd_fixed c d w) (f d)).
  Proof.
    intros Hw Hl. apply (cost_bind c 1 (fun _ => Z.of_N w)%Z _ (fun d => rd_fixed c d w) f).
    - eapply cost_weaken; [apply cost_fixed; [exact Hc | lia]|]. intro b. cbv beta. lia.
    - intros b d o o' a Hf Ho H. destruct (Hl b d o o' a Hf Ho H) as (L1 & L2 & _). lia.
  Qed.
  Lemma after_usize {A} (f : list N -> N -> bm A) : (forall b, Local c (fun d => f d b)) -> cost (fun _ => 1%Z) (fun d => bbind (rd_usize c d) (f d)).
  Proof.
    intros Hl. apply (cost_bind c 1 (fun _ => 8)%Z _ (fun d => rd_usize c d) f).
    - eapply cost_weaken; [apply cost_usize; exact Hc|]. intro b. cbv beta. lia.
    - intros b d o o' a Hf Ho H. destruct (Hl b d o o' a Hf Ho H) as (L1 & L2 & _). lia.
  Qed.
  Theorem solid_all n : forall t, solid G t -> cost (fun _ => 1%Z) (fun d => de_bin c G d n t).
  Proof.
    induction n as [|n IH]; intros t Ht; [intros d o o' a _ _ H; discriminate|]. pose proof (Local_de c Hc G n) as L.
    destruct Ht as [k| | | | |t|k t|k a b|m t Hm Ht|ts t Hin Ht|t Ht| | |i dflt nul fs f E Hin Hsk Ht|i tr fs f E Hin Ht|i vs E|p t Ht|i p t E Ht]; cbn [de_bin].
    - destruct k; try (apply after_fixed; [cbn; lia | intro; apply Local_ret]). apply after_usize. intro. apply Local_ret.
    - apply after_fixed; [lia | intro; apply Local_ret].
    - apply after_fixed; [lia | intro; apply Local_ret].
    - apply after_fixed; [lia | intro; apply Local_ret].
    - apply cost_map. eapply cost_weaken; [apply cost_str; [exact Hc | lia]|]. intro s. cbv beta. lia.
    - apply (after_fixed 1 (fun d b => if of_le b =? 1 then bmap VSome (de_bin c G d n t) else bret VNone)); [lia|]. intro b. destruct (of_le b =? 1); [apply (Local_map c VSome); apply L | apply Local_ret].
    - apply (after_usize (fun d len => bbind (match k with SVec | SHSet => with_capacity c t len | _ => bret tt end) (fun _ => bmap VSeq (de_items (de_bin c G d n) k t len)))).
      intro len. apply (Local_bind c (fun _ => match k with SVec | SHSet => with_capacity c t len | _ => bret tt end) (fun d _ => bmap VSeq (de_items (de_bin c G d n) k t len))).
      + destruct k; first [apply Local_capacity | apply Local_ret].
      + intros _. apply (Local_map c VSeq). apply (Local_items c (fun d => de_bin c G d n)). exact L.
    - apply (after_usize (fun d len => bbind (match k with MHash => with_capacity c a len | MBTree => bret tt end) (fun _ => bmap VMap (de_entries (de_bin c G d n) k a b len)))).
      intro len. apply (Local_bind c (fun _ => match k with MHash => with_capacity c a len | MBTree => bret tt end) (fun d _ => bmap VMap (de_entries (de_bin c G d n) k a b len))).
      + destruct k; first [apply Local_capacity | apply Local_ret].
      + intros _. apply (Local_map c VMap). apply (Local_entries c (fun d => de_bin c G d n)). exact L.
    - apply cost_map. eapply cost_weaken; [apply (cost_rep c 1 (fun d => de_bin c G d n) (fun _ => 0) m t (-1)%Z)|].
      + eapply cost_weaken; [apply IH; exact Ht|]. intro v. cbv beta. lia.
      + intro l. cbv beta. rewrite tot_zero. lia.
    - apply cost_map. exact (some_tys (fun d => de_bin c G d n) ts t (cost_none n) Hin (IH t Ht)).
    - apply IH. exact Ht.
    - apply cost_dur; [exact Hc | lia].
    - apply cost_time; [exact Hc | lia | lia].
    - rewrite E. apply cost_map. apply (some_fields (fun d => de_bin c G d n) true fs f (cost_none n) Hin Hsk (IH _ Ht)).
    - rewrite E. destruct (existsb f_skip fs) eqn:Ek; [apply cost_fail; discriminate|]. apply cost_map.
      assert (Hsk : true && f_skip f = false) by (cbn; destruct (f_skip f) eqn:Q; [|reflexivity]; assert (existsb f_skip fs = true) by (apply existsb_exists; eauto); congruence).
      exact (some_fields (fun d => de_bin c G d n) true fs f (cost_none n) Hin Hsk (IH _ Ht)).
    - rewrite E. apply (after_fixed 2 (fun d b => let tag := of_le b in
            match nth_error vs (N.to_nat tag) with
            | None => bfail (Err {| e_o := 0; e_msg := EDiscriminant tag |})
            | Some vr => match v_body vr with BUnit => bret (VEnum tag []) | BTuple ts => bmap (VEnum tag) (de_tys (de_bin c G d n) ts) | BStruct fs => bmap (VEnum tag) (de_fields (de_bin c G d n) false fs) end end)); [lia|].
      intro b. cbv zeta. destruct (nth_error vs (N.to_nat (of_le b))) as [vr|]; [|apply Local_fail; discriminate].
      destruct (v_body vr) as [|ts|fs]; [apply Local_ret| |].
      + apply (Local_map c (VEnum (of_le b))). apply (Local_tys c (fun d => de_bin c G d n)). exact L.
      + apply (Local_map c (VEnum (of_le b))). apply (Local_fields c (fun d => de_bin c G d n)). exact L.
    - apply cost_map. apply IH. exact Ht.
    - rewrite E. apply cost_map. apply IH. exact Ht.
  Qed.
End Solid.
