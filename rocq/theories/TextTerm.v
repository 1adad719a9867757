(** Every read ends, and which panics can happen: a judgement over token lists. *)
From Verif Require Import Base Utf8 Types TyAll BinModel Text TextModel TextSim TextToks TextLex TextRead TextFuel SpecTerm.
Local Open Scope N_scope.
Notation L := tok_lexer.

Section Ends.
  Variable P : panic -> Prop.
  Variable HangOK : Prop.
  Variable Good : list ltok -> bool -> Prop.
  Hypothesis Good_suffix : forall a l b, Good (a ++ l) b -> Good l b.

  (** From state [u] the reader [m] stops; if it succeeds it has used at least [k] tokens. *)
  Definition endsat {A} (k : nat) (m : @pm tst A) (u : tst) : Prop :=
    match m u with
    | (u', Ok _) => exists a, t_toks u = a ++ t_toks u' /\ t_bad u' = t_bad u /\ (k <= length a)%nat
    | (_, Err _) => True
    | (_, Panic p) => P p
    | (_, NoFuel) => HangOK
    end.
  (** The same wherever at most [K] tokens are left. *)
  Definition Ends {A} (K k : nat) (m : @pm tst A) : Prop :=
    forall u, Good (t_toks u) (t_bad u) -> (length (t_toks u) <= K)%nat -> endsat k m u.

  Lemma endsat_weak {A} k k' (m : @pm tst A) u : (k <= k')%nat -> endsat k' m u -> endsat k m u.
  Proof.
    intros Hk H. unfold endsat in *. destruct (m u) as [u' [a|e|p|]]; auto.
    destruct H as (l & H1 & H2 & H3). exists l. repeat split; auto. lia.
  Qed.
  Lemma Ends_weak {A} K K' k k' (m : @pm tst A) : (K <= K')%nat -> (k <= k')%nat -> Ends K' k' m -> Ends K k m.
  Proof. intros H1 H2 H u Hg Hl. eapply endsat_weak; [exact H2|]. apply H; [exact Hg | lia]. Qed.

  Lemma endsat_bind {A B} K k1 k2 (m : @pm tst A) (f : A -> @pm tst B) u :
    Good (t_toks u) (t_bad u) -> (length (t_toks u) <= K)%nat -> endsat k1 m u ->
    ((k1 <= K)%nat -> forall a, Ends (K - k1) k2 (f a)) -> endsat (k1 + k2) (pbind m f) u.
  Proof.
    intros Hg Hl H Hf. unfold endsat in *. unfold pbind. destruct (m u) as [u1 [a|e|p|]]; auto.
    destruct H as (l & H1 & H2 & H3). rewrite H1, app_length in Hl.
    assert (Hk : (k1 <= K)%nat) by lia.
    assert (Hg1 : Good (t_toks u1) (t_bad u1)) by (rewrite H2; eapply Good_suffix; rewrite <- H1; exact Hg).
    specialize (Hf Hk a u1 Hg1 ltac:(lia)). unfold endsat in Hf.
    destruct (f a u1) as [u2 [v|e|p|]]; auto.
    destruct Hf as (l2 & G1 & G2 & G3). exists (l ++ l2). rewrite H1, G1, app_assoc, app_length.
    repeat split; [congruence | lia].
  Qed.
  Lemma Ends_bind {A B} K k1 k2 (m : @pm tst A) (f : A -> @pm tst B) :
    Ends K k1 m -> ((k1 <= K)%nat -> forall a, Ends (K - k1) k2 (f a)) -> Ends K (k1 + k2) (pbind m f).
  Proof. intros H Hf u Hg Hl. eapply endsat_bind; eauto. Qed.
  (** The same with the count fixed from outside. *)
  Lemma Ends_then {A B} K k k1 k2 (m : @pm tst A) (f : A -> @pm tst B) : (k <= k1 + k2)%nat ->
    Ends K k1 m -> ((k1 <= K)%nat -> forall a, Ends (K - k1) k2 (f a)) -> Ends K k (pbind m f).
  Proof. intros Hk H Hf. eapply Ends_weak; [apply le_n | exact Hk | apply Ends_bind; assumption]. Qed.
  Lemma Ends_ret {A} K (a : A) : Ends K 0 (pret a).
  Proof. intros u _ _. unfold endsat, pret. exists []. repeat split. apply le_n. Qed.
  Lemma Ends_err {A} K k m : Ends K k (perr (A:=A) L m).
  Proof. intros u _ _. exact I. Qed.
  Lemma Ends_map {A B} K k (g : A -> B) (m : @pm tst A) : Ends K k m -> Ends K k (pmap g m).
  Proof. intro H. apply (Ends_then K k k 0); [lia | exact H |]. intros _ a. apply Ends_ret. Qed.
  Lemma Ends_panic {A} K k p : P p -> Ends K k (pfail (A:=A) (Panic p)).
  Proof. intros H u _ _. exact H. Qed.

  (** Advancing. *)
  Lemma next_endsat u : endsat 0 (l_next L) u.
  Proof.
    unfold endsat. cbn [l_next L]. unfold tok_next. destruct (t_toks u) as [|x [|y r]] eqn:E.
    - exists []. rewrite E. repeat split. apply le_n.
    - destruct (t_bad u) eqn:Eb; [exact I|]. exists [x]. cbn [t_toks t_bad app]. repeat split. cbn. lia.
    - exists [x]. cbn [t_toks t_bad app]. repeat split. cbn. lia.
  Qed.
  Lemma next_endsat1 u : t_toks u <> [] -> endsat 1 (l_next L) u.
  Proof.
    unfold endsat. cbn [l_next L]. unfold tok_next. destruct (t_toks u) as [|x [|y r]] eqn:E; [congruence| |]; intros _.
    - destruct (t_bad u) eqn:Eb; [exact I|]. exists [x]. cbn [t_toks t_bad app]. repeat split. cbn. lia.
    - exists [x]. cbn [t_toks t_bad app]. repeat split. cbn. lia.
  Qed.
  Lemma not_eof u : l_tok L u <> KEof -> t_toks u <> [].
  Proof. cbn [l_tok L]. intros H E. rewrite E in H. apply H. reflexivity. Qed.
  Lemma next_real u : l_tok L u <> KEof -> endsat 1 (l_next L) u.
  Proof. intro H. apply next_endsat1, not_eof, H. Qed.
  Lemma kind_is x k : tok_is x k = true -> x = k.
  Proof. destruct x, k; try discriminate; reflexivity. Qed.

  Lemma Ends_expect K k w : k <> KEof -> Ends K 1 (expect L k w).
  Proof.
    intros Hk u _ _. unfold endsat, expect. destruct (tok_is (l_tok L u) k) eqn:E; [|exact I].
    apply kind_is in E. apply next_real. congruence.
  Qed.
  Lemma Ends_colon K : Ends K 1 (p_colon L).
  Proof. apply Ends_expect. discriminate. Qed.
  Lemma Ends_eat K k w : Ends K 0 (eat_comma L k w).
  Proof.
    intros u _ _. unfold endsat, eat_comma. destruct (tok_is (l_tok L u) KComma); [apply next_endsat|].
    destruct (tok_is (l_tok L u) k); [|exact I]. exists []. repeat split. apply le_n.
  Qed.

  (** A look at the current token, then the next one. *)
  Lemma Ends_peek {A B} K (m : @pm tst A) (f : A -> B) :
    (forall u, match m u with
               | (u1, Ok _) => t_toks u1 = t_toks u /\ t_bad u1 = t_bad u /\ l_tok L u <> KEof
               | (_, Err _) => True | _ => False end) ->
    Ends K 1 (pbind m (fun a => pbind (l_next L) (fun _ => pret (f a)))).
  Proof.
    intros H u Hg Hl. specialize (H u). unfold endsat, pbind. destruct (m u) as [u1 [a|e|p|]]; try contradiction; [|exact I].
    destruct H as (H1 & H2 & H3). apply not_eof in H3. rewrite <- H1 in H3. pose proof (next_endsat1 u1 H3) as H4. unfold endsat in H4.
    destruct (l_next L u1) as [u2 [v|e|p|]]; auto. destruct H4 as (l & E1 & E2 & E3). exists l. rewrite <- H1, <- H2. auto.
  Qed.
  Lemma Ends_u64 {B} K mx (f : N -> B) : Ends K 1 (pbind (u64_range L mx) (fun a => pbind (l_next L) (fun _ => pret (f a)))).
  Proof.
    apply Ends_peek. intro u. unfold u64_range. destruct (l_tok L u) eqn:E; try exact I.
    destruct (mx <? n); [exact I|]. repeat split. discriminate.
  Qed.
  Lemma Ends_i64 {B} K mn mx (f : Z -> B) : Ends K 1 (pbind (i64_range L mn mx) (fun a => pbind (l_next L) (fun _ => pret (f a)))).
  Proof.
    apply Ends_peek. intro u. unfold i64_range. destruct (l_tok L u) eqn:E; try exact I.
    - destruct (mx <? u64_as_i64 n)%Z; [exact I|]. repeat split. discriminate.
    - destruct (z <? mn)%Z; [exact I|]. repeat split. discriminate.
  Qed.
  Lemma Ends_int K c k : k <> U128 -> k <> I128 -> Ends K 1 (de_int L c k).
  Proof.
    intros H1 H2. unfold de_int. destruct k; try congruence; cbn [ik_signed];
    first [apply (Ends_u64 K _ (fun v => VZ (cast c _ (Z.of_N v)))) | apply (Ends_i64 K _ _ (fun v => VZ (cast c _ v)))].
  Qed.
  Lemma Ends_f64 K F : Ends K 1 (de_f64 L F).
  Proof.
    apply (Ends_peek K (as_f64 L F) (fun b => b)). intro u. unfold as_f64. destruct (l_tok L u) eqn:E; try exact I; repeat split; discriminate.
  Qed.
  Lemma Ends_bool K fm : Ends K 1 (de_bool L fm).
  Proof.
    apply (Ends_peek K (as_bool L fm) VBool). intro u. unfold as_bool. destruct (l_tok L u) eqn:E; try (destruct fm; exact I).
    - destruct fm; [exact I|]. repeat split. discriminate.
    - repeat split. discriminate.
  Qed.
  Lemma Ends_str K : Ends K 1 (de_str L).
  Proof.
    apply (Ends_peek K (as_string L) (fun x => x)). intro u. unfold as_string. destruct (tok_is (l_tok L u) KStr) eqn:E; [|exact I].
    apply kind_is in E. repeat split. rewrite E. discriminate.
  Qed.
  Lemma Ends_opt K fm (de : @pm tst val) : Ends K 1 de -> Ends K 1 (de_opt L fm de).
  Proof.
    intros H u Hg Hl. unfold endsat, de_opt. destruct (at_none L fm u) eqn:E; [|apply (Ends_map K 1 VSome de H u Hg Hl)].
    apply (endsat_bind K 1 0 (l_next L) (fun _ => pret VNone) u Hg Hl); [|intros _ _; apply Ends_ret].
    apply next_real. unfold at_none in E. destruct fm.
    - apply kind_is in E. congruence.
    - apply andb_prop in E as [E _]. apply kind_is in E. congruence.
  Qed.

  (** Loops. *)
  Lemma Ends_while {A} K (cond : tst -> bool) (body : A -> @pm tst A) :
    (forall a u, cond u = true -> Good (t_toks u) (t_bad u) -> (length (t_toks u) <= K)%nat -> endsat 1 (body a) u) ->
    forall n a, (K < n)%nat -> Ends K 0 (while_ n cond body a).
  Proof.
    induction K as [K IH] using lt_wf_ind. intros Hb n a Hn u Hg Hl. destruct n as [|n]; [lia|].
    unfold endsat. cbn [while_]. destruct (cond u) eqn:Ec.
    - apply (endsat_weak 0 (1 + 0) (pbind (body a) (while_ n cond body)) u); [lia|].
      apply (endsat_bind K 1 0 _ _ u Hg Hl (Hb a u Ec Hg Hl)). intros HK a'. apply IH; [lia| |lia].
      intros a2 u2 H2 G2 L2. apply Hb; [exact H2 | exact G2 | lia].
    - exists []. repeat split. apply le_n.
  Qed.
  Lemma Ends_loop {A} K cond (body : A -> @pm tst A) n a : (forall a, Ends K 1 (body a)) -> (K < n)%nat -> Ends K 0 (while_ n cond body a).
  Proof. intros H Hn. apply Ends_while; [|exact Hn]. intros a' u _ Hg Hl. apply H; assumption. Qed.

  (** An open bracket, something, a close bracket. *)
  Lemma Ends_group {A B} K o w cl w' (m : @pm tst A) (f : A -> @pm tst B) : o <> KEof -> cl <> KEof ->
    ((1 <= K)%nat -> Ends (K - 1) 0 m) -> (forall K' a, Ends K' 0 (f a)) ->
    Ends K 1 (pbind (expect L o w) (fun _ => pbind m (fun a => pbind (expect L cl w') (fun _ => f a)))).
  Proof.
    intros Ho Hc Hm Hf. apply (Ends_then K 1 1 0); [lia | apply Ends_expect; exact Ho |]. intros HK _.
    apply (Ends_then _ 0 0 0); [lia | apply Hm; exact HK |]. intros _ a.
    apply (Ends_then _ 0 1 0); [lia | apply Ends_expect; exact Hc |]. intros _ _. apply Hf.
  Qed.

  (** Duration and SystemTime. *)
  Lemma Ends_dur_body K a : Ends K 1 (dur_body L a).
  Proof.
    unfold dur_body. apply (Ends_then K 1 1 0); [lia | apply Ends_str |]. intros _ key.
    apply (Ends_then _ 0 0 0); [lia | |].
    - destruct (str_eqb key (chars "secs")); [|destruct (str_eqb key (chars "nanos"))].
      + destruct (fst a); [apply Ends_err|]. apply (Ends_then _ 0 1 1); [lia | apply Ends_colon |]. intros _ _.
        apply (Ends_then _ 1 1 0); [lia | apply (Ends_u64 _ _ (fun v => v)) |]. intros _ v. apply Ends_ret.
      + destruct (snd a); [apply Ends_err|]. apply (Ends_then _ 0 1 1); [lia | apply Ends_colon |]. intros _ _.
        apply (Ends_then _ 1 1 0); [lia | apply (Ends_u64 _ _ (fun v => v)) |]. intros _ v. apply Ends_ret.
      + apply Ends_err.
    - intros _ a'. apply (Ends_then _ 0 0 0); [lia | apply Ends_eat |]. intros _ _. apply Ends_ret.
  Qed.
  Lemma Ends_dur K n : (K < n)%nat -> P PDuration -> Ends K 1 (de_dur L n).
  Proof.
    intros Hn Hp. unfold de_dur. apply Ends_group; try discriminate.
    - intros HK. apply Ends_loop; [|lia]. intro. apply Ends_dur_body.
    - intros K' a. destruct (fst a) as [s|]; [|apply Ends_err]. cbv zeta.
      match goal with |- context [1000000000 <? ?ns] => destruct (1000000000 <? ns); [apply Ends_err|]; destruct (ns <? 1000000000); [apply Ends_ret|] end.
      destruct (s + 1 <? 2 ^ 64); [apply Ends_ret | apply Ends_panic; exact Hp].
  Qed.
  Lemma Ends_time K c fm n : (K < n)%nat -> P PDuration -> P PTime -> Ends K 1 (de_time L c fm n).
  Proof.
    intros Hn Hp Hq. unfold de_time. apply (Ends_then K 1 1 0); [lia | apply Ends_opt, Ends_dur; assumption |].
    intros _ v. destruct v as [| | | | | |v| | | | |]; try apply Ends_ret. destruct v; try apply Ends_ret.
    destruct (secs <=? time_max c); [apply Ends_ret | apply Ends_panic; exact Hq].
  Qed.

  Section Helpers.
    Variable fm : fmt.
    Variable de : ty -> @pm tst val.
    Variable n : nat.

    Lemma Ends_seq K k t : (K < n)%nat -> ((1 <= K)%nat -> Ends (K - 1) 1 (de t)) -> Ends K 1 (de_seq L de n k t).
    Proof.
      intros Hn H. unfold de_seq. apply Ends_group; try discriminate.
      - intro HK. apply Ends_loop; [|lia]. intro acc. apply (Ends_then _ 1 1 0); [lia | exact (H HK) |]. intros _ v.
        apply (Ends_then _ 0 0 0); [lia | apply Ends_eat |]. intros _ _. apply Ends_ret.
      - intros. apply Ends_ret.
    Qed.
    Lemma Ends_mapk K k tk tv : (K < n)%nat -> ((1 <= K)%nat -> Ends (K - 1) 1 (de tk)) -> ((1 <= K)%nat -> Ends (K - 1) 1 (de tv)) ->
      Ends K 1 (de_map L de n k tk tv).
    Proof.
      intros Hn H1 H2. unfold de_map. apply Ends_group; try discriminate.
      - intro HK. apply Ends_loop; [|lia]. intro acc. apply (Ends_then _ 1 1 0); [lia | exact (H1 HK) |]. intros _ x.
        apply (Ends_then _ 0 1 0); [lia | apply Ends_colon |]. intros _ _.
        apply (Ends_then _ 0 1 0); [lia | eapply Ends_weak; [| |exact (H2 HK)]; lia |]. intros _ y.
        apply (Ends_then _ 0 0 0); [lia | apply Ends_eat |]. intros _ _. apply Ends_ret.
      - intros. apply Ends_ret.
    Qed.
    Lemma Ends_item K t : Ends K 1 (de t) -> Ends K 1 (de_item L fm de t).
    Proof.
      intro H. unfold de_item. apply (Ends_then _ 1 1 0); [lia | exact H |]. intros _ v.
      apply (Ends_then _ 0 0 0); [lia | apply Ends_eat |]. intros _ _. apply Ends_ret.
    Qed.
    Lemma eat_total u : match snd (eat_tcomma L fm u) with Ok _ | Err _ => True | _ => False end.
    Proof.
      unfold eat_tcomma, eat_comma. destruct (tok_is (l_tok L u) KComma).
      - cbn [l_next L]. unfold tok_next. destruct (t_toks u) as [|x [|y r]]; try exact I. destruct (t_bad u); exact I.
      - destruct (tok_is (l_tok L u) (k_tclose fm)); exact I.
    Qed.
    Lemma Ends_block K t : Ends K 1 (de t) -> Ends K 1 (comma_block L fm de t).
    Proof.
      intros H u Hg Hl. specialize (H u Hg Hl). unfold endsat, comma_block in *. destruct (de t u) as [u1 [v|e|p|]]; auto.
      - destruct H as (l & E1 & E2 & E3). pose proof (Ends_eat (length (t_toks u1)) (k_tclose fm) (w_tcomma fm) u1) as He.
        fold (eat_tcomma L fm) in He. unfold endsat in He.
        assert (Hg1 : Good (t_toks u1) (t_bad u1)) by (rewrite E2; eapply Good_suffix; rewrite <- E1; exact Hg).
        specialize (He Hg1 (le_n _)). destruct (eat_tcomma L fm u1) as [u2 [w|e|p|]]; auto.
        destruct He as (l2 & G1 & G2 & G3). exists (l ++ l2). rewrite E1, G1, app_assoc, app_length. repeat split; [congruence | lia].
      - pose proof (eat_total u1) as He. destruct (eat_tcomma L fm u1) as [u2 [w|e'|p|]]; cbn in He; try exact I; contradiction.
    Qed.
    Lemma Ends_list K (l : list (@pm tst val)) : Forall (Ends K 1) l -> Ends K 0 (de_list l).
    Proof.
      intro H. revert K H. induction l as [|p l IH]; intros K H; cbn [de_list]; [apply Ends_ret|].
      apply Forall_cons_iff in H as [H1 H2]. apply (Ends_then _ 0 1 0); [lia | exact H1 |]. intros _ v.
      apply (Ends_then _ 0 0 0); [lia | |intros _ r; apply Ends_ret]. apply IH.
      eapply Forall_impl; [|exact H2]. intros q Hq. eapply Ends_weak; [| |exact Hq]; lia.
    Qed.
    Lemma Ends_bracketed K (l : list (@pm tst val)) : ((1 <= K)%nat -> Forall (Ends (K - 1) 1) l) -> Ends K 1 (de_bracketed L fm l).
    Proof.
      intro H. unfold de_bracketed. apply Ends_group; try (destruct fm; discriminate).
      - intro HK. apply Ends_list. exact (H HK).
      - intros. apply Ends_ret.
    Qed.
    Lemma Ends_field K f : Ends K 1 (de (f_ty f)) -> Ends K 1 (de_field de f).
    Proof. intro H. unfold de_field. destruct (f_isopt f && f_hasproxy f); [apply Ends_map|]; exact H. Qed.
    Lemma find_field_in key fs i j f : find_field key fs i = Some (j, f) -> In f fs.
    Proof.
      revert i; induction fs as [|g fs IH]; intros i H; cbn [find_field] in H; [discriminate|].
      destruct (negb (f_skip g) && str_eqb (field_key g) key); [injection H as _ ->; left; reflexivity|]. right. eapply IH; exact H.
    Qed.
    (** Skipping a member: from its colon on. *)
    Definition Skips (K : nat) : Prop := Ends K 1 (pbind (p_colon L) (fun _ => whole_field L n)).
    Lemma named_body_ends K fs acc u : (fm = Json -> fs <> [] -> forall K', (K' < K)%nat -> Skips K') ->
      ((2 <= K)%nat -> Forall (fun f => Ends (K - 2) 1 (de (f_ty f))) fs) ->
      tok_is (l_tok L u) (k_key fm) = true -> Good (t_toks u) (t_bad u) -> (length (t_toks u) <= K)%nat ->
      endsat 1 (named_body L fm de n fs acc) u.
    Proof.
      intros Hs Hf Hk Hg Hl. apply kind_is in Hk.
      assert (Hne : t_toks u <> []) by (apply not_eof; rewrite Hk; destruct fm; discriminate).
      assert (HK : (1 <= K)%nat) by (destruct (t_toks u); [congruence | cbn in Hl; lia]).
      assert (Hnx : forall A (m : unit -> @pm tst A) k2, Ends (K - 1) k2 (pbind (p_colon L) m) ->
                endsat (1 + k2) (pbind (p_next_colon L) m) u).
      { intros A m k2 H. pose proof (endsat_bind K 1 k2 (l_next L) (fun _ => pbind (p_colon L) m) u Hg Hl (next_endsat1 u Hne) (fun _ _ => H)) as E.
        unfold endsat in *. unfold p_next_colon. unfold pbind in *. destruct (l_next L u) as [u1 [v|e|p|]]; auto. }
      unfold named_body.
      destruct fs as [|f0 fs].
      - (* no field at all: an error *)
        cbn [find_field]. unfold pbind. unfold eat_scomma, eat_comma.
        unfold endsat. rewrite Hk. destruct fm; cbn [k_key k_sclose tok_is]; exact I.
      - set (FS := f0 :: fs) in *. 
        set (m := fun s : tst => _) in |- *.
        assert (Hm : endsat 1 m u).
        { unfold m, endsat. destruct (find_field (key_of L fm u) FS 0) as [[i f]|] eqn:E.
          - apply find_field_in in E. apply (endsat_weak 1 (1 + 1) _ u); [lia|]. apply Hnx.
            apply (Ends_then _ 1 1 0); [lia | apply Ends_colon |]. intros HK2 _.
            apply (Ends_then _ 0 1 0); [lia | | intros _ v; apply Ends_ret]. apply Ends_field.
            assert (H2 : (2 <= K)%nat) by lia. specialize (Hf H2). rewrite Forall_forall in Hf. 
            eapply Ends_weak; [| |exact (Hf f E)]; lia.
          - assert (Hc : fm = Json \/ fm = Ron) by (destruct fm; auto). destruct Hc as [Ef|Ef].
            + specialize (Hs Ef ltac:(discriminate) (K - 1)%nat ltac:(lia)). unfold Skips in Hs.
              rewrite Ef. apply (endsat_weak 1 (1 + 1) _ u); [lia|].
              apply Hnx. intros u1 G1 L1. specialize (Hs u1 G1 L1). unfold endsat in *. unfold pbind in *.
              destruct (p_colon L u1) as [u2 [v|e|p|]]; auto. destruct (whole_field L n u2) as [u3 [v'|e|p|]]; auto.
            + rewrite Ef. exact I. }
        apply (endsat_weak 1 (1 + 0) _ u); [lia|]. apply (endsat_bind K 1 0 m _ u Hg Hl Hm).
        intros _ a. apply (Ends_then _ 0 0 0); [lia | apply Ends_eat |]. intros _ _. apply Ends_ret.
    Qed.
    Lemma Ends_unwrap K dflt fs l : Ends K 0 (unwrap_fields L dflt fs l).
    Proof.
      revert l; induction fs as [|f fs IH]; intros [|o l]; cbn [unwrap_fields]; try apply Ends_ret.
      apply (Ends_then _ 0 0 0); [lia | |].
      - unfold unwrap_field. destruct o; [destruct (f_skip f); apply Ends_ret|]. destruct (f_default f); [apply Ends_ret|].
        destruct (f_skip f || f_isopt f || dflt); [apply Ends_ret | apply Ends_err].
      - intros _ v. rewrite Nat.sub_0_r. apply (Ends_then _ 0 0 0); [lia | apply IH |]. intros _ r. apply Ends_ret.
    Qed.
    Lemma Ends_named K dflt fs : (K < n)%nat -> (fm = Json -> fs <> [] -> forall K', (K' < K)%nat -> Skips K') ->
      ((1 <= K)%nat -> Forall (fun f => Ends (K - 1) 1 (de (f_ty f))) fs) -> Ends K 1 (de_named L fm de n dflt fs).
    Proof.
      intros Hn Hs Hf. unfold de_named. apply Ends_group; try (destruct fm; discriminate).
      - intro HK. apply Ends_while; [|lia]. intros a u Hc Hg Hl. apply (named_body_ends (K - 1)); auto.
        + intros Ef Hne K' HK'. apply Hs; auto. lia.
        + intro H2. eapply Forall_impl; [|exact (Hf HK)]. intros f Hff. eapply Ends_weak; [| |exact Hff]; lia.
      - intros. apply Ends_unwrap.
    Qed.
    Lemma find_variant_in p vs i j v : find_variant p vs i = Some (j, v) -> In v vs.
    Proof.
      revert i; induction vs as [|w vs IH]; intros i H; cbn [find_variant] in H; [discriminate|].
      destruct (p w); [injection H as _ ->; left; reflexivity|]. right. eapply IH; exact H.
    Qed.
    Definition variant_ends (K : nat) (v : variant) : Prop :=
      match v_body v with
      | BUnit => True
      | BTuple ts => (1 <= K)%nat -> Forall (fun t => Ends (K - 1) 1 (de t)) ts
      | BStruct fs => (1 <= K)%nat -> Forall (fun f => Ends (K - 1) 1 (de (f_ty f))) fs
      end.
    Definition variant_skips (K : nat) (v : variant) : Prop :=
      match v_body v with BStruct fs => fm = Json -> fs <> [] -> forall K', (K' < K)%nat -> Skips K' | _ => True end.
    Lemma variant_ends_le K K' v : (K' <= K)%nat -> variant_ends K v -> variant_ends K' v.
    Proof.
      intros H. unfold variant_ends. destruct (v_body v); auto; intros H1 H2; (eapply Forall_impl; [|apply H1; lia]);
        intros x Hx; (eapply Ends_weak; [| |exact Hx]; lia).
    Qed.
    Lemma variant_skips_le K K' v : (K' <= K)%nat -> variant_skips K v -> variant_skips K' v.
    Proof. intros H. unfold variant_skips. destruct (v_body v); auto. intros H1 H2 H3 K2 H4. apply H1; auto. lia. Qed.
    Lemma Ends_body K tag v : (K < n)%nat -> variant_ends K v -> variant_skips K v -> Ends K 0 (de_body L fm de n tag (v_body v)).
    Proof.
      intros Hn Hv Hs. unfold variant_ends, variant_skips in *. destruct (v_body v) as [|ts|fs]; cbn [de_body].
      - apply Ends_ret.
      - apply (Ends_weak K K 0 1); [lia | lia |]. apply Ends_map, Ends_bracketed. intro HK. rewrite Forall_map.
        eapply Forall_impl; [|exact (Hv HK)]. intros t Ht. apply Ends_item. exact Ht.
      - apply (Ends_weak K K 0 1); [lia | lia |]. apply Ends_map, Ends_named; auto.
    Qed.
    Lemma Ends_enum_json K vs : (K < n)%nat -> ((1 <= K)%nat -> Forall (variant_ends (K - 1)) vs) ->
      ((1 <= K)%nat -> Forall (variant_skips (K - 1)) vs) -> Ends K 1 (de_enum_json L fm de n vs).
    Proof.
      intros Hn Hv Hs u Hg Hl. unfold endsat, de_enum_json.
      destruct (tok_is (l_tok L u) KCurlyOpen && existsb (fun v => negb (is_unit v)) vs).
      - match goal with |- match ?e u with _ => _ end => set (m := e) end.
        assert (Hm : Ends K 1 m); [|exact (Hm u Hg Hl)]. unfold m.
        apply (Ends_then _ 1 1 0); [lia | apply Ends_expect; discriminate |]. intros HK _. specialize (Hv HK). specialize (Hs HK).
        apply (Ends_then _ 0 1 0); [lia | apply Ends_expect; discriminate |]. intros HK2 _.
        apply (Ends_then _ 0 1 0); [lia | apply Ends_colon |]. intros HK3 _ u1 G1 L1. unfold endsat.
        destruct (find_variant _ vs 0) as [[i v]|] eqn:E; [|exact I]. apply find_variant_in in E.
        rewrite Forall_forall in Hv, Hs.
        match goal with |- match ?e u1 with _ => _ end => set (m2 := e) end.
        assert (Hm2 : Ends (K - 1 - 1 - 1) 0 m2); [|exact (Hm2 u1 G1 L1)]. unfold m2.
        apply (Ends_then _ 0 0 0); [lia | |].
        + apply Ends_body; [lia | eapply variant_ends_le; [|apply Hv; exact E]; lia | eapply variant_skips_le; [|apply Hs; exact E]; lia].
        + intros _ r. apply (Ends_then _ 0 1 0); [lia | apply Ends_expect; discriminate |]. intros _ _. apply Ends_ret.
      - destruct (tok_is (l_tok L u) KStr && existsb is_unit vs).
        + match goal with |- match ?e u with _ => _ end => set (m := e) end.
          assert (Hm : Ends K 1 m); [|exact (Hm u Hg Hl)]. unfold m.
          apply (Ends_then _ 1 1 0); [lia | apply Ends_expect; discriminate |]. intros HK _ u1 G1 L1. unfold endsat.
          destruct (find_variant _ vs 0) as [[i v]|]; [|exact I]. exists []. repeat split. apply le_n.
        + exact I.
    Qed.
    Lemma Ends_enum_ron K vs : (K < n)%nat -> ((1 <= K)%nat -> Forall (variant_ends (K - 1)) vs) ->
      ((1 <= K)%nat -> Forall (variant_skips (K - 1)) vs) -> Ends K 1 (de_enum_ron L fm de n vs).
    Proof.
      intros Hn Hv Hs. unfold de_enum_ron.
      apply (Ends_then _ 1 1 0); [lia | apply Ends_expect; discriminate |]. intros HK _ u1 G1 L1.
      specialize (Hv HK). specialize (Hs HK). rewrite Forall_forall in Hv, Hs. unfold endsat.
      destruct (find_variant _ vs 0) as [[i v]|] eqn:E; [|exact I]. apply find_variant_in in E.
      apply (Ends_body (K - 1) i v); auto. lia.
    Qed.
  End Helpers.

  (** ** All types *)
  Variables (F : flt) (c : cfg) (G : env) (fm : fmt).
  Notation de := (de_text L F c G fm).
  Hypothesis HG : text_env fm G.
  Hypothesis Hskip : fm = Json -> ~ Forall no_skip_decl G -> forall n K, (K < n)%nat -> Skips n K.
  Definition time_node (t : ty) : Prop := match t with TDur => P PDuration | TTime => P PDuration /\ P PTime | _ => True end.
  Hypothesis HGt : env_all time_node G.
  Variable rank : nat -> nat.
  Hypothesis Hrank : forall i d j, nth_error G i = Some d -> In j (decl_at_once fm d) -> (rank j < rank i)%nat.

  Definition good_ty (t : ty) : Prop := ty_all (text_node fm G) t /\ ty_all time_node t.
  Definition Rets (K : nat) (t : ty) : Prop := exists N, forall n, (N <= n)%nat -> Ends K 1 (de n t).

  Lemma Rets_all K ts : Forall (Rets K) ts -> exists N, forall n, (N <= n)%nat -> Forall (fun t => Ends K 1 (de n t)) ts.
  Proof.
    induction 1 as [|t ts [N1 H1] _ [N2 H2]]; [exists O; intros; constructor|].
    exists (Nat.max N1 N2). intros n Hn. constructor; [apply H1; lia | apply H2; lia].
  Qed.
  Lemma Rets_fields K fs : Forall (fun f => Rets K (f_ty f)) fs -> exists N, forall n, (N <= n)%nat -> Forall (fun f => Ends K 1 (de n (f_ty f))) fs.
  Proof.
    intro H. destruct (Rets_all K (map f_ty fs)) as [N HN]; [rewrite Forall_map; exact H|].
    exists N. intros n Hn. specialize (HN n Hn). rewrite Forall_map in HN. exact HN.
  Qed.
  Lemma Rets_variants K vs :
    Forall (fun v => match v_body v with BUnit => True | BTuple ts => Forall (Rets K) ts | BStruct fs => Forall (fun f => Rets K (f_ty f)) fs end) vs ->
    exists N, forall n, (N <= n)%nat -> Forall (variant_ends (de n) K) vs.
  Proof.
    induction 1 as [|v vs H1 _ [N2 H2]]; [exists O; intros; constructor|].
    assert (Hone : exists N, forall n, (N <= n)%nat -> variant_ends (de n) K v).
    { unfold variant_ends. destruct (v_body v) as [|ts|fs]; [exists O; auto| |].
      - destruct (Rets_all _ _ H1) as [N HN]. exists N. intros n Hn _. eapply Forall_impl; [|exact (HN n Hn)].
        intros t Ht. eapply Ends_weak; [| |exact Ht]; lia.
      - destruct (Rets_fields _ _ H1) as [N HN]. exists N. intros n Hn _. eapply Forall_impl; [|exact (HN n Hn)].
        intros t Ht. eapply Ends_weak; [| |exact Ht]; lia. }
    destruct Hone as [N1 HN1]. exists (Nat.max N1 N2). intros n Hn. constructor; [apply HN1; lia | apply H2; lia].
  Qed.
  Lemma good_fields fs : Forall (field_all (text_node fm G)) fs -> Forall (field_all time_node) fs -> Forall (fun f => good_ty (f_ty f)) fs.
  Proof. intros H1 H2. rewrite Forall_forall in *. intros f Hf. split; [apply H1 | apply H2]; exact Hf. Qed.
  Lemma good_list ts : Forall (ty_all (text_node fm G)) ts -> Forall (ty_all time_node) ts -> Forall good_ty ts.
  Proof. intros H1 H2. rewrite Forall_forall in *. intros f Hf. split; [apply H1 | apply H2]; exact Hf. Qed.

  Lemma struct_skips i dflt cn fs : nth_error G i = Some (DStruct dflt cn fs) -> fm = Json -> fs <> [] -> forall n K, (K < n)%nat -> Skips n K.
  Proof.
    intros E Ef Hne. apply Hskip; [exact Ef|]. intro H. apply nth_error_In in E. rewrite Forall_forall in H. specialize (H _ E). cbn in H. contradiction.
  Qed.
  Lemma enum_skips i vs n K : nth_error G i = Some (DEnum vs) -> (K <= n)%nat -> Forall (variant_skips fm n K) vs.
  Proof.
    intros E Hn. apply Forall_forall. intros v Hv. unfold variant_skips. destruct (v_body v) as [|ts|fs] eqn:Eb; auto.
    intros Ef Hne K' HK'. apply Hskip; [exact Ef| |lia]. intro H. apply nth_error_In in E. rewrite Forall_forall in H. specialize (H _ E).
    cbn in H. rewrite Forall_forall in H. specialize (H v Hv). rewrite Eb in H. contradiction.
  Qed.

  Lemma rets_ty K : (forall K', (K' < K)%nat -> forall t, good_ty t -> Rets K' t) ->
    forall r t, good_ty t -> (forall j, In j (at_once t) -> (rank j < r)%nat) -> Rets K t.
  Proof.
    intros HB. induction r as [r IHr] using lt_wf_ind. intro t.
    induction t as [k| | | | | |t' IHt|k t' IHt|k tk tv IHk IHv|m t' IHt|ts IHts|t' IHt| | |p t' IHt|i] using ty_ind2; intros [Hg Ht] Hu;
      cbn [ty_all] in Hg, Ht; destruct Hg as [Hg0 Hg], Ht as [Ht0 Ht]; cbn [text_node time_node] in Hg0, Ht0.
    - exists 1%nat. intros [|n] Hn; [lia|]. cbn [de_text]. apply Ends_int; tauto.
    - exists 1%nat. intros [|n] Hn; [lia|]. cbn [de_text]. apply Ends_map, Ends_f64.
    - exists 1%nat. intros [|n] Hn; [lia|]. cbn [de_text]. apply Ends_map, Ends_f64.
    - exists 1%nat. intros [|n] Hn; [lia|]. cbn [de_text]. apply Ends_bool.
    - exists 1%nat. intros [|n] Hn; [lia|]. cbn [de_text]. apply Ends_map, Ends_str.
    - exists 1%nat. intros [|n] Hn; [lia|]. cbn [de_text]. assert (Hc : fm = Json \/ fm = Ron) by (destruct fm; auto). destruct Hc as [Ef|Ef]; rewrite Ef.
      + apply (Ends_then _ 1 1 0); [lia | apply Ends_expect; discriminate |]. intros _ _. apply Ends_ret.
      + apply (Ends_then _ 1 1 0); [lia | apply Ends_expect; discriminate |]. intros _ _.
        apply (Ends_then _ 0 1 0); [lia | apply Ends_expect; discriminate |]. intros _ _. apply Ends_ret.
    - destruct (IHt (conj Hg Ht) Hu) as [N HN]. exists (S N). intros [|n] Hn; [lia|]. cbn [de_text]. apply Ends_opt, HN. lia.
    - destruct (le_lt_dec 1 K) as [HK|HK].
      + destruct (HB (K - 1)%nat ltac:(lia) t' (conj Hg Ht)) as [N HN]. exists (S (S (K + N))). intros [|n] Hn; [lia|]. cbn [de_text].
        apply Ends_map, Ends_seq; [lia|]. intros _. apply HN. lia.
      + exists (S (S K)). intros [|n] Hn; [lia|]. cbn [de_text]. apply Ends_map, Ends_seq; [lia|]. lia.
    - destruct Hg as [Hg1 Hg2], Ht as [Ht1 Ht2]. destruct (le_lt_dec 1 K) as [HK|HK].
      + destruct (HB (K - 1)%nat ltac:(lia) tk (conj Hg1 Ht1)) as [N1 HN1]. destruct (HB (K - 1)%nat ltac:(lia) tv (conj Hg2 Ht2)) as [N2 HN2].
        exists (S (S (K + N1 + N2))). intros [|n] Hn; [lia|]. cbn [de_text].
        apply Ends_map, Ends_mapk; [lia | |]; intros _; [apply HN1 | apply HN2]; lia.
      + exists (S (S K)). intros [|n] Hn; [lia|]. cbn [de_text]. apply Ends_map, Ends_mapk; lia.
    - destruct (le_lt_dec 1 K) as [HK|HK].
      + destruct (HB (K - 1)%nat ltac:(lia) t' (conj Hg Ht)) as [N HN]. exists (S N). intros [|n] Hn; [lia|]. cbn [de_text].
        apply Ends_map, Ends_bracketed. intros _. apply Forall_forall. intros p Hp. apply repeat_spec in Hp. subst p. apply Ends_item, HN. lia.
      + exists 1%nat. intros [|n] Hn; [lia|]. cbn [de_text]. apply Ends_map, Ends_bracketed. lia.
    - apply ty_all_list in Hg. apply ty_all_list in Ht.
      assert (Ha : tuple_arity (length ts) = true).
      { unfold tuple_arity. apply andb_true_intro. split; apply Nat.leb_le; lia. }
      destruct (le_lt_dec 1 K) as [HK|HK].
      + destruct (Rets_all (K - 1) ts) as [N HN].
        { eapply Forall_impl; [|exact (good_list ts Hg Ht)]. intros t Hgt. apply HB; [lia | exact Hgt]. }
        exists (S N). intros [|n] Hn; [lia|]. cbn [de_text]. rewrite Ha. apply Ends_map, Ends_bracketed. intros _. rewrite Forall_map.
        eapply Forall_impl; [|exact (HN n ltac:(lia))]. intros t Hen. apply Ends_block. exact Hen.
      + exists 1%nat. intros [|n] Hn; [lia|]. cbn [de_text]. rewrite Ha. apply Ends_map, Ends_bracketed. lia.
    - destruct (IHt (conj Hg Ht) Hu) as [N HN]. exists (S N). intros [|n] Hn; [lia|]. cbn [de_text]. apply HN. lia.
    - exists (S (S K)). intros [|n] Hn; [lia|]. cbn [de_text]. apply Ends_dur; [lia | exact Ht0].
    - exists (S (S K)). intros [|n] Hn; [lia|]. cbn [de_text]. apply Ends_time; [lia | tauto | tauto].
    - destruct (IHt (conj Hg Ht) Hu) as [N HN]. exists (S N). intros [|n] Hn; [lia|]. cbn [de_text]. rewrite Hg0. apply Ends_map.
      rewrite Hg0 in HN. apply HN. lia.
    - assert (Hi : (rank i < r)%nat) by (apply Hu; left; reflexivity).
      destruct (nth_error G i) as [d|] eqn:EG; [|apply nth_error_None in EG; lia].
      destruct HG as [HG1 HG2]. pose proof (env_all_nth _ _ _ _ HG1 EG) as D1. pose proof (env_all_nth _ _ _ _ HGt EG) as D2.
      assert (D3 : text_decl fm d). { rewrite Forall_forall in HG2. apply HG2. eapply nth_error_In; exact EG. }
      destruct d as [dflt cn fs|tr fs|vs|p t'].
      + destruct (le_lt_dec 1 K) as [HK|HK].
        * destruct (Rets_fields (K - 1) fs) as [N HN].
          { eapply Forall_impl; [|exact (good_fields fs D1 D2)]. intros f Hgf. apply HB; [lia | exact Hgf]. }
          exists (S (S (K + N))). intros [|n] Hn; [lia|]. cbn [de_text]. rewrite EG. apply Ends_map, Ends_named; [lia | |intros _; apply HN; lia].
          intros Ef Hne K' HK'. eapply struct_skips; eauto. lia.
        * exists (S (S K)). intros [|n] Hn; [lia|]. cbn [de_text]. rewrite EG. apply Ends_map, Ends_named; [lia | |lia].
          intros Ef Hne K' HK'. lia.
      + assert (Hp : existsb f_hasproxy fs = false).
        { destruct D3 as [D3 _]. clear -D3. induction D3 as [|f fs Hf _ IH]; [reflexivity|]. cbn. rewrite Hf. exact IH. }
        assert (Hc : (fm = Json /\ exists f, tr = true /\ fs = [f]) \/
                     (forall n, (if existsb f_hasproxy fs then pfail (Panic PNotCompiled)
                        else match fm, fs with Ron, [] => pfail (Panic PNotCompiled) | _, _ => pmap VSeq (de_unnamed L fm (de n) tr fs) end) =
                        pmap VSeq (match fm, fs with
                                   | Json, [] => pbind (expect L KCurlyOpen (chars "{")) (fun _ => pbind (expect L KCurlyClose (chars "}")) (fun _ => pret []))
                                   | Json, [f] => de_bracketed L fm [de n (f_ty f)]
                                   | _, _ => de_bracketed L fm (map (fun f => de_item L fm (de n) (f_ty f)) fs) end))).
        { rewrite Hp. destruct D3 as [_ D3]. assert (Hc : fm = Json \/ fm = Ron) by (destruct fm; auto). unfold de_unnamed. destruct Hc as [Ef|Ef].
          - destruct fs as [|f [|f2 fs]]; [right; intro; rewrite Ef; reflexivity | | right; intro; rewrite Ef; reflexivity].
            destruct tr; [left; split; eauto | right; intro; rewrite Ef; reflexivity].
          - right. intro. specialize (D3 Ef). destruct fs; [congruence|]. rewrite Ef. reflexivity. }
        destruct Hc as [(Ef & f & -> & ->)|Hc].
        * destruct (IHr (rank i) Hi (f_ty f)) as [N HN].
          { split; [apply Forall_inv in D1; exact D1 | apply Forall_inv in D2; exact D2]. }
          { intros j Hj. eapply Hrank; [exact EG|]. rewrite Ef. exact Hj. }
          exists (S N). intros [|n] Hn; [lia|]. cbn [de_text]. rewrite EG, Hp. rewrite Ef in *. cbn [de_unnamed]. apply Ends_map, Ends_map. apply HN. lia.
        * pose proof (good_fields fs D1 D2) as Hgf.
          assert (Hall : exists N, forall n, (N <= n)%nat -> (1 <= K)%nat -> Forall (fun f => Ends (K - 1) 1 (de n (f_ty f))) fs).
          { destruct (le_lt_dec 1 K) as [HK|HK]; [|exists O; lia].
            destruct (Rets_fields (K - 1) fs) as [N HN]; [|exists N; intros n Hn _; apply HN; exact Hn].
            eapply Forall_impl; [|exact Hgf]. intros f Hff. apply HB; [lia | exact Hff]. }
          destruct Hall as [N HN]. exists (S N). intros [|n] Hn; [lia|]. cbn [de_text]. rewrite EG, Hc. apply Ends_map.
          assert (Hit : Ends K 1 (de_bracketed L fm (map (fun f => de_item L fm (de n) (f_ty f)) fs))).
          { apply Ends_bracketed. intro HK. rewrite Forall_map. eapply Forall_impl; [|exact (HN n ltac:(lia) HK)].
            intros f Hff. apply Ends_item. exact Hff. }
          assert (Hc2 : fm = Json \/ fm = Ron) by (destruct fm; auto). destruct Hc2 as [Ef|Ef]; rewrite Ef in *; [|exact Hit].
          destruct fs as [|f [|f2 fs]]; [| |exact Hit].
          -- apply (Ends_then _ 1 1 0); [lia | apply Ends_expect; discriminate |]. intros _ _.
             apply (Ends_then _ 0 1 0); [lia | apply Ends_expect; discriminate |]. intros _ _. apply Ends_ret.
          -- apply Ends_bracketed. intro HK. constructor; [|constructor]. specialize (HN n ltac:(lia) HK). apply Forall_inv in HN. exact HN.
      + assert (Hall : exists N, forall n, (N <= n)%nat -> (1 <= K)%nat -> Forall (variant_ends (de n) (K - 1)) vs).
        { destruct (le_lt_dec 1 K) as [HK|HK]; [|exists O; lia].
          destruct (Rets_variants (K - 1) vs) as [N HN]; [|exists N; intros n Hn _; apply HN; exact Hn].
          apply Forall_forall. intros v Hv. cbn in D1, D2. rewrite Forall_forall in D1, D2. specialize (D1 v Hv). specialize (D2 v Hv).
          destruct (v_body v) as [|ts|fs]; [exact I| |].
          - eapply Forall_impl; [|exact (good_list ts D1 D2)]. intros t Hgt. apply HB; [lia | exact Hgt].
          - eapply Forall_impl; [|exact (good_fields fs D1 D2)]. intros f Hgf. apply HB; [lia | exact Hgf]. }
        destruct Hall as [N HN]. exists (S (S (K + N))). intros [|n] Hn; [lia|]. cbn [de_text]. rewrite EG.
        assert (Hsk : (1 <= K)%nat -> Forall (variant_skips fm n (K - 1)) vs) by (intro; eapply enum_skips; [exact EG | lia]).
        specialize (HN n ltac:(lia)).
        assert (Hc2 : fm = Json \/ fm = Ron) by (destruct fm; auto). destruct Hc2 as [Ef|Ef]; rewrite Ef in *.
        * apply Ends_enum_json; auto. lia.
        * apply Ends_enum_ron; auto. lia.
      + destruct (IHr (rank i) Hi t') as [N HN].
        { split; assumption. }
        { intros j Hj. eapply Hrank; [exact EG|]. exact Hj. }
        exists (S N). intros [|n] Hn; [lia|]. cbn [de_text]. rewrite EG. cbn in D3. rewrite D3 in *. apply Ends_map. apply HN. lia.
  Qed.

  Theorem rets_all K : forall t, good_ty t -> Rets K t.
  Proof.
    induction K as [K IH] using lt_wf_ind. intros t Ht.
    apply (rets_ty K) with (r := S (list_max (map rank (at_once t)))); auto.
    intros j Hj. apply Nat.lt_succ_r.
    assert (Hm := list_max_le (map rank (at_once t)) (list_max (map rank (at_once t)))).
    destruct Hm as [Hm _]. specialize (Hm (le_n _)). rewrite Forall_forall in Hm. apply Hm. apply in_map. assumption.
  Qed.
End Ends.
