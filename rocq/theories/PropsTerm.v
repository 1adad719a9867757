(** C26, C27, C37: decoding ends, and how it can end. *)
From Verif Require Import Base Utf8 Types TyAll BinModel BinRead SpecBin Text TextModel TextSim TextToks TextLex TextRead SpecText SpecGram SpecObj SpecList SpecTerm TextRound TextGram TextSpace TextMain TextFuel TextLocal TextRun TextEmbed TextObj TextEx TextTerm TextGood PropsBin PropsText PropsObj PropsList.
Local Open Scope N_scope.

(** How a run may end. *)
Definition ends_in (P : panic -> Prop) (r : res terr val) : Prop :=
  match r with Ok _ | Err _ => True | Panic p => P p | NoFuel => False end.

Section Gen.
  Variables (F : flt) (c : cfg) (G : env) (fm : fmt) (P : panic -> Prop).
  Lemma run_ends (Good : list ltok -> bool -> Prop) t text :
    (forall a l b, Good (a ++ l) b -> Good l b) ->
    text_env fm G -> text_guarded fm G -> text_ty fm G t ->
    env_all (time_node P) G -> ty_all (time_node P) t ->
    (fm = Json -> ~ Forall no_skip_decl G -> forall n K, (K < n)%nat -> Skips P False Good n K) ->
    (let (l, b) := lexs F fm text in Good l b) ->
    exists r, parses F c G fm t text r /\ ends_in P r.
  Proof.
    intros Hs HG [rank Hr] Ht HGt Htt Hsk Hg. destruct (lexs F fm text) as [l b] eqn:E.
    assert (Hc : (l = [] /\ b = true) \/ go_on l b).
    { destruct l; [destruct b; [left; auto | right; right; reflexivity] | right; left; discriminate]. }
    destruct Hc as [[-> ->]|Hgo].
    { destruct (run_bad F c G fm 0 t text E) as [e He]. exists (Err e). split; [|exact I].
      eapply de_text_returns; [exact He | discriminate]. }
    destruct (rets_all P False Good Hs F c G fm HG Hsk HGt rank Hr (length l) t (conj Ht Htt)) as [N HN].
    specialize (HN N (le_n N) (st0 l b) Hg (le_n _)). unfold endsat in HN.
    pose proof (run_agree F c G fm N t text l b E Hgo) as A.
    destruct (de_text L F c G fm N t (st0 l b)) as [u r]. cbn [snd] in A. exists (deserialize_text F c G fm N t text).
    split.
    - eapply de_text_returns; [reflexivity|]. intro X. rewrite X in A. destruct r; try contradiction.
    - destruct (deserialize_text F c G fm N t text), r; try contradiction; cbn in *; try exact I; congruence.
  Qed.
  (** Without a promise that the run ends. *)
  Lemma run_panics t text p :
    text_env fm G -> text_guarded fm G -> text_ty fm G t ->
    env_all (time_node P) G -> ty_all (time_node P) t -> P PUnimplemented ->
    parses F c G fm t text (Panic p) -> P p.
  Proof.
    intros HG [rank Hr] Ht HGt Htt Hu [n0 Hp]. destruct (lexs F fm text) as [l b] eqn:E.
    assert (Hc : (l = [] /\ b = true) \/ go_on l b).
    { destruct l; [destruct b; [left; auto | right; right; reflexivity] | right; left; discriminate]. }
    destruct Hc as [[-> ->]|Hgo].
    { destruct (run_bad F c G fm n0 t text E) as [e He]. rewrite (Hp n0 (le_n _)) in He. discriminate. }
    destruct (rets_all P True (fun _ _ => True) ltac:(auto) F c G fm HG ltac:(intros; apply skips_any; assumption) HGt rank Hr (length l) t (conj Ht Htt)) as [N HN].
    set (n := Nat.max N n0). specialize (HN n ltac:(lia) (st0 l b) I (le_n _)). unfold endsat in HN.
    pose proof (run_agree F c G fm n t text l b E Hgo) as A. rewrite (Hp n ltac:(lia)) in A.
    destruct (de_text L F c G fm n t (st0 l b)) as [u r]. cbn [snd] in A.
    destruct r; try contradiction; cbn in A; subst; exact HN.
  Qed.
End Gen.


Lemma ty_all_imp (Q R : ty -> Prop) t : (forall x, Q x -> R x) -> ty_all Q t -> ty_all R t.
Proof.
  intro H. revert t. apply (ty_ind2 (fun t => ty_all Q t -> ty_all R t)); cbn [ty_all]; try (intros; intuition (auto; fail)).
  intros ts IH [H1 H2]. split; [auto|]. apply ty_all_list. apply ty_all_list in H2.
  rewrite Forall_forall in *. auto.
Qed.
Lemma decl_all_imp (Q R : ty -> Prop) d : (forall x, Q x -> R x) -> decl_all Q d -> decl_all R d.
Proof.
  intros H Hd.
  assert (Hfs : forall fs, Forall (field_all Q) fs -> Forall (field_all R) fs).
  { intros fs Hf. rewrite Forall_forall in *. intros f Hi. eapply ty_all_imp; [exact H | exact (Hf f Hi)]. }
  destruct d as [? ? fs|? fs|vs|p t]; cbn in *; auto.
  - rewrite Forall_forall in *. intros v Hv. specialize (Hd v Hv). destruct (v_body v); cbn in *; auto.
    rewrite Forall_forall in *. intros x Hx. eapply ty_all_imp; [exact H | auto].
  - eapply ty_all_imp; eauto.
Qed.
Lemma env_all_imp (Q R : ty -> Prop) G : (forall x, Q x -> R x) -> env_all Q G -> env_all R G.
Proof. intros H HG. unfold env_all in *. rewrite Forall_forall in *. intros d Hd. eapply decl_all_imp; eauto. Qed.
Lemma ty_all_true (R : ty -> Prop) t : (forall x, R x) -> ty_all R t.
Proof.
  intro H. revert t. apply (ty_ind2 (fun t => ty_all R t)); cbn [ty_all]; auto.
  intros ts IH. split; [auto|]. apply ty_all_list. exact IH.
Qed.
Lemma env_all_true (R : ty -> Prop) G : (forall x, R x) -> env_all R G.
Proof.
  intros H. assert (Hfs : forall fs, Forall (field_all R) fs).
  { intros fs. apply Forall_forall. intros f _. apply ty_all_true, H. }
  apply Forall_forall. intros d _. destruct d as [? ? fs|? fs|vs|p t]; cbn; auto.
  - apply Forall_forall. intros v Hv. destruct (v_body v); cbn; auto. apply Forall_forall. intros. apply ty_all_true, H.
  - apply ty_all_true, H.
Qed.

(** The outcome is a value or an error. *)
Definition answers (F : flt) (c : cfg) (G : env) (fm : fmt) (t : ty) (text : str) : Prop :=
  (exists v, parses F c G fm t text (Ok v)) \/ rejects F c G fm t text.
Lemma answers_of F c G fm t text (P : panic -> Prop) : (forall p, ~ P p) ->
  (exists r, parses F c G fm t text r /\ ends_in P r) -> answers F c G fm t text.
Proof.
  intros H (r & Hp & He). destruct r as [v|e|p|]; cbn in He.
  - left. eauto.
  - right. exists e. exact Hp.
  - destruct (H p He).
  - contradiction.
Qed.
(** The panics of the two clock types. *)
Definition clock_panic (p : panic) : Prop := p = PDuration \/ p = PTime.
Definition no_panic (p : panic) : Prop := False.
Lemma clock_node (P : panic -> Prop) x : P PDuration -> P PTime -> time_node P x.
Proof. intros H1 H2. destruct x; cbn; auto. Qed.
Lemma quiet_node x : no_time x -> time_node no_panic x.
Proof. destruct x; cbn; tauto. Qed.

(** ** C37 RON: every input, every type *)
Theorem C37_ron_terminates F c G t text : text_env Ron G -> text_guarded Ron G -> text_ty Ron G t ->
  exists r, parses F c G Ron t text r /\ ends_in clock_panic r.
Proof.
  intros HG Hg Ht. apply (run_ends F c G Ron clock_panic (fun _ _ => True)); auto.
  - apply env_all_true. intro x. apply clock_node; [left | right]; reflexivity.
  - apply ty_all_true. intro x. apply clock_node; [left | right]; reflexivity.
  - discriminate.
  - destruct (lexs F Ron text). exact I.
Qed.
Theorem C37_ron_no_panic F c G t text : text_env Ron G -> text_guarded Ron G -> text_ty Ron G t ->
  env_all no_time G -> ty_all no_time t -> answers F c G Ron t text.
Proof.
  intros HG Hg Ht H1 H2. apply (answers_of F c G Ron t text no_panic); [intros p []|].
  apply (run_ends F c G Ron no_panic (fun _ _ => True)); auto.
  - eapply env_all_imp; [exact quiet_node | exact H1].
  - eapply ty_all_imp; [exact quiet_node | exact H2].
  - discriminate.
  - destruct (lexs F Ron text). exact I.
Qed.
(** The two clock types do panic, in both formats: [Duration::new] carries a full
    second over the largest u64, and the epoch plus 2^64-1 seconds is no SystemTime. *)
Theorem C37_refuted_clock F c G fm : 
  parses F c G fm TDur (chars "{""secs"":18446744073709551615,""nanos"":1000000000}") (Panic PDuration) /\
  (time_max c < 18446744073709551615 -> parses F c G fm TTime (chars "{""secs"":18446744073709551615}") (Panic PTime)).
Proof.
  split.
  - destruct fm; (eapply (de_text_returns _ _ _ _ 12); [vm_compute; reflexivity | discriminate]).
  - intro H. assert (E : lexs F fm (chars "{""secs"":18446744073709551615}") = ([LP KCurlyOpen; LStr (chars "secs"); LP KColon; LP (KU64 18446744073709551615); LP KCurlyClose], false)) by (destruct fm; vm_compute; reflexivity).
    eapply parses_panic; [exact E | left; discriminate |].
    assert (D : snd (de_dur L 4 (st0 [LP KCurlyOpen; LStr (chars "secs"); LP KColon; LP (KU64 18446744073709551615); LP KCurlyClose] false)) = Ok (VDur 18446744073709551615 0)) by (vm_compute; reflexivity).
    exists 5%nat. cbn [de_text]. unfold de_time, de_opt, pbind.
    replace (at_none L fm _) with false by (destruct fm; reflexivity). unfold pmap, pbind.
    destruct (de_dur L 4 _) as [u r] eqn:E2. cbn [snd] in D. subst r.
    unfold pret. replace (_ <=? time_max c) with false by (symmetry; apply N.leb_gt; exact H). reflexivity.
Qed.

(** ** C26, C27 JSON *)
(** Types without named members: every input. *)
Theorem C26_no_members F c G t text : text_env Json G -> text_guarded Json G -> text_ty Json G t ->
  Forall no_skip_decl G -> env_all no_time G -> ty_all no_time t -> answers F c G Json t text.
Proof.
  intros HG Hg Ht Hn H1 H2. apply (answers_of F c G Json t text no_panic); [intros p []|].
  apply (run_ends F c G Json no_panic (fun _ _ => True)); auto.
  - eapply env_all_imp; [exact quiet_node | exact H1].
  - eapply ty_all_imp; [exact quiet_node | exact H2].
  - intros _ X. contradiction.
  - destruct (lexs F Json text). exact I.
Qed.
(** Every type on every JSON text, with space and comments, whether or not it fits the type. *)
Theorem C26_valid_json_partial F c G t g1 s g2 : text_env Json G -> text_guarded Json G -> text_ty Json G t ->
  env_all no_time G -> ty_all no_time t ->
  gap g1 -> json gap any_number any_body s -> gap g2 -> answers F c G Json t (g1 ++ s ++ g2).
Proof.
  intros HG Hg Ht H1 H2 Hg1 Hs Hg2. apply (answers_of F c G Json t _ no_panic); [intros p []|].
  apply (run_ends F c G Json no_panic (fun l b => closed l b /\ colons l b)); auto.
  - intros a l b [X Y]. split; [eapply closed_suffix | eapply colons_suffix]; eassumption.
  - eapply env_all_imp; [exact quiet_node | exact H1].
  - eapply ty_all_imp; [exact quiet_node | exact H2].
  - intros _ _ n K HK. apply skips_good. exact HK.
  - destruct (lexs F Json (g1 ++ s ++ g2)) as [l b] eqn:E. apply (json_good F g1 s g2 l b Hg1 Hs Hg2 E).
Qed.
Lemma json_weaken (sp1 sp2 n1 n2 b1 b2 : str -> Prop) :
  (forall s, sp1 s -> sp2 s) -> (forall s, n1 s -> n2 s) -> (forall s, b1 s -> b2 s) ->
  (forall s, json sp1 n1 b1 s -> json sp2 n2 b2 s).
Proof.
  intros H1 H2 H3. 
  apply (json_mind sp1 n1 b1 (json sp2 n2 b2) (elements sp2 n2 b2) (members sp2 n2 b2)); intros;
    [apply js_word | apply js_num | apply js_str | apply js_arr0 | apply js_arr | apply js_obj0 | apply js_obj
    | apply el_one | apply el_more | apply me_one | apply me_more]; auto.
Qed.
Theorem C26_rfc_json_partial F c G t s : text_env Json G -> text_guarded Json G -> text_ty Json G t ->
  env_all no_time G -> ty_all no_time t -> rfc_json s -> answers F c G Json t s.
Proof.
  intros HG Hg Ht H1 H2 Hs. rewrite <- (app_nil_r s). change (s ++ []) with ([] ++ s ++ []).
  apply C26_valid_json_partial; auto; try exact gap_nil.
  revert s Hs. apply json_weaken.
  - intros s Hs. induction Hs; constructor; auto.
  - intros s (sg & ip & fr & ex & E & Hn & _). exists sg, ip, fr, ex. auto.
  - intros s [[x H] _]. exists x. apply rfc_chars. exact H.
Qed.
(** Whatever the text, only these panics. *)
Theorem C26_panics_partial F c G t text p : text_env Json G -> text_guarded Json G -> text_ty Json G t ->
  parses F c G Json t text (Panic p) -> p = PUnimplemented \/ clock_panic p.
Proof.
  intros HG Hg Ht. apply (run_panics F c G Json (fun p => p = PUnimplemented \/ clock_panic p)); auto.
  - apply env_all_true. intro x. apply clock_node; unfold clock_panic; auto.
  - apply ty_all_true. intro x. apply clock_node; unfold clock_panic; auto.
Qed.

(** ** C27 *)
(** Texts of tokens, space and comments with matching brackets. *)
Theorem C27_balanced_partial F c G t text : text_env Json G -> text_guarded Json G -> text_ty Json G t ->
  inside F Json text -> exists r, parses F c G Json t text r.
Proof.
  intros HG Hg Ht Hi. destruct (inside_lexes F Json text Hi) as (l & Hl & Hb).
  destruct (run_ends F c G Json (fun _ => True) (fun l b => closed l b) t text) as (r & Hr & _); auto.
  - intros a l' b X. eapply closed_suffix; eassumption.
  - apply env_all_true. intro x. apply clock_node; exact I.
  - apply ty_all_true. intro x. apply clock_node; exact I.
  - intros _ _ n K HK. apply skips_ok; [exact HK | exact I].
  - assert (E : lexs F Json text = (l, false)).
    { pose proof (Hl [] (or_introl eq_refl)) as E. rewrite app_nil_r in E. rewrite E. change (lexs F Json []) with (@nil ltok, false). unfold cat. cbn [fst snd]. rewrite app_nil_r. reflexivity. }
    rewrite E. apply bal_closed. exact Hb.
  - exists r. exact Hr.
Qed.
(** Types without named members: every input. *)
Theorem C27_no_members_partial F c G t text : text_env Json G -> text_guarded Json G -> text_ty Json G t ->
  Forall no_skip_decl G -> exists r, parses F c G Json t text r.
Proof.
  intros HG Hg Ht Hn. destruct (run_ends F c G Json (fun _ => True) (fun _ _ => True) t text) as (r & Hr & _); auto.
  - apply env_all_true. intro x. apply clock_node; exact I.
  - apply ty_all_true. intro x. apply clock_node; exact I.
  - intros _ X. contradiction.
  - destruct (lexs F Json text). exact I.
  - exists r. exact Hr.
Qed.


(** False of the code: a member the type does not know, with an opening bracket
    and then the end of the text, makes the reader loop; without a value it panics. *)
Lemma find_unknown k fs : ~ known fs k -> find_field k fs 0 = None.
Proof.
  intro H. destruct (find_field k fs 0) as [[j f]|] eqn:E; [|reflexivity]. exfalso. apply H.
  destruct (find_field_spec _ _ _ _ _ E) as (p & _ & Hp & Hs & Hk). exists f. split; [eapply nth_error_In; exact Hp | auto].
Qed.
Lemma member_lexs F g b k r : gap g -> chars_of b k ->
  lexs F Json (g ++ [123] ++ quoted b ++ 58 :: r) = (LP KCurlyOpen :: LStr k :: LP KColon :: fst (lexs F Json r), snd (lexs F Json r)).
Proof.
  intros Hg Hb. rewrite (gap_lexes F Json g Hg).
  rewrite (lexes_punct F Json 123 KCurlyOpen eq_refl (quoted b ++ 58 :: r)).
  rewrite (lexes_quoted F Json b k Hb (58 :: r)).
  change (58 :: r) with ([58] ++ r). rewrite (lexes_punct F Json 58 KColon eq_refl r). reflexivity.
Qed.
Definition unknown_st (k : str) (l : list ltok) (bad : bool) : tst := st0 (LP KCurlyOpen :: LStr k :: LP KColon :: l) bad.
(** What remains of the run after the colon of the first member. *)
Lemma unknown_run F c G i dflt nl fs n k x l bad (r : forall A, res terr A) : nth_error G i = Some (DStruct dflt nl fs) -> fs <> [] -> ~ known fs k ->
  (forall u, t_toks u = x :: l -> t_bad u = bad -> snd (whole_field L (S n) u) = r unit) ->
  (exists p, r = fun _ => Panic p) \/ r = (fun _ => NoFuel) ->
  snd (de_text L F c G Json (S (S n)) (TNamed i) (unknown_st k (x :: l) bad)) = r val.
Proof.
  intros HG Hfs Hk Hw Hr. cbn [de_text]. rewrite HG. unfold pmap, de_named.
  unfold pbind, expect, unknown_st. cbn [st0 tok_kind l_tok tok_lexer t_toks ltok_kind tok_is k_sopen l_next tok_next t_bad].
  cbn [while_]. cbn [l_tok tok_lexer tok_kind t_toks ltok_kind tok_is k_key].
  unfold pbind at 1. unfold named_body. unfold pbind at 1. unfold pbind at 1.
  cbn [key_of l_str tok_lexer t_sb ltok_str]. rewrite (find_unknown _ _ Hk).
  destruct fs as [|f fs]; [congruence|].
  unfold p_next_colon, p_colon, expect, pbind. cbn [l_next tok_lexer tok_next t_toks l_tok tok_kind ltok_kind tok_is t_bad t_sb t_ib].
  match goal with |- context [whole_field _ _ ?u] => specialize (Hw u eq_refl eq_refl); destruct (whole_field L (S n) u) as [u' r'] end.
  cbn [snd] in Hw. subst r'. destruct Hr as [[p ->] | ->]; reflexivity.
Qed.
(** [{"k":}] *)
Theorem C26_refuted F c G i dflt nl fs k b g x rest : nth_error G i = Some (DStruct dflt nl fs) -> fs <> [] ->
  gap g -> chars_of b k -> ~ known fs k -> In x [44; 58; 93; 125] ->
  parses F c G Json (TNamed i) (g ++ [123] ++ quoted b ++ 58 :: x :: rest) (Panic PUnimplemented).
Proof.
  intros HG Hfs Hg Hb Hk Hx.
  assert (E : exists t, lexs F Json (x :: rest) = (LP t :: fst (lexs F Json rest), snd (lexs F Json rest)) /\ (t = KComma \/ t = KColon \/ t = KBlockClose \/ t = KCurlyClose)).
  { cbn in Hx. destruct Hx as [<-|[<-|[<-|[<-|[]]]]]; (eexists; split; [match goal with |- lexs _ _ (?y :: _) = (LP ?T :: _, _) => change (y :: rest) with ([y] ++ rest); rewrite (lexes_punct F Json y T eq_refl rest); reflexivity end | auto]). }
  destruct E as (t & E & Ht).
  eapply parses_panic; [rewrite (member_lexs F g b k _ Hg Hb), E; reflexivity | left; discriminate |].
  exists 2%nat. cbn [fst snd]. apply (unknown_run F c G i dflt nl fs 0 k (LP t) _ _ (fun _ => Panic PUnimplemented) HG Hfs Hk); [|eauto].
  intros u Hu _. unfold whole_field. cbn [l_tok tok_lexer]. unfold tok_kind. rewrite Hu. cbn [ltok_kind].
  destruct Ht as [-> |[-> |[-> | ->]]]; reflexivity.
Qed.
(** [{"k":[] *)
Theorem C27_refuted F c G i dflt nl fs k b g g2 x : nth_error G i = Some (DStruct dflt nl fs) -> fs <> [] ->
  gap g -> chars_of b k -> ~ known fs k -> x = 91 \/ x = 123 -> gap g2 ->
  hangs F c G Json (TNamed i) (g ++ [123] ++ quoted b ++ 58 :: x :: g2).
Proof.
  intros HG Hfs Hg Hb Hk Hx Hg2.
  assert (E : exists t, lexs F Json (x :: g2) = ([LP t], false) /\ (t = KBlockOpen \/ t = KCurlyOpen)).
  { assert (E2 : lexs F Json g2 = ([], false)).
    { rewrite <- (app_nil_r g2). rewrite (gap_lexes F Json g2 Hg2). reflexivity. }
    destruct Hx as [-> | ->].
    - exists KBlockOpen. split; [|auto]. change (91 :: g2) with ([91] ++ g2). rewrite (lexes_punct F Json 91 KBlockOpen eq_refl g2), E2. reflexivity.
    - exists KCurlyOpen. split; [|auto]. change (123 :: g2) with ([123] ++ g2). rewrite (lexes_punct F Json 123 KCurlyOpen eq_refl g2), E2. reflexivity. }
  destruct E as (t & E & Ht).
  eapply parses_hang; [rewrite (member_lexs F g b k _ Hg Hb), E; reflexivity | left; discriminate |].
  intro n. destruct n as [|[|n]].
  - reflexivity.
  - cbn [de_text fst snd]. rewrite HG. reflexivity.
  - cbn [fst snd]. apply (unknown_run F c G i dflt nl fs n k (LP t) _ _ (fun _ => NoFuel) HG Hfs Hk); [|auto].
    intros u Hu Hub. unfold whole_field. cbn [l_tok tok_lexer]. unfold tok_kind. rewrite Hu. cbn [ltok_kind].
    assert (W : snd (whole_loop L (S n) 0 u) = NoFuel).
    { cbn [whole_loop]. unfold pbind. cbn [l_tok l_next tok_lexer]. unfold tok_kind, tok_next. rewrite Hu, Hub. cbn [ltok_kind].
      destruct Ht as [-> | ->]; (change (0 + 1 =? 0) with false; cbn iota; apply (whole_eof Json n (0 + 1) _ false); [|discriminate]).
      all: split; [split; [reflexivity | split; [reflexivity | exact I]] | reflexivity]. }
    destruct Ht as [-> | ->]; exact W.
Qed.

(** ** C28 *)
(** A list of the wrong length is an error (in JSON for types without members). *)
Theorem C28_wrong_length_error F c G fm m t xs text : text_env fm G -> text_guarded fm G -> text_ty fm G t ->
  env_all no_time G -> ty_all no_time t -> (fm = Json -> Forall no_skip_decl G) ->
  list_text F fm (tup_open fm) (tup_close fm) xs text -> length xs <> m -> rejects F c G fm (TArr m t) text.
Proof.
  intros HG Hg Ht H1 H2 H3 Hl Hm.
  assert (A : answers F c G fm (TArr m t) text).
  { destruct (fmt_eq_dec fm Json) as [E|E].
    - rewrite E in *. apply C26_no_members; auto; cbn [ty_all]; unfold text_ty; cbn [ty_all text_node no_time]; auto.
    - assert (E2 : fm = Ron) by (destruct fm; congruence). rewrite E2 in *. apply C37_ron_no_panic; auto; unfold text_ty; cbn [ty_all text_node no_time]; auto. }
  destruct A as [[v A]|A]; [|exact A]. destruct (C28_wrong_length F c G fm m t xs text v Hl Hm A).
Qed.

(** *** Examples *)
Lemma Gtx_env fm : text_env fm Gtx.
Proof.
  assert (H : fm = Json \/ fm = Ron) by (destruct fm; auto).
  destruct H as [-> | ->]; (split; [repeat (constructor; cbn); auto; try discriminate; try lia | repeat (constructor; cbn); auto; try discriminate]).
Qed.
Lemma Gtx_guarded fm : text_guarded fm Gtx.
Proof.
  exists (fun _ => 0%nat). intros i d j H. do 3 (destruct i as [|i]; [injection H as <-; destruct fm; intros []|]). destruct i; discriminate.
Qed.
Example C37_ex : exists r, parses toy c64 Gtx Ron (TNamed 1) (chars "(id:1,m:{""a"":tru") r /\ ends_in clock_panic r.
Proof. apply C37_ron_terminates; [apply Gtx_env | apply Gtx_guarded | cbn; lia]. Qed.
(** A type with a struct, an option and a map, and a JSON text that does not fit it. *)
Definition GM : env :=
  [DStruct false false [fld (chars "a") false (VZ 0) (TMap MBTree TStr (TSeq SVec (TOpt (TNamed 0))))]].
Lemma GM_env : text_env Json GM /\ text_guarded Json GM /\ env_all no_time GM.
Proof.
  split; [split; repeat (constructor; cbn); auto; try discriminate; lia|]. split; [|repeat (constructor; cbn)].
  exists (fun _ => 0%nat). intros i d j H. destruct i as [|i]; [injection H as <-; intros []|]. destruct i; discriminate.
Qed.
Example C26_ex : answers toy c64 GM Json (TNamed 0) (chars "{""zz"":[1e+5,{}],""a"":{""k"":[null,1]}}").
Proof.
  destruct GM_env as (H1 & H2 & H3). apply C26_rfc_json_partial; auto; [cbn; lia | cbn; tauto |].
  apply (js_obj _ _ _ (chars """zz"":[1e+5,{}],""a"":{""k"":[null,1]}")).
  assert (P0 : rfc_ws []) by constructor.
  assert (B : forall b, forallb (fun x => negb (x =? 34) && negb (x =? 92) && (32 <=? x)) b = true -> rfc_body b).
  { intros b H. split.
    - exists b. induction b as [|x b IH]; [constructor|]. cbn [forallb] in H. apply andb_prop in H as [H Hb].
      apply andb_prop in H as [H H3']. apply andb_prop in H as [H1' H2']. apply ch_plain; [lia | lia | lia | auto].
    - induction b as [|x b IH]; [constructor|]. cbn [forallb] in H. apply andb_prop in H as [H Hb]. apply andb_prop in H as [H H3'].
      constructor; [lia | auto]. }
  assert (D : forall x, 48 <= x <= 57 -> all_digits [x]) by (intros x Hx; split; [discriminate | repeat constructor; lia]).
  assert (N1 : forall x, 48 <= x <= 57 -> forall ex, number_parts [] [x] [] ex -> rfc_number ([x] ++ ex)).
  { intros x Hx ex H. exists [], [x], [], ex. repeat split; try apply H.
    destruct (N.eq_dec x 48) as [-> |Hn]; [left; reflexivity | right; intros r E; injection E; intros; congruence]. }
  apply (me_more _ _ _ [] (chars "zz") [] [] (chars "[1e+5,{}]") [] (chars """a"":{""k"":[null,1]}")); auto.
  - apply (js_arr _ _ _ (chars "1e+5,{}")). apply (el_more _ _ _ [] (chars "1e+5") [] (chars "{}")); auto.
    + apply js_num. apply (N1 49 ltac:(lia) (chars "e+5")). split; [left; reflexivity|]. split; [apply D; lia|]. split; [left; reflexivity|].
      right. exists 101, [43], [53]. split; [reflexivity|]. split; [auto|]. split; [auto | apply D; lia].
    + apply (el_one _ _ _ [] (chars "{}") []); auto. apply (js_obj0 _ _ _ []). exact P0.
  - apply (me_one _ _ _ [] (chars "a") [] [] (chars "{""k"":[null,1]}") []); auto.
    apply (js_obj _ _ _ (chars """k"":[null,1]")). apply (me_one _ _ _ [] (chars "k") [] [] (chars "[null,1]") []); auto.
    apply (js_arr _ _ _ (chars "null,1")). apply (el_more _ _ _ [] (chars "null") [] (chars "1")); auto.
    + apply js_word. left. reflexivity.
    + apply (el_one _ _ _ [] (chars "1") []); auto. apply js_num. apply (N1 49 ltac:(lia) []). split; [left; reflexivity|]. split; [apply D; lia|]. split; left; reflexivity.
Qed.
Definition GE2 : env := [DEnum [ {| v_name := chars "A"; v_rename := None; v_body := BUnit |};
                                 {| v_name := chars "B"; v_rename := None; v_body := BTuple [TBox (TNamed 0); TStr] |} ]].
Example C26_no_members_ex : answers toy c64 GE2 Json (TSeq SVec (TNamed 0)) (chars "[{""B"":[""A"",[[{").
Proof.
  apply C26_no_members; try (repeat (constructor; cbn); auto; try discriminate; lia).
  exists (fun _ => 0%nat). intros i d j H. destruct i as [|i]; [injection H as <-; intros []|]. destruct i; discriminate.
Qed.
Example C26_refuted_ex : parses toy c64 GM Json (TNamed 0) (chars "{""b"":}") (Panic PUnimplemented).
Proof.
  apply (C26_refuted toy c64 GM 0 false false [fld (chars "a") false (VZ 0) (TMap MBTree TStr (TSeq SVec (TOpt (TNamed 0))))] (chars "b") (chars "b") [] 125 []); try reflexivity; try discriminate.
  - constructor.
  - repeat (constructor; try discriminate).
  - intros (f & [<-|[]] & _ & H). discriminate.
  - right; right; right; left; reflexivity.
Qed.
Example C27_refuted_ex : hangs toy c64 GM Json (TNamed 0) (chars "{""b"":[").
Proof.
  apply (C27_refuted toy c64 GM 0 false false [fld (chars "a") false (VZ 0) (TMap MBTree TStr (TSeq SVec (TOpt (TNamed 0))))] (chars "b") (chars "b") [] [] 91); try reflexivity; try discriminate; try constructor.
  - discriminate.
  - discriminate.
  - discriminate.
  - constructor.
  - intros (f & [<-|[]] & _ & H). discriminate.
  - reflexivity.
Qed.
(** Declarations that reach themselves at once are excluded above: such a reader
    calls itself without end.  [#[nserde(transparent)] struct A(Option<Box<A>>)] *)
Definition GT : env := [DTuple true [opt_field [] (TBox (TNamed 0))]].
Theorem C27_refuted_transparent F c : hangs F c GT Json (TNamed 0) (chars "1").
Proof.
  eapply parses_hang; [vm_compute; reflexivity | left; discriminate |].
  assert (H : forall n u, t_toks u = [LP (KU64 1)] -> snd (de_text L F c GT Json n (TNamed 0) u) = NoFuel /\
                snd (de_text L F c GT Json n (TOpt (TBox (TNamed 0))) u) = NoFuel /\ snd (de_text L F c GT Json n (TBox (TNamed 0)) u) = NoFuel).
  { induction n as [|n IH]; intros u Hu; [repeat split|]. destruct (IH u Hu) as (I1 & I2 & I3).
    cbn [de_text]. cbn [nth_error GT existsb f_hasproxy opt_field orb]. split; [|split].
    - unfold pmap, pbind, de_unnamed. cbn [map]. unfold pmap, pbind. cbn [f_ty opt_field].
      destruct (de_text L F c GT Json n (TOpt (TBox (TNamed 0))) u) as [u' r]. cbn [snd] in I2. subst r. reflexivity.
    - unfold de_opt. cbn [at_none]. unfold at_none. cbn [l_tok tok_lexer]. unfold tok_kind. rewrite Hu. cbn [ltok_kind tok_is].
      unfold pmap, pbind. destruct (de_text L F c GT Json n (TBox (TNamed 0)) u) as [u' r]. cbn [snd] in I3. subst r. reflexivity.
    - destruct (de_text L F c GT Json n (TNamed 0) u) as [u' r] eqn:E. cbn [snd] in I1. subst r. rewrite ?E. reflexivity. }
  intro n. apply H. reflexivity.
Qed.
