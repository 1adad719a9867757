(** C78: every error of the TOML parser: when, what is reported, and on which line. *)
From Verif Require Import Base Utf8 Types Text TextModel SpecText SpecGram TomlModel SpecToml TomlRead TomlDoc TomlTerm SpecTomlAcc TomlAcc PropsTomlAcc SpecTomlErr TomlErr.
Local Open Scope N_scope.

(** ** Nothing after the place of an error has influence *)
Definition same (r r' : str) : Prop := firstn 1 r' = firstn 1 r.
Lemma same_cur r r' : same r r' -> cur r' = cur r.
Proof. unfold same. destruct r, r'; cbn; intro H; inversion H; reflexivity. Qed.
Lemma same_nil r : same [] r -> r = [].
Proof. unfold same. destruct r; cbn; [reflexivity | discriminate]. Qed.
Lemma same_app q r r' : same r r' -> same (q ++ r) (q ++ r').
Proof. unfold same. destruct q; cbn; auto. Qed.
Lemma same_curs q r r' : same r r' -> cur (q ++ r') = cur (q ++ r).
Proof. intro H. apply same_cur, same_app, H. Qed.
Definition loc {A} (R : str -> A -> str -> Prop) : Prop := forall l a r, R l a r -> exists p, l = p ++ r /\ forall r', same r r' -> R (p ++ r') a r'.
Section Local.
  Variable F : flt. Variable show : N -> str.
  Lemma word_end_same r r' : same r r' -> word_end r -> word_end r'.
  Proof. intros H Hr. apply word_end_term. apply word_end_term in Hr. rewrite (same_cur _ _ H). exact Hr. Qed.
  Lemma string_loc : loc (fun l s r => string_at l s r).
  Proof.
    intros l s r [q b s' r' Hq Hb Hne|b s' r' Hb Hc].
    - exists (q ++ b ++ [34]). split; [rewrite <- !app_assoc; reflexivity|]. intros r2 _. rewrite <- !app_assoc. apply sa_short; assumption.
    - destruct r' as [|x r']; cbn [tl].
      + exists ([34; 34; 34] ++ b ++ [34; 34; 34]). split; [rewrite <- !app_assoc; reflexivity|]. intros r2 H. apply same_nil in H. subst. rewrite <- !app_assoc. apply (sa_long b s' []); assumption.
      + exists ([34; 34; 34] ++ b ++ [34; 34; 34; x]). split; [rewrite <- !app_assoc; reflexivity|]. intros r2 H. rewrite <- !app_assoc. apply (sa_long b s' (x :: r2)); assumption.
  Qed.
  Lemma nan_inf_same p l l' : same l l' -> nan_inf p l -> nan_inf p l'.
  Proof. intros H Hn. unfold nan_inf in *. rewrite (same_cur _ _ H). exact Hn. Qed.
  Lemma after_loc neg s p d : loc (after_digits F neg s p d).
  Proof.
    intros l t r [neg' s' p' d' e w b r' He Hr Hb|neg' s' p' d' w r' Hw Hr|neg' s' p' d' x w t' r' Hx Hx2 Hw Ht Hr|s' d' r' Hne Hb Hi Hc|s' d' r' Hne Hb Hi Hc].
    - exists (46 :: w). split; [reflexivity|]. intros r2 H. cbn [app]. eapply ad_float; try eassumption. rewrite (same_cur _ _ H). exact Hr.
    - exists (45 :: w). split; [reflexivity|]. intros r2 H. cbn [app]. apply ad_date; try assumption. rewrite (same_cur _ _ H). exact Hr.
    - exists (x :: w). split; [reflexivity|]. intros r2 H. cbn [app]. apply ad_word; try assumption. eapply word_end_same; eassumption.
    - exists []. split; [reflexivity|]. intros r2 H. cbn [app]. apply ad_pos; try assumption; rewrite (same_cur _ _ H); assumption.
    - exists []. split; [reflexivity|]. intros r2 H. cbn [app]. apply ad_neg; try assumption; rewrite (same_cur _ _ H); assumption.
  Qed.
  Lemma number_loc : loc (number_at F).
  Proof.
    intros l t r [sg neg p r' t' Hs Hne Hp Hr|sg neg p d u l' t' r' Hs Hd Hn Hu Hl Ha].
    - exists (sg ++ p). split; [rewrite <- app_assoc; reflexivity|]. intros r2 H. rewrite <- app_assoc. eapply na_word; try eassumption. eapply word_end_same; eassumption.
    - destruct (after_loc _ _ _ _ _ _ _ Ha) as (q & -> & Hq). exists (sg ++ p ++ u ++ q). split; [rewrite <- !app_assoc; reflexivity|]. intros r2 H. rewrite <- !app_assoc.
      eapply na_num; try eassumption; [|rewrite (same_curs q _ _ H); exact Hl | apply Hq; exact H].
      eapply nan_inf_same; [|exact Hn]. apply same_app, same_app, H.
  Qed.
  Lemma first_loc : loc (first_token F).
  Proof.
    intros l t r [g r' Hg Hr|g body r' Hg Hb Hr|g x t' r' Hg Hin|g l' t' r' Hg H|g l' s r' Hg H|g x w t' r' Hg Hx Hd Hm Hw Ht Hr].
    - exists g. split; [reflexivity|]. intros r2 H. apply ft_end; [exact Hg|]. rewrite (same_cur _ _ H). exact Hr.
    - exists (g ++ 35 :: body). split; [rewrite <- app_assoc; reflexivity|]. intros r2 H. rewrite <- app_assoc. apply ft_end_comment; try assumption. rewrite (same_cur _ _ H). exact Hr.
    - exists (g ++ [x]). split; [rewrite <- app_assoc; reflexivity|]. intros r2 H. rewrite <- app_assoc. apply ft_punct; assumption.
    - destruct (number_loc _ _ _ H) as (q & -> & Hq). exists (g ++ q). split; [rewrite <- app_assoc; reflexivity|]. intros r2 H2. rewrite <- app_assoc. apply ft_number; auto.
    - destruct (string_loc _ _ _ H) as (q & -> & Hq). exists (g ++ q). split; [rewrite <- app_assoc; reflexivity|]. intros r2 H2. rewrite <- app_assoc. apply ft_string; auto.
    - exists (g ++ x :: w). split; [rewrite <- app_assoc; reflexivity|]. intros r2 H. rewrite <- app_assoc. apply ft_word; try assumption. eapply word_end_same; eassumption.
  Qed.
  Lemma short_open_loc l r : short_open l r -> exists p, l = p ++ r /\ forall r', same r r' -> short_open (p ++ r') r'.
  Proof.
    induction 1 as [r Hr|x t r H1 H2 H3 H (p & -> & Hp)|x t r H (p & -> & Hp)|].
    - exists []. split; [reflexivity|]. intros r2 H. apply so_end. rewrite (same_cur _ _ H). exact Hr.
    - exists (x :: p). split; [reflexivity|]. intros r2 H2'. apply so_plain; auto.
    - exists (92 :: x :: p). split; [reflexivity|]. intros r2 H2'. apply so_esc; auto.
    - exists [92]. split; [reflexivity|]. intros r2 H. apply same_nil in H. subst. apply so_cut.
  Qed.
  Lemma long_open_loc l r : long_open l r -> exists p, l = p ++ r /\ forall r', same r r' -> long_open (p ++ r') r'.
  Proof.
    induction 1 as [r Hr|x t r H1 H2 H3 H (p & -> & Hp)|x t r H (p & -> & Hp)| |q x t r Hq Hne H3 Hx H (p & -> & Hp)|q Hq Hne H3].
    - exists []. split; [reflexivity|]. intros r2 H. apply lo_end. rewrite (same_cur _ _ H). exact Hr.
    - exists (x :: p). split; [reflexivity|]. intros r2 H2'. apply lo_plain; auto.
    - exists (92 :: x :: p). split; [reflexivity|]. intros r2 H2'. apply lo_esc; auto.
    - exists [92]. split; [reflexivity|]. intros r2 H. apply same_nil in H. subst. apply lo_cut.
    - exists (q ++ x :: p). split; [rewrite <- app_assoc; reflexivity|]. intros r2 H2'. rewrite <- app_assoc. apply (lo_quotes q x (p ++ r2) r2); auto.
    - exists q. split; [rewrite app_nil_r; reflexivity|]. intros r2 H. apply same_nil in H. subst. rewrite app_nil_r. apply lo_quotes_cut; assumption.
  Qed.
  Lemma bad_number_loc : loc (bad_number F).
  Proof.
    intros l w r [sg neg p d u l' w' r' Hs Hd Hn Hu Hl Hx Ha].
    assert (B : exists q, l' = q ++ r' /\ forall r2, same r' r2 -> bad_after F neg (minus neg ++ p ++ d) p d (q ++ r2) w' r2).
    { remember (minus neg ++ p ++ d) as s. clear - Ha. destruct Ha as [neg s p d e w r He Hr Hb|neg s p d x w r Hx Hx2 Hw Hk Hr|neg s p d r Hc Hc2 Hb].
      - exists (46 :: w). split; [reflexivity|]. intros r2 H. cbn [app]. eapply ba_float; try eassumption. rewrite (same_cur _ _ H). exact Hr.
      - exists (x :: w). split; [reflexivity|]. intros r2 H. cbn [app]. apply ba_word; try assumption; [rewrite (same_cur _ _ H); exact Hk|].
        intro X. apply Hr. eapply word_end_same; [|exact X]. symmetry. exact H.
      - exists []. split; [reflexivity|]. intros r2 H. cbn [app]. apply ba_int; try assumption; rewrite (same_cur _ _ H); assumption. }
    destruct B as (q & -> & Hq). exists (sg ++ p ++ u ++ q). split; [rewrite <- !app_assoc; reflexivity|]. intros r2 H. rewrite <- !app_assoc.
    eapply bn_num; try eassumption; [|rewrite (same_curs q _ _ H); exact Hl | | apply Hq; exact H].
    - eapply nan_inf_same; [|exact Hn]. apply same_app, same_app, H.
    - intros [X Y]. apply Hx. split; [exact X|]. eapply word_end_same; [|exact Y]. symmetry. apply same_app, same_app. exact H.
  Qed.
  Lemma bad_loc : loc (bad_token F).
  Proof.
    intros l w r [g r' Hg Hne Hin Hi|g l' w' r' Hg H|g l' r' Hg H|g x u r' Hg Hx Hd Hm Hu Hk Hr].
    - exists g. split; [reflexivity|]. intros r2 H. apply bt_char; try assumption; try (rewrite (same_cur _ _ H); assumption). intros ->. apply Hne. symmetry in H. apply same_nil in H. exact H.
    - destruct (bad_number_loc _ _ _ H) as (q & -> & Hq). exists (g ++ q). split; [rewrite <- app_assoc; reflexivity|]. intros r2 H2. rewrite <- app_assoc. apply bt_number; auto.
    - destruct H as [q b r0 Hq Hc Hb|b r0 Hb].
      + destruct (short_open_loc _ _ Hb) as (p & -> & Hp). exists (g ++ q ++ p). split; [rewrite <- !app_assoc; reflexivity|]. intros r2 H2. rewrite <- !app_assoc.
        apply bt_string; [exact Hg|]. apply os_short; auto. rewrite (same_curs p _ _ H2). exact Hc.
      + destruct (long_open_loc _ _ Hb) as (p & -> & Hp). exists (g ++ [34; 34; 34] ++ p). split; [rewrite <- !app_assoc; reflexivity|]. intros r2 H2. rewrite <- !app_assoc.
        apply bt_string; [exact Hg|]. apply os_long; auto.
    - exists (g ++ x :: u). split; [rewrite <- app_assoc; reflexivity|]. intros r2 H. rewrite <- app_assoc. apply bt_word; try assumption; [rewrite (same_cur _ _ H); exact Hk|].
      intro X. apply Hr. eapply word_end_same; [|exact X]. symmetry. exact H.
  Qed.
  (** One reading after another *)
  Lemma loc_seq {A B} (R1 : str -> A -> str -> Prop) (R2 : str -> B -> str -> Prop) : loc R1 -> loc R2 ->
    forall l l1 r a b, R1 l a l1 -> R2 l1 b r -> exists p, l = p ++ r /\ forall r', same r r' -> exists l1', R1 (p ++ r') a l1' /\ R2 l1' b r'.
  Proof.
    intros L1 L2 l l1 r a b H1 H2. destruct (L2 _ _ _ H2) as (p2 & -> & Hp2). destruct (L1 _ _ _ H1) as (p1 & -> & Hp1).
    exists (p1 ++ p2). split; [rewrite <- app_assoc; reflexivity|]. intros r' H. exists (p2 ++ r'). rewrite <- app_assoc. split; [apply Hp1, same_app, H | apply Hp2, H].
  Qed.
  Lemma value_loc : loc (value_at F) /\ loc (values_at F).
  Proof.
    apply value_at_mutind.
    - intros l t v r Ht Hv. destruct (first_loc _ _ _ Ht) as (p & -> & Hp). exists p. split; [reflexivity|]. intros r' H. eapply va_tok; [apply Hp; exact H | exact Hv].
    - intros l l1 vs r Ht _ (p2 & -> & H2). destruct (first_loc _ _ _ Ht) as (p & -> & Hp). exists (p ++ p2). split; [rewrite <- app_assoc; reflexivity|]. intros r' H. rewrite <- app_assoc.
      eapply va_arr; [apply Hp, same_app, H | apply H2, H].
    - intros l r Ht. destruct (first_loc _ _ _ Ht) as (p & -> & Hp). exists p. split; [reflexivity|]. intros r' H. apply ia_close, Hp, H.
    - intros l r Ht. destruct (first_loc _ _ _ Ht) as (p & -> & Hp). exists p. split; [reflexivity|]. intros r' H. apply ia_end, Hp, H.
    - intros l l1 vs r Ht _ (p2 & -> & H2). destruct (first_loc _ _ _ Ht) as (p & -> & Hp). exists (p ++ p2). split; [rewrite <- app_assoc; reflexivity|]. intros r' H. rewrite <- app_assoc.
      eapply ia_comma; [apply Hp, same_app, H | apply H2, H].
    - intros l v l1 vs r _ (p & El & Hp) _ (p2 & E2 & H2). subst l1 l. exists (p ++ p2). split; [rewrite <- app_assoc; reflexivity|]. intros r' H. rewrite <- app_assoc.
      eapply ia_value; [apply Hp, same_app, H | apply H2, H].
  Qed.
  Lemma wants_loc P : loc (wants F P).
  Proof.
    intros l m r [l0 w r0 Hb|l0 t r0 Ht Hp].
    - destruct (bad_loc _ _ _ Hb) as (p & -> & Hp). exists p. split; [reflexivity|]. intros r' H. apply wn_bad, Hp, H.
    - destruct (first_loc _ _ _ Ht) as (p & -> & Hq). exists p. split; [reflexivity|]. intros r' H. apply wn_tok; [apply Hq, H | exact Hp].
  Qed.
  Lemma values_err_loc : loc (values_err F).
  Proof.
    intros l m r H. induction H as [l m r Hw|l l1 m r Ht Hv (p2 & -> & H2)|l l1 m r Ht Hv (p2 & -> & H2)|l v l1 m r Hv Hvs (p2 & -> & H2)].
    - destruct (wants_loc _ _ _ _ Hw) as (p & -> & Hp). exists p. split; [reflexivity|]. intros r' H. apply ve_here, Hp, H.
    - destruct (first_loc _ _ _ Ht) as (p & -> & Hp). exists (p ++ p2). split; [rewrite <- app_assoc; reflexivity|]. intros r' H. rewrite <- app_assoc. eapply ve_inner; [apply Hp, same_app, H | apply H2, H].
    - destruct (first_loc _ _ _ Ht) as (p & -> & Hp). exists (p ++ p2). split; [rewrite <- app_assoc; reflexivity|]. intros r' H. rewrite <- app_assoc. eapply ve_comma; [apply Hp, same_app, H | apply H2, H].
    - destruct (proj1 value_loc _ _ _ Hv) as (p & -> & Hp). exists (p ++ p2). split; [rewrite <- app_assoc; reflexivity|]. intros r' H. rewrite <- app_assoc. eapply ve_value; [apply Hp, same_app, H | apply H2, H].
  Qed.
  Lemma value_err_loc : loc (value_err F).
  Proof.
    intros l m r [l0 m0 r0 Hw|l0 l1 m0 r0 Ht Hv].
    - destruct (wants_loc _ _ _ _ Hw) as (p & -> & Hp). exists p. split; [reflexivity|]. intros r' H. apply vx_here, Hp, H.
    - destruct (loc_seq _ _ first_loc values_err_loc _ _ _ _ _ Ht Hv) as (p & -> & Hp). exists p. split; [reflexivity|]. intros r' H. destruct (Hp r' H) as (l1' & A & B). eapply vx_arr; eassumption.
  Qed.
  (* chains of tokens that end in something local *)
  Lemma loc_tok {B} (Q : str -> B -> str -> Prop) t : loc Q -> loc (fun l b r => exists l1, first_token F l t l1 /\ Q l1 b r).
  Proof. intros L l b r (l1 & H1 & H2). exact (loc_seq _ _ first_loc L _ _ _ _ _ H1 H2). Qed.
  Lemma entry_err_loc : loc (entry_err F show).
  Proof.
    pose proof (wants_loc (eq QClose)) as LC.
    intros l m r [l0 m0 r0 Hw|l0 t l1 m0 r0 Ht Hk Hw|l0 t l1 l2 m0 r0 Ht Hk Ht2 Hv|l0 l1 m0 r0 Ht Hw|l0 l1 t k l2 m0 r0 Ht Ht2 Hs Hw|l0 l1 l2 m0 r0 Ht Ht2 Hw|l0 l1 l2 t l3 m0 r0 Ht Ht2 Ht3 Hk Hns Hw|l0 l1 l2 t l3 l4 m0 r0 Ht Ht2 Ht3 Hk Hns Hc Hw].
    - destruct (wants_loc _ _ _ _ Hw) as (p & -> & Hp). exists p. split; [reflexivity|]. intros r' H. apply xe_start, Hp, H.
    - destruct (loc_tok _ t (wants_loc (eq QEq)) l0 m0 r0) as (p & -> & Hp); [eauto|]. exists p. split; [reflexivity|]. intros r' H. destruct (Hp r' H) as (? & A & B). eapply xe_eq; eassumption.
    - destruct (loc_tok _ t (loc_tok _ QEq value_err_loc) l0 m0 r0) as (p & -> & Hp); [eauto|]. exists p. split; [reflexivity|]. intros r' H. destruct (Hp r' H) as (? & A & ? & B & C). eapply xe_value; eassumption.
    - destruct (loc_tok _ QOpen (wants_loc (fun t => t = QOpen \/ exists k, t = QStr k \/ t = QIdent k)) l0 m0 r0) as (p & -> & Hp); [eauto|]. exists p. split; [reflexivity|]. intros r' H. destruct (Hp r' H) as (? & A & B). eapply xe_name; eassumption.
    - destruct (loc_tok _ QOpen (loc_tok _ t LC) l0 m0 r0) as (p & -> & Hp); [eauto|]. exists p. split; [reflexivity|]. intros r' H. destruct (Hp r' H) as (? & A & ? & B & C). eapply xe_close; eassumption.
    - destruct (loc_tok _ QOpen (loc_tok _ QOpen (wants_loc (fun t => is_key show t /\ ~ is_str t))) l0 m0 r0) as (p & -> & Hp); [eauto|]. exists p. split; [reflexivity|]. intros r' H. destruct (Hp r' H) as (? & A & ? & B & C). eapply xe_names; eassumption.
    - destruct (loc_tok _ QOpen (loc_tok _ QOpen (loc_tok _ t LC)) l0 m0 r0) as (p & -> & Hp); [eauto 8|]. exists p. split; [reflexivity|]. intros r' H. destruct (Hp r' H) as (? & A & ? & B & ? & C & D). eapply xe_close1; eassumption.
    - destruct (loc_tok _ QOpen (loc_tok _ QOpen (loc_tok _ t (loc_tok _ QClose LC))) l0 m0 r0) as (p & -> & Hp); [eauto 10|]. exists p. split; [reflexivity|]. intros r' H. destruct (Hp r' H) as (? & A & ? & B & ? & C & ? & D & E). eapply xe_close2; eassumption.
  Qed.
  Lemma entry_loc : loc (entry_at F show).
  Proof.
    intros l e r [l0 t k l1 l2 v r0 H1 Hk H2 Hv|l0 l1 t k l2 r0 H1 H2 Ht H3|l0 l1 l2 t k l3 l4 r0 H1 H2 H3 Hk Hns H4 H5].
    - destruct (loc_tok _ t (loc_tok _ QEq (proj1 value_loc)) l0 v r0) as (p & -> & Hp); [eauto|]. exists p. split; [reflexivity|]. intros r' H. destruct (Hp r' H) as (? & A & ? & B & C). eapply ea_set; eassumption.
    - destruct (loc_tok _ QOpen (loc_tok _ t first_loc) l0 QClose r0) as (p & -> & Hp); [eauto|]. exists p. split; [reflexivity|]. intros r' H. destruct (Hp r' H) as (? & A & ? & B & C). eapply ea_table; eassumption.
    - destruct (loc_tok _ QOpen (loc_tok _ QOpen (loc_tok _ t (loc_tok _ QClose first_loc))) l0 QClose r0) as (p & -> & Hp); [eauto 10|]. exists p. split; [reflexivity|]. intros r' H. destruct (Hp r' H) as (? & A & ? & B & ? & C & ? & D & E). eapply ea_tables; eassumption.
  Qed.
  Lemma entries_loc : loc (entries_at F show).
  Proof.
    intros l es r H. induction H as [l|l e l1 es r He Hes (p2 & -> & H2)].
    - exists []. split; [reflexivity|]. intros r' _. apply es_nil.
    - destruct (entry_loc _ _ _ He) as (p & -> & Hp). exists (p ++ p2). split; [rewrite <- app_assoc; reflexivity|]. intros r' H. rewrite <- app_assoc. eapply es_cons; [apply Hp, same_app, H | apply H2, H].
  Qed.
  Lemma toml_error_loc text es m r : toml_error F show text es m r -> exists p, text = p ++ r /\ forall r', same r r' -> toml_error F show (p ++ r') es m r'.
  Proof.
    intros (l & He & Hr). destruct (loc_seq _ _ entries_loc entry_err_loc _ _ _ _ _ He Hr) as (p & -> & Hp). exists p. split; [reflexivity|]. intros r' H. destruct (Hp r' H) as (l' & A & B). exists l'. auto.
  Qed.
End Local.

Section C78.
  Variable F : flt.           (* the standard library's [parse::<f64>] and [as f64] *)
  Variable show : N -> str.   (* ... and [f64::to_string] *)
  (** The parser returns an error exactly for the texts that, after entries that do not
      clash, go on with something that is neither an entry nor the end; the error names
      what is there, and its line. *)
  Theorem C78_error text e : toml_parse F show text = Err e <->
    exists es r, toml_error F show text es (q_msg e) r /\ ~ clash es /\ error_line text r (q_line e).
  Proof.
    rewrite parse_err. split.
    - intros (es & l & r & He & [[sc o] Hx] & Hr & Hl). exists es, r. split; [exists l; auto|]. split; [|exact Hl]. intro Hc.
      destruct (run_means es (entries_wf F show _ _ _ He)) as [[_ E]|[X _]]; [|contradiction]. rewrite run_steps, Hx in E. discriminate.
    - intros (es & r & (l & He & Hr) & Hc & Hl). exists es, l, r. split; [exact He|]. split; [|auto].
      destruct (run_means es (entries_wf F show _ _ _ He)) as [[X _]|[_ (m & E & _)]]; [contradiction|]. rewrite run_steps in E. destruct (steps es [] _) as [x|?|?|]; try discriminate. exists x. reflexivity.
  Qed.
  (** The line exists, and what is wrong determines the error. *)
  Theorem C78_reports text es m r : toml_error F show text es m r -> ~ clash es -> exists n, error_line text r n /\ toml_parse F show text = Err {| q_line := n; q_msg := m |}.
  Proof.
    intros H Hc. destruct (toml_error_loc F show _ _ _ _ H) as (p & E & _). exists (newlines (p ++ firstn 1 r)).
    assert (L : error_line text r (newlines (p ++ firstn 1 r))) by (exists p; auto). split; [exact L|]. apply C78_error. exists es, r. auto.
  Qed.
  (** A text is a document, or it begins with entries that clash, or it has exactly one
      error. *)
  Theorem C78_outcome text :
    (exists es, toml_text F show text es /\ ~ clash es) \/ (exists es r, entries_at F show text es r /\ clash es) \/
    (exists es m r, toml_error F show text es m r /\ ~ clash es).
  Proof.
    destruct (toml_parse F show text) as [m|e|p|] eqn:E.
    - apply C73_accepted in E as (es & A & B & _). left. eauto.
    - apply C78_error in E as (es & r & A & B & _). right. right. eauto.
    - apply C73_panics in E as (_ & A). right. left. exact A.
    - pose proof (parse_ends F show text) as (_ & _ & X). unfold toml_parse, parse_toml in E. rewrite E in X. destruct X.
  Qed.
  Theorem C78_unique text es m r es' m' r' : toml_error F show text es m r -> toml_error F show text es' m' r' -> ~ clash es -> ~ clash es' ->
    m = m' /\ forall n n', error_line text r n -> error_line text r' n' -> n = n'.
  Proof.
    intros H H' Hc Hc'. destruct (C78_reports text es m r H Hc) as (n & Ln & E). destruct (C78_reports text es' m' r' H' Hc') as (n' & Ln' & E'). rewrite E in E'. inversion E'; subst. split; [reflexivity|].
    assert (U : forall r a b, error_line text r a -> error_line text r b -> a = b).
    { intros x a b (p & Ep & ->) (q & Eq & ->). rewrite Ep in Eq. apply app_inv_tail in Eq. subst. reflexivity. }
    intros a b Ha Hb. rewrite (U _ _ _ Ha Ln), (U _ _ _ Hb Ln'). reflexivity.
  Qed.
  (** Only the text up to the place of the error and the character there matter. *)
  Theorem C78_local text e : toml_parse F show text = Err e -> exists p r, text = p ++ r /\ q_line e = newlines (p ++ firstn 1 r) /\
    forall r', firstn 1 r' = firstn 1 r -> toml_parse F show (p ++ r') = Err e.
  Proof.
    intro H. apply C78_error in H as (es & r & He & Hc & (p & E & El)). exists p, r. split; [exact E|]. split; [exact El|]. intros r' Hr.
    apply C78_error. exists es, r'. destruct (toml_error_loc F show _ _ _ _ He) as (p' & E' & Hp). rewrite E in E'. apply app_inv_tail in E'. subst p'.
    split; [apply Hp, Hr|]. split; [exact Hc|]. exists p. split; [reflexivity|]. rewrite El, Hr. reflexivity.
  Qed.
  (** A missing value: whatever comes before, a key, an equals sign and then a closing
      bracket, a comma, another equals sign, a bare word or the end is reported as such. *)
  Theorem C78_no_value text es l t l1 l2 t2 r : entries_at F show text es l -> ~ clash es -> first_token F l t l1 -> is_key show t -> first_token F l1 QEq l2 ->
    first_token F l2 t2 r -> In t2 [QClose; QComma; QEq; QEof] \/ (exists w, t2 = QIdent w) ->
    exists n, error_line text r n /\ toml_parse F show text = Err {| q_line := n; q_msg := QTok t2 |}.
  Proof.
    intros He Hc Ht Hk H2 H3 Hin. apply (C78_reports text es (QTok t2) r); [|exact Hc]. exists l. split; [exact He|]. eapply xe_value; try eassumption. apply vx_here, wn_tok; [exact H3|].
    intros [X|[v X]].
    - subst t2. cbn [In] in Hin. destruct Hin as [[X|[X|[X|[X|[]]]]]|[w X]]; discriminate.
    - cbn [In] in Hin. destruct Hin as [[<-|[<-|[<-|[<-|[]]]]]|[w ->]]; inversion X.
  Qed.
  (** An unterminated string is noticed at the end of the text (or at a NUL character)
      and reported on the last line, wherever it was opened. *)
  Theorem C78_open_string text e : toml_parse F show text = Err e -> q_msg e = QParse (chars "string") ->
    exists p r, text = p ++ r /\ cur r = 0 /\ q_line e = newlines p.
  Proof.
    intros H Hm. apply C78_error in H as (es & r & (l & _ & He) & _ & (p & E & El)). rewrite Hm in He.
    assert (W : forall P l m r w, wants F P l m r -> m = QParse w -> exists l', bad_token F l' w r).
    { intros P l0 m r0 w [l1 w' r1 Hb|l1 t r1 _ _] X; inversion X; subst. eauto. }
    assert (V : forall l m r w, values_err F l m r -> m = QParse w -> exists l', bad_token F l' w r).
    { intros l0 m r0 w Hv X. induction Hv; auto. eapply W; eassumption. }
    assert (B : exists l', bad_token F l' (chars "string") r).
    { remember (QParse (chars "string")) as m eqn:Em. destruct He as [? ? ? Hw|? ? ? ? ? ? ? Hw|? ? ? ? ? ? ? ? ? Hv|? ? ? ? ? Hw|? ? ? ? ? ? ? ? ? ? Hw|? ? ? ? ? ? ? Hw|? ? ? ? ? ? ? ? ? ? ? ? Hw|? ? ? ? ? ? ? ? ? ? ? ? ? ? Hw];
        try (eapply W; [exact Hw | exact Em]). destruct Hv as [? ? ? Hw|? ? ? ? ? Hv]; [eapply W; [exact Hw | exact Em] | eapply V; [exact Hv | exact Em]]. }
    destruct B as [l' B].
    assert (R : cur r = 0).
    { remember (chars "string") as w eqn:Ew. destruct B as [g r' _ _ _ _|g b w r' _ Hb|g b r' _ Hb|g x u r' _ _ _ _ _ _ _]; try discriminate Ew.
      - destruct Hb as [? ? ? ? ? ? ? ? _ _ _ _ _ _ Ha]. destruct Ha; discriminate Ew.
      - clear - Hb. destruct Hb as [q b r _ _ H|b r H]; induction H; auto. }
    exists p, r. split; [exact E|]. split; [exact R|]. rewrite El, newlines_app.
    destruct r as [|x r]; [change (newlines (firstn 1 [])) with 0; lia|]. cbn [cur] in R. subst x. change (newlines (firstn 1 (0 :: r))) with 0. lia.
  Qed.
End C78.

(** ** Concrete cases *)
(** What is reported for some texts; the second is on the first line (line 0), but the
    line break after it was already looked at. *)
Example C78_ex_bare : toml_parse no_flt dec (chars "a = b c = 1") = Err {| q_line := 0; q_msg := QTok (QIdent (chars "b")) |}.
Proof. vm_compute. reflexivity. Qed.
Example C78_ex_line : toml_parse no_flt dec (chars "a = ]" ++ 10 :: chars "b = 1") = Err {| q_line := 1; q_msg := QTok QClose |}.
Proof. vm_compute. reflexivity. Qed.
Example C78_ex_line_error : exists es r, toml_error no_flt dec (chars "a = ]" ++ 10 :: chars "b = 1") es (QTok QClose) r /\ ~ clash es /\
  error_line (chars "a = ]" ++ 10 :: chars "b = 1") r 1.
Proof. exact (proj1 (C78_error no_flt dec _ _) C78_ex_line). Qed.
Example C78_ex_open : toml_parse no_flt dec (chars "a = ""x" ++ 10 :: chars "b = 1" ++ [10]) = Err {| q_line := 2; q_msg := QParse (chars "string") |}.
Proof. vm_compute. reflexivity. Qed.
(** The hypotheses of the theorems are met. *)
Example C78_ex_reports : toml_error no_flt dec (chars "[t] x = [1, ?]") [ETable (chars "t")] (QParse (chars "tokenizer")) (chars "?]") /\ ~ clash [ETable (chars "t")].
Proof.
  split.
  - exists (chars " x = [1, ?]"). split.
    + eapply es_cons; [|apply es_nil]. eapply (ea_table no_flt dec _ (chars "t] x = [1, ?]") (QIdent (chars "t")) _ (chars "] x = [1, ?]")); [apply (scan_first no_flt 20); vm_compute; reflexivity | apply (scan_first no_flt 20); vm_compute; reflexivity | auto | apply (scan_first no_flt 20); vm_compute; reflexivity].
    + eapply (xe_value no_flt dec _ (QIdent (chars "x")) (chars " = [1, ?]") (chars " [1, ?]")); [apply (scan_first no_flt 20); vm_compute; reflexivity | exists (chars "x"); apply tq_ident | apply (scan_first no_flt 20); vm_compute; reflexivity|].
      eapply (vx_arr no_flt _ (chars "1, ?]")); [apply (scan_first no_flt 20); vm_compute; reflexivity|].
      eapply (ve_value no_flt _ (TVNum 1) (chars ", ?]")); [eapply (va_tok no_flt _ (QU64 1)); [apply (scan_first no_flt 20); vm_compute; reflexivity | apply (tw_u64 no_flt 1)]|].
      eapply (ve_comma no_flt _ (chars " ?]")); [apply (scan_first no_flt 20); vm_compute; reflexivity|].
      apply ve_here, wn_bad. apply (scan_bad no_flt 20); [cbn; lia | vm_compute; reflexivity].
  - intros (k & H & _). destruct H.
Qed.
Example C78_ex_string : open_string (chars """""abc\") [].
Proof. apply (os_short [34; 34] (chars "abc\")); [auto | discriminate|]. repeat (apply so_plain; [discriminate | discriminate | discriminate|]). apply so_cut. Qed.
Example C78_ex_number : bad_number no_flt (chars "-in ") (chars "tokenizer") (chars " ") /\ bad_number no_flt (chars "99999999999999999999,") (chars "tokenizer") (chars ",").
Proof. split; apply num_bad_inv; vm_compute; reflexivity. Qed.

Print Assumptions C78_error.
Print Assumptions C78_local.
