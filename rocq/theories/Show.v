(** Proofs about SpecShow.v: the writer emits a text of the document a value is shown as. *)
From Verif Require Import Base Utf8 Types BinModel TyAll Text TextModel TextLex TextFuel TextRun SpecText SpecGram SpecRfc PropsRfc TextGram TomlRead SpecDoc SpecShow.
Local Open Scope N_scope.

Lemma literal_dec z s : decimal_literal z s -> s = dec_z z.
Proof.
  intros (sg & d & -> & Hs & Hd & Hz & Hv). pose proof (dec_decimal d Hd Hz) as E. unfold dec_z.
  destruct Hs as [-> |[-> Hn]]; cbn [signed_value app] in *.
  - destruct (Z.ltb_spec z 0); [lia|]. rewrite <- Hv, N2Z.id. symmetry. exact E.
  - destruct (Z.ltb_spec z 0); [|lia]. assert (Z.to_N (- z) = decimal d) as -> by lia. rewrite E. reflexivity.
Qed.
Lemma dec_facts n : all_digits (dec n) /\ no_leading_zero (dec n) /\ decimal (dec n) = n.
Proof.
  split; [apply digits_all; [apply dec_nonempty | apply dec_digits]|]. split.
  - destruct (dec_nozero n) as [H|H]; [left; exact H|]. right. intros r E. rewrite E in H. apply H. reflexivity.
  - rewrite decimal_val. apply dec_val.
Qed.
Lemma dec_literal z : decimal_literal z (dec_z z).
Proof.
  unfold dec_z, decimal_literal. destruct (Z.ltb_spec z 0) as [H|H].
  - destruct (dec_facts (Z.to_N (- z))) as (A & B & C). exists [45], (dec (Z.to_N (- z))). split; [reflexivity|]. split; [auto|].
    split; [exact A|]. split; [exact B|]. unfold signed_value. rewrite C. lia.
  - destruct (dec_facts (Z.to_N z)) as (A & B & C). exists [], (dec (Z.to_N z)). split; [reflexivity|]. split; [auto|].
    split; [exact A|]. split; [exact B|]. unfold signed_value. rewrite C. lia.
Qed.
Lemma dec_z_ok F z : (- 2 ^ 63 <= z < 2 ^ 64)%Z -> number_ok F (dec_z z).
Proof.
  intro H. destruct (dec_literal z) as (sg & d & E & Hs & Hd & Hz & Hv). rewrite E.
  exists sg, d, [], []. rewrite !app_nil_r. split; [reflexivity|]. split; [split; [destruct Hs as [-> |[-> _]]; auto|]; auto|].
  split; [intros []|]. split; [|intros [A|A]; congruence]. intros _ _. destruct Hs as [-> |[-> _]]; cbn [signed_value] in Hv; lia.
Qed.
Lemma float_ok F s b : float_text s -> f64_parse F s = Some b -> number_ok F s.
Proof.
  intros (sg & ip & fr & ex & -> & H1 & H2 & H3 & H4 & H5 & H6) E. exists sg, ip, fr, ex. split; [reflexivity|]. split.
  - split; [exact H1|]. split; [exact H2|]. split; [exact H4|]. destruct H5 as [H5|(es & d & -> & He & Hd)]; [left; exact H5|].
    right. exists 101, es, d. split; [reflexivity|]. split; [auto|]. split; [|exact Hd]. destruct He; auto.
  - split.
    + destruct H5 as [-> |(es & d & -> & He & Hd)]; [intros []|]. unfold no_plus. intros [X|X]; [discriminate|]. apply in_app_or in X as [X|X].
      * destruct He as [-> | ->]; cbn in X; [exact X | destruct X as [X|[]]; discriminate].
      * destruct Hd as [_ Hd]. rewrite Forall_forall in Hd. specialize (Hd _ X). lia.
    + split; [intros A B; destruct H6; congruence|]. intros _. congruence.
Qed.
Lemma int_range c k z : cfg_ok c -> k <> U128 -> k <> I128 -> int_ok c k z -> (- 2 ^ 63 <= z < 2 ^ 64)%Z.
Proof.
  intros Hc H1 H2 [A B]. unfold ik_min, ik_sup in *.
  destruct k; try congruence; cbn in A, B |- *; try lia. unfold usize_mod in B. destruct Hc as [E|E]; rewrite E in B; cbn in B; lia.
Qed.
Lemma name_chars s : json_name s -> chars_of s s.
Proof.
  intro H. unfold json_name, c_quote, c_bslash in H. induction H as [|x s (A & B & C) H IH]; [constructor|]. apply ch_plain; auto.
Qed.
Lemma esc_chars s : chars_of (flat_map (esc_char Json) s) s.
Proof. induction s as [|x s IH]; [constructor|]. cbn [flat_map]. apply (chars_app _ _ [x]); [apply rfc_chars, esc_json_chars | exact IH]. Qed.
Lemma gap0 : gap []. Proof. constructor. Qed.

Section Texts.
  Variable F : flt.
  Notation den := (denotes F).
  Lemma join_elements g ds ps : gap g -> Forall2 den ds ps -> ds <> [] -> forall g0, gap g0 -> elements_of F ds (g0 ++ join (44 :: g) ps).
  Proof.
    intros Hg H. induction H as [|d x ds ps Hx H IH]; intros Hn g0 Hg0; [congruence|]. destruct H as [|e y ds ps Hy H].
    - cbn [join]. rewrite <- (app_nil_r x). apply eo_one; auto. apply gap0.
    - pose proof (eo_more F g0 d x [] (e :: ds) (g ++ join (44 :: g) (y :: ps)) Hg0 Hx gap0 (IH ltac:(discriminate) g Hg)) as M. exact M.
  Qed.
  Lemma wrap_array g ds ps : gap g -> Forall2 den ds ps -> den (JArr ds) (wrap 91 93 (join (44 :: g) ps)).
  Proof.
    intros Hg H. unfold wrap. destruct H as [|d x ds ps Hx H]; [apply (dn_arr0 F []); apply gap0|].
    apply dn_arr. apply (join_elements g _ _ Hg (Forall2_cons _ _ Hx H) ltac:(discriminate) []). apply gap0.
  Qed.
  Definition mem (m : str * doc) (s : str) : Prop := exists k x, s = quoted k ++ [58] ++ x /\ chars_of k (fst m) /\ den (snd m) x.
  Lemma join_mems ms ps : Forall2 mem ms ps -> ms <> [] -> members_of F ms (join comma ps).
  Proof.
    intros H. induction H as [|[k0 d] s ms ps (k & x & -> & Hk & Hx) H IH]; intro Hn; [congruence|]. cbn [fst snd] in *. destruct H as [|m y ms ps Hy H].
    - cbn [join]. pose proof (mo_one F [] k0 k [] [] d x [] gap0 Hk gap0 gap0 Hx gap0) as M. cbn [app] in M. rewrite app_nil_r in M. exact M.
    - cbn [join]. pose proof (mo_more F [] k0 k [] [] d x [] (m :: ms) (join comma (y :: ps)) gap0 Hk gap0 gap0 Hx gap0 (IH ltac:(discriminate))) as M.
      cbn [app] in M. unfold comma at 1. rewrite <- !app_assoc. exact M.
  Qed.
  Lemma wrap_object ms ps : Forall2 mem ms ps -> den (JObj ms) (wrap 123 125 (join comma ps)).
  Proof.
    intros H. unfold wrap. destruct H as [|m p ms ps Hm H]; [apply (dn_obj0 F []); apply gap0|].
    apply dn_obj. apply join_mems; [constructor; assumption | discriminate].
  Qed.
  Lemma mem_of k d x : json_name k -> den d x -> mem (k, d) (field_hdr Json k ++ x).
  Proof.
    intros Hk Hx. exists k, x. split; [|split; [apply name_chars; exact Hk | exact Hx]]. unfold field_hdr, quoted. cbn [app]. f_equal. rewrite <- !app_assoc. reflexivity.
  Qed.
  Lemma dur_written s ns d : s < 2 ^ 64 -> ns < 1000000000 -> dur_doc s ns d -> den d (ser_dur s ns).
  Proof.
    intros Hs Hn (a & b & (sa & Ha & ->) & (sb & Hb & ->) & ->). apply literal_dec in Ha, Hb.
    assert (D : forall n, dec_z (Z.of_N n) = dec n) by (intro n; unfold dec_z; destruct (Z.ltb_spec (Z.of_N n) 0); [lia|]; rewrite N2Z.id; reflexivity).
    rewrite D in Ha, Hb. subst sa sb.
    assert (N1 : forall k, In k [chars "secs"; chars "nanos"] -> chars_of k k)
      by (intros k [<-|[<-|[]]]; apply name_chars; repeat constructor; cbv; discriminate).
    assert (N2 : forall n, n < 2 ^ 64 -> den (JNum (dec n)) (dec n)) by (intros n Hl; apply dn_num; rewrite <- D; apply dec_z_ok; lia).
    unfold ser_dur. destruct (ns =? 0).
    - rewrite app_nil_r. apply (wrap_object [(chars "secs", JNum (dec s))] [quoted (chars "secs") ++ [58] ++ dec s]).
      constructor; [|constructor]. exists (chars "secs"), (dec s). split; [reflexivity|]. split; [apply N1; cbn; auto | apply N2; exact Hs].
    - pose proof (wrap_object [(chars "secs", JNum (dec s)); (chars "nanos", JNum (dec ns))]
        [quoted (chars "secs") ++ [58] ++ dec s; quoted (chars "nanos") ++ [58] ++ dec ns]) as W. cbn [join] in W.
      rewrite <- !app_assoc in W. apply W.
      constructor; [exists (chars "secs"), (dec s); split; [reflexivity|]; split; [apply N1; cbn; auto | apply N2; exact Hs]|].
      constructor; [exists (chars "nanos"), (dec ns); split; [reflexivity|]; split; [apply N1; cbn; auto | apply N2; lia] | constructor].
  Qed.
End Texts.

Lemma members_shown_impl (P Q : ty -> val -> doc -> Prop) skip null key fs l ms : (forall t v d, P t v d -> Q t v d) ->
  members_shown P skip null key fs l ms -> members_shown Q skip null key fs l ms.
Proof.
  intros PQ. induction 1 as [|f v fs l ms Hs H IH|f fs l ms Hs Ho Hn H IH|f v d fs l ms Hs Hk Hf H IH];
    [constructor | constructor 2; assumption | constructor 3; assumption | constructor 4; try assumption].
  unfold field_shown in *. destruct (f_isopt f); [|auto]. destruct v; auto. destruct (f_ty f); auto.
Qed.
Lemma tuple_shown_impl {doc} (P Q : ty -> val -> doc -> Prop) ts l ds : (forall t v d, P t v d -> Q t v d) ->
  tuple_shown P ts l ds -> tuple_shown Q ts l ds.
Proof. intros PQ. induction 1; constructor; auto. Qed.
Lemma forall2_impl {A B} (P Q : A -> B -> Prop) l m : (forall a b, P a b -> Q a b) -> Forall2 P l m -> Forall2 Q l m.
Proof. intros PQ. induction 1; constructor; auto. Qed.

Section Write.
  Variables (F : flt) (c : cfg) (G : env).
  Hypothesis HF : flt_ok F.
  Hypothesis Hc : cfg_ok c.
  Notation den := (denotes F).
  Notation ser := (ser_text F c G Json).
  Notation shw := (shows F c G).
  Definition written (n : nat) (t : ty) (v : val) (d : doc) : Prop := exists out, ser n t v = Ok out /\ den d out.

  Lemma list_written n t l ds : Forall2 (written n t) l ds -> exists ps, rall (map (ser n t) l) = Ok ps /\ Forall2 den ds ps.
  Proof.
    induction 1 as [|v d l ds (x & Ex & Dx) H (ps & Ep & Dp)]; [exists []; split; [reflexivity | constructor]|].
    exists (x :: ps). cbn [map rall]. rewrite Ex. cbn [rbind]. rewrite Ep. split; [reflexivity | constructor; assumption].
  Qed.
  Lemma tys_written n ts l ds : tuple_shown (written n) ts l ds -> exists ps, ser_tys (ser n) ts l = Ok ps /\ Forall2 den ds ps.
  Proof.
    induction 1 as [|t v d ts l ds (x & Ex & Dx) H (ps & Ep & Dp)]; [exists []; split; [reflexivity | constructor]|].
    exists (x :: ps). cbn [ser_tys]. rewrite Ex. cbn [rbind]. rewrite Ep. split; [reflexivity | constructor; assumption].
  Qed.
  Lemma tuple_shown_length {doc} (s : ty -> val -> doc -> Prop) ts l ds : tuple_shown s ts l ds -> length l = length ts /\ length ds = length ts.
  Proof. induction 1 as [|? ? ? ? ? ? ? ? [A B]]; cbn; auto. Qed.
  Lemma unnamed_written n fs l ds : tuple_shown (written n) (map f_ty fs) l ds ->
    exists ps, ser_unnamed Json (ser n) fs l = Ok (join (chars ", ") ps) /\ Forall2 den ds ps.
  Proof.
    revert l ds. induction fs as [|f fs IH]; intros l ds H; inversion H as [|t v d ts l' ds' (x & Ex & Dx) H' E1 E2 E3]; subst.
    - exists []. split; [reflexivity | constructor].
    - destruct (IH _ _ H') as (ps & Ep & Dp). exists (x :: ps). split; [|constructor; assumption].
      cbn [ser_unnamed]. rewrite Ex. cbn [rbind]. rewrite Ep. cbn [rbind]. f_equal.
      destruct fs as [|g fs]; cbn [map] in H'; inversion H'; subst; inversion Dp; subst; [cbn; rewrite ?app_nil_r; reflexivity | reflexivity].
  Qed.
  Lemma field_written n null name f v d : json_name name -> field_shown (written n) null f v d ->
    exists s, ser_field Json (ser n) null name f v = Ok (Some s) /\ mem F (name, d) s.
  Proof.
    intros Hn H. unfold field_shown, ser_field in *. destruct (f_isopt f).
    - destruct v; try contradiction.
      + destruct H as [-> ->]. eexists. split; [reflexivity|]. apply mem_of; [exact Hn | apply dn_null].
      + unfold ser_some. destruct (f_ty f); try contradiction; destruct H as (x & Ex & Dx); rewrite Ex; (eexists; split; [reflexivity|]; apply mem_of; assumption).
    - destruct H as (x & Ex & Dx). rewrite Ex. eexists. split; [reflexivity|]. apply mem_of; assumption.
  Qed.
  Lemma named_written n cn fs l ms : members_shown (written n) f_skip (none_as_null Json cn) key_of_field fs l ms ->
    exists ps, ser_named Json (ser n) cn fs l = Ok ps /\ Forall2 (mem F) ms ps.
  Proof.
    induction 1 as [|f v fs l ms Hs H (ps & Ep & Dp)|f fs l ms Hs Ho Hn H (ps & Ep & Dp)|f v d fs l ms Hs Hk Hf H (ps & Ep & Dp)];
      cbn [ser_named]; rewrite ?Hs.
    - exists []. split; [reflexivity | constructor].
    - exists ps. auto.
    - exists ps. unfold ser_field. rewrite Ho. change (null_on_none Json cn f) with (none_as_null Json cn f). rewrite Hn. cbn [rbind]. rewrite Ep. auto.
    - destruct (field_written n _ (key_of_field f) f v d Hk Hf) as (s & Es & Ds).
      change (null_on_none Json cn f) with (none_as_null Json cn f). change (field_key f) with (key_of_field f). rewrite Es. cbn [rbind]. rewrite Ep.
      exists (s :: ps). split; [reflexivity | constructor; assumption].
  Qed.
  Lemma none_written (sh : ty -> val -> doc -> Prop) null key FS L ms : members_shown sh (fun _ => false) null key FS L ms ->
    forall fs f l v, ms = [] -> FS = fs ++ [f] -> L = l ++ [v] -> f_isopt f = true /\ v = VNone.
  Proof.
    induction 1 as [|f v fs l ms Hs H IH|f fs l ms Hs Ho Hn H IH|f v d fs l ms Hs Hk Hf H IH]; intros fs0 f0 l0 v0 E1 E2 E3.
    - destruct fs0; discriminate.
    - discriminate.
    - destruct fs0 as [|g fs0]; cbn [app] in E2; injection E2 as -> ->.
      + assert (l = []) as -> by (inversion H; reflexivity). destruct l0 as [|w [|w' l0]]; try discriminate. injection E3 as <-. auto.
      + destruct l0 as [|w l0]; cbn [app] in E3; injection E3 as E3 E4; [subst; inversion H; destruct fs0; discriminate|].
        apply (IH fs0 f0 l0 v0 E1 eq_refl E4).
    - discriminate.
  Qed.
  Lemma variant_written n fs l ms : members_shown (written n) (fun _ => false) (fun _ => false) f_name fs l ms ->
    no_loose_comma fs l ms ->
    exists ps, ser_variant_fields Json (ser n) fs l = Ok (join comma ps) /\ Forall2 (mem F) ms ps.
  Proof.
    induction 1 as [|f v fs l ms Hs H IH|f fs l ms Hs Ho Hn H IH|f v d fs l ms Hs Hk Hf H IH]; intro Hc';
      cbn [ser_variant_fields].
    - exists []. split; [reflexivity | constructor].
    - discriminate.
    - destruct IH as (ps & Ep & Dp).
      { destruct Hc' as [-> |(fs' & f0 & l' & v0 & E1 & E2 & Hv)]; [left; reflexivity|].
        destruct fs' as [|g fs']; cbn [app] in E1; injection E1 as -> ->.
        - assert (l = []) as -> by (inversion H; reflexivity). destruct l' as [|w [|w' l']]; try discriminate. injection E2 as <-. exfalso. apply (Hv Ho). reflexivity.
        - destruct l' as [|w l']; cbn [app] in E2; injection E2 as E2 E3; [subst; inversion H; destruct fs'; discriminate|]. right. exists fs', f0, l', v0. auto. }
      exists ps. unfold ser_field. rewrite Ho. cbn [rbind]. rewrite Ep. auto.
    - destruct (field_written n _ (f_name f) f v d Hk Hf) as (s & Es & Ds). cbv beta in Es. rewrite Es. cbn [rbind].
      destruct Hc' as [E|(fs' & f0 & l' & v0 & E1 & E2 & Hv)]; [discriminate|].
      destruct fs' as [|g fs']; cbn [app] in E1; injection E1 as -> ->.
      + inversion H; subst. cbn. exists [s]. cbn. rewrite ?app_nil_r. split; [reflexivity | repeat constructor; exact Ds].
      + destruct l' as [|w l']; cbn [app] in E2; injection E2 as E2 E3; [subst; inversion H; destruct fs'; discriminate|].
        destruct IH as (ps & Ep & Dp); [right; exists fs', f0, l', v0; auto|].
        rewrite Ep. cbn [rbind]. exists (s :: ps). split; [|constructor; assumption].
        assert (N : ms <> []).
        { intro E. subst ms l. destruct (none_written _ _ _ _ _ _ H fs' f0 l' v0 eq_refl eq_refl eq_refl) as [A B]. apply (Hv A B). }
        f_equal. destruct Dp as [|m p ms ps Hm Dp]; [congruence|]. destruct fs'; reflexivity.
  Qed.
  Theorem shows_written n : forall t v d, shows F c G n t v d -> written n t v d.
  Proof.
    induction n as [|n IH]; intros t v d H; [contradiction|]. unfold written.
    destruct t as [k| | | | | |t'|k t'|k tk tv|m t'|ts|t'| | |p t'|i].
    - destruct v; try contradiction. destruct H as (K1 & K2 & Hz & (s & Hs & ->)). exists s. apply literal_dec in Hs. subst s. split.
      + cbn [ser_text]. destruct k; congruence.
      + apply dn_num, dec_z_ok. eapply int_range; eassumption.
    - destruct v; try contradiction. destruct H as [Hb ->]. eexists. split; [reflexivity|]. apply dn_num.
      destruct (show32_parse F HF _ Hb) as (b & Eb & _). eapply float_ok; [apply (show32_text F HF); exact Hb | exact Eb].
    - destruct v; try contradiction. destruct H as [Hb ->]. eexists. split; [reflexivity|]. apply dn_num.
      eapply float_ok; [apply (show64_text F HF); exact Hb | apply (show64_parse F HF); exact Hb].
    - destruct v; try contradiction. cbn [shows] in H. subst d. eexists. split; [reflexivity|]. destruct b; constructor.
    - destruct v; try contradiction. cbn [shows] in H. subst d. eexists. split; [reflexivity|]. apply (dn_str F), esc_chars.
    - destruct v; try contradiction. cbn [shows] in H. subst d. eexists. split; [reflexivity|]. constructor.
    - destruct v; try contradiction; cbn [shows] in H; [subst d; eexists; split; [reflexivity | constructor]|]. apply IH. exact H.
    - destruct v; try contradiction. destruct H as (ds & -> & H).
      destruct (list_written n t' l ds (forall2_impl _ _ _ _ (IH t') H)) as (ps & Ep & Dp). cbn [ser_text]. rewrite Ep.
      eexists. split; [reflexivity|]. apply (wrap_array F []); [apply gap0 | exact Dp].
    - destruct v; try contradiction. destruct H as (ms & -> & H). cbn [ser_text].
      assert (X : exists ps, rall (map (ser_entry (ser n) tk tv) l) = Ok ps /\ Forall2 (mem F) ms ps).
      { induction H as [|e [k0 d] l ms [H1 H2] H (ps & Ep & Dp)]; [exists []; split; [reflexivity | constructor]|]. cbn [fst snd] in *.
        destruct (IH _ _ _ H1) as (a & Ea & Da). destruct (IH _ _ _ H2) as (b & Eb & Db). inversion Da as [| | | |kb ? Hkb| | | |]; subst.
        exists ((quoted kb ++ [58] ++ b) :: ps). cbn [map rall]. unfold ser_entry at 1. rewrite Ea, Eb. cbn [rbind]. rewrite Ep. split; [reflexivity|].
        constructor; [|exact Dp]. exists kb, b. auto. }
      destruct X as (ps & Ep & Dp). rewrite Ep. eexists. split; [reflexivity|]. apply wrap_object. exact Dp.
    - destruct v; try contradiction. destruct H as (Hlen & Hm & ds & -> & H). cbn [ser_text].
      destruct (list_written n t' l ds (forall2_impl _ _ _ _ (IH t') H)) as (ps & Ep & Dp). destruct l as [|v0 l].
      + destruct m; [|discriminate]. rewrite (Hm eq_refl). inversion H; subst. eexists. split; [reflexivity|]. apply (dn_arr0 F []). apply gap0.
      + rewrite Ep. eexists. split; [reflexivity|]. apply (wrap_array F []); [apply gap0 | exact Dp].
    - destruct v; try contradiction. destruct H as (Hl & ds & -> & H). cbn [ser_text].
      assert (tuple_arity (length ts) = true) as -> by (apply andb_true_iff; split; apply Nat.leb_le; lia).
      destruct (tys_written n ts l ds (tuple_shown_impl _ _ _ _ _ IH H)) as (ps & Ep & Dp). rewrite Ep.
      eexists. split; [reflexivity|]. apply (wrap_array F []); [apply gap0 | exact Dp].
    - cbn [shows] in H. assert (H' : shw n t' v d) by (destruct v; exact H). destruct (IH _ _ _ H') as (out & E & D). exists out.
      split; [|exact D]. cbn [ser_text]. destruct v; exact E.
    - destruct v; try contradiction. destruct H as (H1 & H2 & H3). eexists. split; [reflexivity|]. apply dur_written; assumption.
    - destruct v; try contradiction. cbn [ser_text]. eexists. split; [reflexivity|]. destruct H as [[H ->]|(H1 & H2 & H3)].
      + destruct (Z.ltb_spec secs 0); [constructor | lia].
      + destruct (Z.ltb_spec secs 0); [lia|]. apply dur_written; [lia | exact H2 | exact H3].
    - cbn [shows] in H. assert (H' : shw n t' (p_to p v) d) by (destruct v; exact H). destruct (IH _ _ _ H') as (out & E & D). exists out.
      split; [|exact D]. cbn [ser_text]. destruct v; exact E.
    - cbn [shows ser_text] in *. destruct (nth_error G i) as [[dflt cn fs|tr fs|vs|p t']|] eqn:EG; [| | | |destruct v; contradiction].
      + destruct v; try contradiction. destruct H as (ms & -> & H).
        destruct (named_written n cn fs l ms (members_shown_impl _ _ _ _ _ _ _ _ IH H)) as (ps & Ep & Dp). rewrite Ep.
        eexists. split; [reflexivity|]. apply wrap_object. exact Dp.
      + destruct v; try contradiction. destruct H as [Hp H]. rewrite Hp.
        assert (Hw : forall ds, d = JArr ds -> tuple_shown (shw n) (map f_ty fs) l ds ->
                  exists out, rmap (wrap (t_open Json) (t_close Json)) (ser_unnamed Json (ser n) fs l) = Ok out /\ den d out).
        { intros ds -> X. destruct (unnamed_written n fs l ds (tuple_shown_impl _ _ _ _ _ IH X)) as (ps & Ep & Dp). rewrite Ep.
          eexists. split; [reflexivity|]. apply (wrap_array F [32]); [repeat constructor; left; reflexivity | exact Dp]. }
        destruct fs as [|f [|g fs]].
        * destruct H as [-> ->]. eexists. split; [reflexivity|]. apply (dn_obj0 F []). apply gap0.
        * destruct tr.
          -- destruct H as (w & -> & H). apply IH. exact H.
          -- destruct H as (ds & E & H). inversion H as [|t0 v0 d0 ts0 l0 ds0 H0 H1]; subst. inversion H1; subst. apply (Hw _ eq_refl H).
        * destruct H as (ds & E & H). destruct l as [|w0 [|w1 l]]; apply (Hw ds E H).
      + destruct v; try contradiction. destruct (nth_error vs (N.to_nat tag)) as [vr|]; [|contradiction]. destruct H as [Hk H].
        change (variant_key Json vr) with (key_of_variant Json vr).
        assert (Hnest : forall e body, den e body -> den (JObj [(key_of_variant Json vr, e)]) (wrap c_lcur c_rcur (label Json (key_of_variant Json vr) ++ c_colon :: body))).
        { intros e body Hb. apply (wrap_object F [(key_of_variant Json vr, e)] [label Json (key_of_variant Json vr) ++ c_colon :: body]). constructor; [|constructor].
          exists (key_of_variant Json vr), body. split; [reflexivity|]. split; [apply name_chars; exact Hk | exact Hb]. }
        destruct (v_body vr) as [|ts|fs].
        * destruct H as [-> ->]. eexists. split; [reflexivity|]. apply (dn_str F), name_chars, Hk.
        * destruct H as (Hne & ds & -> & H). destruct (tys_written n ts l ds (tuple_shown_impl _ _ _ _ _ IH H)) as (ps & Ep & Dp).
          destruct ts as [|t0 ts]; [congruence|]. rewrite Ep. eexists. split; [reflexivity|]. apply Hnest. apply (wrap_array F []); [apply gap0 | exact Dp].
        * destruct H as (ms & -> & H & Hl). destruct (variant_written n fs l ms (members_shown_impl _ _ _ _ _ _ _ _ IH H) Hl) as (ps & Ep & Dp). rewrite Ep.
          eexists. split; [reflexivity|]. apply Hnest, wrap_object. exact Dp.
      + assert (H' : shw n t' (p_to p v) d) by (destruct v; exact H). destruct (IH _ _ _ H') as (out & E & D). exists out.
        split; [|exact D]. destruct v; exact E.
  Qed.
End Write.

(** ** More fuel *)
Lemma shows_S F c G n : forall t v d, shows F c G n t v d -> shows F c G (S n) t v d.
Proof.
  induction n as [|n IH]; intros t v d H; [contradiction|]. remember (S n) as m. cbn [shows]. rewrite Heqm in H. cbn [shows] in H.
  assert (IH2 : forall t v d, shows F c G n t v d -> shows F c G m t v d) by (subst m; exact IH). clear Heqm IH. rename IH2 into IH.
  destruct t as [k| | | | | |t'|k t'|k tk tv|k t'|ts|t'| | |p t'|i]; try exact H.
  - destruct v; auto.
  - destruct v; auto. destruct H as (ds & -> & H). exists ds. split; [reflexivity|]. eapply forall2_impl; [apply IH | exact H].
  - destruct v; auto. destruct H as (ms & -> & H). exists ms. split; [reflexivity|]. eapply forall2_impl; [|exact H]. cbn. intros a b [X Y]. auto.
  - destruct v; auto. destruct H as (A & B & ds & -> & H). split; [exact A|]. split; [exact B|]. exists ds. split; [reflexivity|]. eapply forall2_impl; [apply IH | exact H].
  - destruct v; auto. destruct H as (A & ds & -> & H). split; [exact A|]. exists ds. split; [reflexivity|]. eapply tuple_shown_impl; [apply IH | exact H].
  - destruct v; apply IH; exact H.
  - destruct v; apply IH; exact H.
  - destruct (nth_error G i) as [[dflt cn fs|tr fs|vs|p t']|]; [| | | |exact H].
    + destruct v; auto. destruct H as (ms & -> & H). exists ms. split; [reflexivity|]. eapply members_shown_impl; [apply IH | exact H].
    + destruct v; auto. destruct H as [A H]. split; [exact A|]. 
      assert (W : (exists ds, d = JArr ds /\ tuple_shown (shows F c G n) (map f_ty fs) l ds) -> exists ds, d = JArr ds /\ tuple_shown (shows F c G m) (map f_ty fs) l ds).
      { intros (ds & E & X). exists ds. split; [exact E|]. eapply tuple_shown_impl; [apply IH | exact X]. }
      destruct fs as [|f [|g fs]]; [exact H | destruct tr; [|apply W; exact H] | apply W; exact H].
      destruct H as (w & -> & H). exists w. auto.
    + destruct v; auto. destruct (nth_error vs (N.to_nat tag)) as [vr|]; auto. destruct H as [A H]. split; [exact A|]. destruct (v_body vr); [exact H | |].
      * destruct H as (B & ds & -> & H). split; [exact B|]. exists ds. split; [reflexivity|]. eapply tuple_shown_impl; [apply IH | exact H].
      * destruct H as (ms & -> & H & B). exists ms. split; [reflexivity|]. split; [|exact B]. eapply members_shown_impl; [apply IH | exact H].
    + destruct v; apply IH; exact H.
Qed.
Lemma shows_le F c G n m t v d : (n <= m)%nat -> shows F c G n t v d -> shows F c G m t v d.
Proof. intro H. induction H as [|m H IH]; [auto|]. intro X. apply shows_S. auto. Qed.

(** ** One document per value *)
Section UniqueList.
  Context {doc : Type}.
  Variable sh : ty -> val -> doc -> Prop.
  Hypothesis Hsh : forall t v d d', sh t v d -> sh t v d' -> d = d'.
  Lemma list_unique t l : forall ds ds', Forall2 (sh t) l ds -> Forall2 (sh t) l ds' -> ds = ds'.
  Proof. induction l as [|v l IH]; intros ds ds' A B; inversion A; inversion B; subst; [reflexivity|]. f_equal; eauto. Qed.
  Lemma tuple_unique ts l ds : tuple_shown sh ts l ds -> forall ds', tuple_shown sh ts l ds' -> ds = ds'.
  Proof. induction 1 as [|t v d ts l ds H1 H IH]; intros ds' B; inversion B; subst; [reflexivity|]. f_equal; eauto. Qed.
End UniqueList.
Section Unique.
  Variable sh : ty -> val -> doc -> Prop.
  Hypothesis Hsh : forall t v d d', sh t v d -> sh t v d' -> d = d'.
  Lemma field_unique null f v d d' : field_shown sh null f v d -> field_shown sh null f v d' -> d = d'.
  Proof.
    unfold field_shown. destruct (f_isopt f); [|apply Hsh]. destruct v; try contradiction; [intros [_ ->] [_ ->]; reflexivity|].
    destruct (f_ty f); try contradiction; apply Hsh.
  Qed.
  Lemma members_unique skip null key fs l ms : members_shown sh skip null key fs l ms -> forall ms', members_shown sh skip null key fs l ms' -> ms = ms'.
  Proof.
    assert (K : forall f d, skip f = false -> f_isopt f = true -> null f = false -> field_shown sh (null f) f VNone d -> False).
    { unfold field_shown. intros f d _ -> -> [X _]. discriminate. }
    induction 1 as [|f v fs l ms Hs H IH|f fs l ms Hs Ho Hn H IH|f v d fs l ms Hs Hk Hf H IH]; intros ms' B; inversion B; subst; try congruence; auto.
    - exfalso. eapply K; eassumption.
    - exfalso. eapply K; eassumption.
    - f_equal; [|auto]. f_equal. eapply field_unique; eassumption.
  Qed.
End Unique.
Lemma number_unique z d d' : number_doc z d -> number_doc z d' -> d = d'.
Proof. intros (s & Hs & ->) (s' & Hs' & ->). apply literal_dec in Hs, Hs'. congruence. Qed.
Lemma dur_unique s ns d d' : dur_doc s ns d -> dur_doc s ns d' -> d = d'.
Proof.
  intros (a & b & Ha & Hb & ->) (a' & b' & Ha' & Hb' & ->).
  rewrite (number_unique _ _ _ Ha Ha'), (number_unique _ _ _ Hb Hb'). reflexivity.
Qed.
Lemma shows_unique F c G n : forall t v d d', shows F c G n t v d -> shows F c G n t v d' -> d = d'.
Proof.
  induction n as [|n IH]; intros t v d d' A B; [contradiction|]. cbn [shows] in A, B.
  destruct t as [k| | | | | |t'|k t'|k tk tv|k t'|ts|t'| | |p t'|i].
  - destruct v; try contradiction. eapply number_unique; [apply A | apply B].
  - destruct v; try contradiction. destruct A, B; congruence.
  - destruct v; try contradiction. destruct A, B; congruence.
  - destruct v; try contradiction. congruence.
  - destruct v; try contradiction. congruence.
  - destruct v; try contradiction. congruence.
  - destruct v; try contradiction; [congruence | eapply IH; eassumption].
  - destruct v; try contradiction. destruct A as (x & -> & A), B as (y & -> & B). f_equal. eapply list_unique; eauto.
  - destruct v; try contradiction. destruct A as (x & -> & A), B as (y & -> & B). f_equal.
    revert y B. induction A as [|e [k0 d0] l x [A1 A2] A IHl]; intros y B; inversion B as [|? [k1 d1] ? y' [B1 B2] B3]; subst; [reflexivity|].
    cbn [fst snd] in *. pose proof (IH _ _ _ _ A1 B1) as E1. injection E1 as ->. rewrite (IH _ _ _ _ A2 B2). f_equal. auto.
  - destruct v; try contradiction. destruct A as (_ & _ & x & -> & A), B as (_ & _ & y & -> & B). f_equal. eapply list_unique; eauto.
  - destruct v; try contradiction. destruct A as (_ & x & -> & A), B as (_ & y & -> & B). f_equal. eapply tuple_unique; eauto.
  - assert (A' : shows F c G n t' v d) by (destruct v; exact A). assert (B' : shows F c G n t' v d') by (destruct v; exact B). eapply IH; eassumption.
  - destruct v; try contradiction. eapply dur_unique; [apply A | apply B].
  - destruct v; try contradiction. destruct A as [[A1 ->]|(A1 & A2 & A3)], B as [[B1 ->]|(B1 & B2 & B3)]; try lia; [reflexivity|]. eapply dur_unique; eassumption.
  - assert (A' : shows F c G n t' (p_to p v) d) by (destruct v; exact A). assert (B' : shows F c G n t' (p_to p v) d') by (destruct v; exact B). eapply IH; eassumption.
  - destruct (nth_error G i) as [[dflt cn fs|tr fs|vs|p t']|]; [| | | |destruct v; contradiction].
    + destruct v; try contradiction. destruct A as (x & -> & A), B as (y & -> & B). f_equal. eapply members_unique; eauto.
    + destruct v; try contradiction. destruct A as [_ A], B as [_ B].
      assert (W : (exists ds, d = JArr ds /\ tuple_shown (shows F c G n) (map f_ty fs) l ds) -> (exists ds, d' = JArr ds /\ tuple_shown (shows F c G n) (map f_ty fs) l ds) -> d = d').
      { intros (x & -> & X) (y & -> & Y). f_equal. eapply tuple_unique; eauto. }
      destruct fs as [|f [|g fs]]; [destruct A, B; congruence | destruct tr; [|apply W; assumption] | apply W; assumption].
      destruct A as (w & -> & A), B as (w' & E & B). injection E as <-. eapply IH; eassumption.
    + destruct v; try contradiction. destruct (nth_error vs (N.to_nat tag)) as [vr|]; [|contradiction]. destruct A as [_ A], B as [_ B].
      destruct (v_body vr).
      * destruct A, B; congruence.
      * destruct A as (_ & x & -> & A), B as (_ & y & -> & B). do 4 f_equal. eapply tuple_unique; eauto.
      * destruct A as (x & -> & A & _), B as (y & -> & B & _). do 4 f_equal. eapply members_unique; eauto.
    + assert (A' : shows F c G n t' (p_to p v) d) by (destruct v; exact A). assert (B' : shows F c G n t' (p_to p v) d') by (destruct v; exact B). eapply IH; eassumption.
Qed.
Lemma shows_one F c G n m t v d d' : shows F c G n t v d -> shows F c G m t v d' -> d = d'.
Proof.
  intros A B. apply (shows_unique F c G (n + m) t v); [apply (shows_le F c G n); [lia | exact A] | apply (shows_le F c G m); [lia | exact B]].
Qed.
