(** C20, C49: what the writers emit. *)
From Verif Require Import Base Utf8 Types TyAll BinModel BinRead SpecBin Text TextModel TextSim TextToks TextLex TextRead SpecText SpecGram SpecTerm SpecRfc TextRound TextGram TextMain BinFuel TextFuel TextRun TextEx PropsBin PropsText.
Local Open Scope N_scope.

Lemma digits_all d : d <> [] -> forallb is_digit d = true -> all_digits d.
Proof.
  intros H1 H2. split; [exact H1|]. rewrite forallb_forall in H2. apply Forall_forall. intros x Hx. apply H2 in Hx.
  unfold is_digit in Hx. lia.
Qed.
Lemma nozero d : d = [48] \/ cur d <> 48 -> no_leading_zero d.
Proof. intros [H|H]; [left; exact H | right]. intros r ->. apply H. reflexivity. Qed.
Lemma dec_number sg n : sg = [] \/ sg = [45] -> rfc_number (sg ++ dec n).
Proof.
  intro Hs. exists sg, (dec n), [], []. rewrite !app_nil_r. split; [reflexivity|]. split.
  - split; [exact Hs|]. split; [apply digits_all; [apply dec_nonempty | apply dec_digits]|]. split; left; reflexivity.
  - apply nozero, dec_nozero.
Qed.
Lemma dec_z_number z : rfc_number (dec_z z).
Proof. unfold dec_z. destruct (z <? 0)%Z; [apply (dec_number [45]); auto | apply (dec_number []); auto]. Qed.
Lemma float_number s : float_text s -> rfc_number s.
Proof.
  intros (sg & ip & fr & ex & -> & H1 & H2 & H3 & H4 & H5 & _). exists sg, ip, fr, ex. split; [reflexivity|]. split.
  - split; [exact H1|]. split; [exact H2|]. split; [exact H4|]. destruct H5 as [H5|(es & d & -> & He & Hd)]; [left; exact H5|].
    right. exists 101, es, d. split; [reflexivity|]. split; [auto|]. split; [destruct He as [-> | ->]; auto | exact Hd].
  - apply nozero; exact H3.
Qed.

Lemma hexdig_hex d : d < 16 -> hex_digit (hexdig d) d.
Proof. intro H. unfold hexdig, hex_digit. destruct (N.ltb_spec d 10); lia. Qed.
Lemma chars_app esc a x b y : chars_by esc a x -> chars_by esc b y -> chars_by esc (a ++ b) (x ++ y).
Proof.
  intros H Hb. induction H as [|c t s H1 H2 H3 H IH|e c t s H1 H IH|h n t s H1 H2 H3 H IH|h1 n1 h2 n2 t s H1 H2 H3 H4 H IH]; cbn [app].
  - exact Hb.
  - apply ch_plain; auto.
  - apply ch_esc; auto.
  - rewrite <- !app_assoc. apply (ch_hex h n (t ++ b) (s ++ y)); auto.
  - rewrite <- !app_assoc. cbn [app]. rewrite <- !app_assoc. apply (ch_pair h1 n1 h2 n2 (t ++ b) (s ++ y)); auto.
Qed.
Lemma hex4_quad x : x < 65536 -> hex_quad (hex4 x) x.
Proof.
  intro H. unfold hex4. do 4 eexists. exists (x / 4096 mod 16), (x / 256 mod 16), (x / 16 mod 16), (x mod 16).
  split; [reflexivity|]. repeat (split; [apply hexdig_hex, N.mod_lt; discriminate|]).
  assert (E1 : x / 256 = x / 16 / 16) by (rewrite N.div_div by discriminate; reflexivity).
  assert (E2 : x / 4096 = x / 16 / 16 / 16) by (rewrite !N.div_div by discriminate; reflexivity).
  assert (E3 : x / 16 / 16 / 16 < 16) by (rewrite !N.div_div by discriminate; apply N.div_lt_upper_bound; [discriminate | exact H]).
  rewrite E1, E2. rewrite (N.mod_small _ _ E3). clear E1 E2 E3 H.
  rewrite (N.div_mod' x 16) at 1. rewrite (N.div_mod' (x / 16) 16) at 1. rewrite (N.div_mod' (x / 16 / 16) 16) at 1.
  generalize (x / 16 / 16 / 16) ((x / 16 / 16) mod 16) ((x / 16) mod 16) (x mod 16). clear. intros. lia.
Qed.
Lemma esc_json_chars x : chars_by escape (esc_char Json x) [x] /\ Forall (fun y => 32 <= y) (esc_char Json x).
Proof.
  assert (E : forall e y, escape e y -> chars_by escape [92; e] [y]) by (intros; apply (ch_esc e y [] []); [assumption | constructor]).
  assert (R : forall e, 32 <= e -> Forall (fun y => 32 <= y) [92; e]) by (intros; constructor; [lia | constructor; [lia | constructor]]).
  unfold esc_char.
  destruct (N.eqb_spec x 8) as [-> |E1]; [split; [apply E; cbn; tauto | apply R; cbv; discriminate]|].
  destruct (N.eqb_spec x 12) as [-> |E2]; [split; [apply E; cbn; tauto | apply R; cbv; discriminate]|].
  destruct (N.eqb_spec x 10) as [-> |E3]; [split; [apply E; cbn; tauto | apply R; cbv; discriminate]|].
  destruct (N.eqb_spec x 13) as [-> |E4]; [split; [apply E; cbn; tauto | apply R; cbv; discriminate]|].
  destruct (N.eqb_spec x 9) as [-> |E5]; [split; [apply E; cbn; tauto | apply R; cbv; discriminate]|].
  destruct ((x <? 32) || (x =? 127)) eqn:E6.
  { split.
    - change (chars "\u") with [92; 117]. rewrite <- (app_nil_r (hex4 x)). apply (ch_hex (hex4 x) x [] []); [apply hex4_quad; lia | | | constructor];
        unfold high_surrogate, low_surrogate; lia.
    - apply Forall_app. split; [repeat constructor; cbn; lia|]. unfold hex4, hexdig. repeat constructor; match goal with |- context [?a <? ?b] => destruct (a <? b) end; lia. }
  apply orb_false_iff in E6 as [E6 E7]. apply N.ltb_ge in E6.
  destruct (N.eqb_spec x c_bslash) as [-> |E8]; [split; [apply E; cbn; tauto | apply R; cbv; discriminate]|].
  destruct (N.eqb_spec x c_quote) as [-> |E9]; [split; [apply E; cbn; tauto | apply R; cbv; discriminate]|].
  unfold c_bslash, c_quote in *. split; [apply (ch_plain x [] []); [lia | lia | lia | constructor] | repeat constructor; exact E6].
Qed.
Lemma esc_json_body s : rfc_body (flat_map (esc_char Json) s).
Proof.
  split.
  - exists s. induction s as [|x s IH]; [constructor|]. cbn [flat_map]. apply (chars_app _ _ [x]); [apply esc_json_chars | exact IH].
  - induction s as [|x s IH]; cbn [flat_map]; [constructor|]. apply Forall_app. split; [apply esc_json_chars | exact IH].
Qed.
Lemma name_body s : json_name s -> printable s -> rfc_body s.
Proof.
  intros H1 H2. split; [|exact H2]. exists s. unfold json_name, c_quote, c_bslash in H1. clear H2.
  induction H1 as [|x s (A & B & C) H IH]; [constructor|]. apply ch_plain; auto.
Qed.

Notation elems := (elements rfc_ws rfc_number rfc_body).
Notation membs := (members rfc_ws rfc_number rfc_body).
Lemma ws0 : rfc_ws []. Proof. constructor. Qed.
Lemma join_elems g ps : rfc_ws g -> Forall rfc_json ps -> ps <> [] -> forall g0, rfc_ws g0 -> elems (g0 ++ join (44 :: g) ps).
Proof.
  intros Hg H. induction H as [|x ps Hx H IH]; intros Hn g0 Hg0; [congruence|]. destruct ps as [|y ps].
  - cbn [join]. rewrite <- (app_nil_r x). apply el_one; auto. apply ws0.
  - pose proof (el_more rfc_ws rfc_number rfc_body g0 x [] (g ++ join (44 :: g) (y :: ps)) Hg0 Hx ws0 (IH ltac:(discriminate) g Hg)) as M.
    exact M.
Qed.
(** ["name":value] *)
Definition member (s : str) : Prop := exists k x, s = quoted k ++ [58] ++ x /\ rfc_body k /\ rfc_json x.
Lemma join_members ps : Forall member ps -> ps <> [] -> membs (join comma ps).
Proof.
  intros H. induction H as [|s ps (k & x & -> & Hk & Hx) H IH]; intro Hn; [congruence|]. destruct ps as [|y ps].
  - cbn [join]. pose proof (me_one rfc_ws rfc_number rfc_body [] k [] [] x [] ws0 Hk ws0 ws0 Hx ws0) as M. cbn [app] in M. rewrite app_nil_r in M. exact M.
  - cbn [join]. pose proof (me_more rfc_ws rfc_number rfc_body [] k [] [] x [] (join comma (y :: ps)) ws0 Hk ws0 ws0 Hx ws0 (IH ltac:(discriminate))) as M.
    cbn [app] in M. unfold comma at 1. rewrite <- !app_assoc. exact M.
Qed.
Lemma wrap_list g ps : rfc_ws g -> Forall rfc_json ps -> rfc_json (wrap 91 93 (join (44 :: g) ps)).
Proof.
  intros Hg H. unfold wrap. destruct ps as [|p ps]; [apply (js_arr0 _ _ _ []); apply ws0|].
  apply js_arr. apply (join_elems g _ Hg H ltac:(discriminate) []). apply ws0.
Qed.
Lemma wrap_obj ps : Forall member ps -> rfc_json (wrap 123 125 (join comma ps)).
Proof.
  intros H. unfold wrap. destruct ps as [|p ps]; [apply (js_obj0 _ _ _ []); apply ws0|].
  apply js_obj. apply join_members; [exact H | discriminate].
Qed.
Lemma member_of k x : rfc_body k -> rfc_json x -> member (field_hdr Json k ++ x).
Proof.
  intros Hk Hx. exists k, x. split; [|auto]. unfold field_hdr, quoted. cbn [app]. f_equal. rewrite <- !app_assoc. reflexivity.
Qed.
Lemma word_null : rfc_json (chars "null"). Proof. apply js_word. left. reflexivity. Qed.
Lemma rmap_ok {E A B} (f : A -> B) (r : res E A) b : rmap f r = Ok b -> exists a, r = Ok a /\ b = f a.
Proof. destruct r; try discriminate. intro H. injection H as <-. eauto. Qed.
Lemma rbind_ok {E A B} (r : res E A) (f : A -> res E B) b : rbind r f = Ok b -> exists a, r = Ok a /\ f a = Ok b.
Proof. destruct r; try discriminate. eauto. Qed.
Lemma rall_ok {E A B} (f : B -> res E A) l : forall ps, rall (map f l) = Ok ps -> Forall2 (fun x p => f x = Ok p) l ps.
Proof.
  induction l as [|x l IH]; intros ps H.
  - injection H as <-. constructor.
  - cbn [map rall] in H. apply rbind_ok in H as (a & Ha & H). apply rmap_ok in H as (r & Hr & ->). constructor; auto.
Qed.
Lemma dur_json s ns : rfc_json (ser_dur s ns).
Proof.
  unfold ser_dur. 
  assert (B1 : rfc_body (chars "secs")) by (apply name_body; repeat constructor; cbv; discriminate).
  assert (B2 : rfc_body (chars "nanos")) by (apply name_body; repeat constructor; cbv; discriminate).
  assert (J : forall n, rfc_json (dec n)) by (intro n; apply js_num; apply (dec_number []); auto).
  destruct (ns =? 0).
  - rewrite app_nil_r. apply (wrap_obj [quoted (chars "secs") ++ [58] ++ dec s]). constructor; [|constructor]. exists (chars "secs"), (dec s). auto.
  - pose proof (wrap_obj [quoted (chars "secs") ++ [58] ++ dec s; quoted (chars "nanos") ++ [58] ++ dec ns]) as W. cbn [join] in W.
    rewrite <- !app_assoc in W. apply W. constructor; [exists (chars "secs"), (dec s); auto|]. constructor; [exists (chars "nanos"), (dec ns); auto | constructor].
Qed.

Section Rfc.
  Variables (F : flt) (c : cfg) (G : env).
  Hypothesis HF : flt_ok F.
  Hypothesis HG : json_env G.
  Notation ser := (ser_text F c G Json).
  Definition emits (n : nat) (t : ty) (v : val) : Prop := forall out, ser n t v = Ok out -> rfc_json out.

  Lemma tys_emit n ts l : Forall2 (emits n) ts l -> forall ps, ser_tys (ser n) ts l = Ok ps -> Forall rfc_json ps.
  Proof.
    induction 1 as [|t v ts l Hv H IH]; intros ps E; cbn [ser_tys] in E; [injection E as <-; constructor|].
    apply rbind_ok in E as (x & Hx & E). apply rmap_ok in E as (r & Hr & ->). constructor; [apply Hv; exact Hx | apply IH; exact Hr].
  Qed.
  Lemma unnamed_emit n fs l : Forall2 (fun f v => emits n (f_ty f) v) fs l -> forall out, ser_unnamed Json (ser n) fs l = Ok out ->
    exists ps, out = join (chars ", ") ps /\ Forall rfc_json ps /\ length ps = length fs.
  Proof.
    induction 1 as [|f v fs l Hv H IH]; intros out E; cbn [ser_unnamed] in E.
    - injection E as <-. exists []. repeat split. constructor.
    - apply rbind_ok in E as (x & Hx & E). apply rbind_ok in E as (r & Hr & E). injection E as <-.
      destruct (IH r Hr) as (ps & -> & Hps & Hl). exists (x :: ps). split; [|split; [constructor; [apply Hv; exact Hx | exact Hps] | cbn; congruence]].
      destruct fs, ps; try discriminate; cbn [join app]; [rewrite app_nil_r|]; reflexivity.
  Qed.
  (** One field. *)
  Definition field_emits (n : nat) (f : field) (v : val) : Prop :=
    (f_isopt f = false -> emits n (f_ty f) v) /\
    (f_isopt f = true -> forall w, v = VSome w -> match f_ty f with TOpt t => emits n t w | TProxy p t => emits n (TProxy p t) w | _ => True end).
  Lemma field_emit n null name f v o : rfc_body name -> field_emits n f v -> ser_field Json (ser n) null name f v = Ok o ->
    match o with Some s => member s | None => f_isopt f = true end.
  Proof.
    intros Hn [H1 H2] E. unfold ser_field in E. destruct (f_isopt f).
    - destruct v; try discriminate.
      + injection E as <-. destruct null; [apply member_of; [exact Hn | apply word_null] | reflexivity].
      + apply rmap_ok in E as (x & Hx & ->). apply member_of; [exact Hn|]. unfold ser_some in Hx. specialize (H2 eq_refl v eq_refl).
        destruct (f_ty f); try discriminate; apply H2; exact Hx.
    - apply rmap_ok in E as (x & Hx & ->). apply member_of; [exact Hn|]. apply (H1 eq_refl). exact Hx.
  Qed.
  Lemma named_emit n cn fs l : Forall2 (fun f v => f_skip f = false -> field_emits n f v /\ rfc_body (field_key f)) fs l ->
    forall ps, ser_named Json (ser n) cn fs l = Ok ps -> Forall member ps.
  Proof.
    induction 1 as [|f v fs l Hv H IH]; intros ps E; cbn [ser_named] in E; [injection E as <-; constructor|].
    destruct (f_skip f); [apply IH; exact E|]. destruct (Hv eq_refl) as [Hf Hk].
    apply rbind_ok in E as (o & Ho & E). apply rbind_ok in E as (r & Hr & E). injection E as <-.
    pose proof (field_emit n _ _ f v o Hk Hf Ho) as X. specialize (IH r Hr). destruct o; [constructor; assumption | exact IH].
  Qed.
  Lemma variant_emit n fs l : Forall2 (fun f v => field_emits n f v /\ rfc_body (f_name f)) fs l ->
    (forall p f, fs = p ++ [f] -> f_isopt f = false) ->
    forall out, ser_variant_fields Json (ser n) fs l = Ok out -> exists ps, out = join comma ps /\ Forall member ps /\ (fs <> [] -> ps <> []).
  Proof.
    induction 1 as [|f v fs l [Hf Hk] H IH]; intros Hlast out E; cbn [ser_variant_fields] in E.
    - injection E as <-. exists []. repeat split; [constructor | congruence].
    - apply rbind_ok in E as (o & Ho & E). apply rbind_ok in E as (r & Hr & E). injection E as <-.
      pose proof (field_emit n _ _ f v o Hk Hf Ho) as X.
      destruct (IH ltac:(intros p g ->; apply (Hlast (f :: p) g); reflexivity) r Hr) as (ps & -> & Hps & Hne).
      destruct o as [s|].
      + exists (s :: ps). split; [|split; [constructor; assumption | discriminate]]. destruct fs as [|g fs].
        * inversion H; subst. cbn in Hr. injection Hr as Hr. destruct ps as [|q ps]; [cbn; rewrite ?app_nil_r; reflexivity|].
          exfalso. inversion Hps as [|? ? (k & x & -> & _) _]; subst. destruct ps; discriminate.
        * destruct ps as [|q ps]; [exfalso; apply Hne; [discriminate | reflexivity]|]. reflexivity.
      + exists ps. split; [reflexivity|]. split; [exact Hps|]. intros _. apply Hne. intros ->.
        specialize (Hlast [] f eq_refl). congruence.
  Qed.

  Lemma key_emit n t v out : string_key t -> text_value c G Json n t v -> ser n t v = Ok out -> exists b, out = quoted b /\ rfc_body b.
  Proof.
    revert t v. induction n as [|n IH]; intros t v Hk Hv E; [contradiction|].
    destruct t; try contradiction; cbn [text_value ser_text] in *.
    - destruct v; try contradiction. injection E as <-. exists (flat_map (esc_char Json) s). split; [reflexivity | apply esc_json_body].
    - apply (IH t v Hk Hv). destruct v; exact E.
  Qed.

  Theorem emits_json n : forall t v, text_value c G Json n t v -> ty_all json_node t -> emits n t v.
  Proof.
    destruct HG as [HGn HGd].
    induction n as [|n IH]; intros t v Hv Ht out E; [contradiction|].
    assert (Hdecl : forall i d, nth_error G i = Some d -> decl_all json_node d /\ json_decl d).
    { intros i d Hi. split; [eapply env_all_nth; eassumption|]. rewrite Forall_forall in HGd. apply HGd. eapply nth_error_In; exact Hi. }
    assert (Hfield : forall null f v, ty_all json_node (f_ty f) -> field_value (text_value c G Json n) (looks_none G Json n) null f v ->
              f_skip f = false -> field_emits n f v).
    { intros null f w Hf [Hw Hx] Hs. rewrite Hs in Hx. split; intro Ho; rewrite Ho in Hx.
      - apply IH; assumption.
      - intros w0 ->. destruct (f_ty f) eqn:Et; try exact I; [apply IH; [apply Hx | apply Hf] | apply IH; [apply Hx | apply Hf]]. }
    destruct t.
    - (* ints *) destruct v; cbn [text_value] in Hv; try (destruct k; contradiction). destruct Hv as (H1 & H2 & _).
      cbn [ser_text] in E. destruct k; try congruence; injection E as <-; apply js_num, dec_z_number.
    - destruct v; try contradiction. injection E as <-. apply js_num, float_number. apply (show32_text F HF). exact Hv.
    - destruct v; try contradiction. injection E as <-. apply js_num, float_number. apply (show64_text F HF). exact Hv.
    - destruct v; try contradiction. injection E as <-. apply js_word. destruct b; cbn; unfold json_word; auto.
    - destruct v; try contradiction. injection E as <-. apply js_str, esc_json_body.
    - destruct v; try contradiction. injection E as <-. apply word_null.
    - destruct v; try contradiction; cbn [ser_text] in E; [injection E as <-; apply word_null|]. apply (IH _ _ (proj1 Hv) (proj2 Ht) _ E).
    - destruct v; try contradiction. cbn [ser_text] in E. apply rmap_ok in E as (ps & Hps & ->). apply rall_ok in Hps.
      change comma with (44 :: @nil N) in *. apply (wrap_list [] ps ws0). destruct Hv as [Hv _].
      revert Hv. induction Hps as [|x p l ps Hx H IHl]; intro Hv; [constructor|]. inversion Hv; subst.
      constructor; [apply (IH _ _ H2 (proj2 Ht) _ Hx) | auto].
    - destruct v; try contradiction. cbn [ser_text] in E. apply rmap_ok in E as (ps & Hps & ->). apply rall_ok in Hps.
      apply wrap_obj. destruct Hv as [Hv _]. destruct Ht as (Hk & Ht1 & Ht2).
      revert Hv. induction Hps as [|x p l ps Hx H IHl]; intro Hv; [constructor|]. inversion Hv as [|? ? [Hv1 Hv2] Hv3]; subst.
      constructor; [|auto]. unfold ser_entry in Hx. apply rbind_ok in Hx as (a & Ha & Hx). apply rbind_ok in Hx as (b & Hb & Hx). injection Hx as <-.
      destruct (key_emit n _ _ a Hk Hv1 Ha) as (q & -> & Hq). exists q, b. split; [reflexivity|]. split; [exact Hq|]. apply (IH _ _ Hv2 Ht2 _ Hb).
    - destruct v; try contradiction. cbn [ser_text] in E. destruct Hv as (_ & Hv & _). destruct l as [|v0 l].
      + destruct (overflow_checks c); [discriminate|]. injection E as <-. apply (js_arr0 _ _ _ []). apply ws0.
      + apply rmap_ok in E as (ps & Hps & ->). apply rall_ok in Hps. apply (wrap_list [] ps ws0).
        revert Hv. induction Hps as [|x p l' ps Hx H IHl]; intro Hv; [constructor|]. inversion Hv; subst.
        constructor; [apply (IH _ _ H2 (proj2 Ht) _ Hx) | auto].
    - destruct v; try contradiction. cbn [ser_text] in E. destruct (tuple_arity (length ts)); [|discriminate].
      apply rmap_ok in E as (ps & Hps & ->). apply (wrap_list [] ps ws0). eapply tys_emit; [|exact Hps].
      destruct Hv as [_ Hv]. destruct Ht as [_ Ht]. apply ty_all_list in Ht. clear Hps. revert Ht. induction Hv as [|x y ts l Hx H IHl]; intro Ht; inversion Ht; subst; constructor; auto.
    - cbn [ser_text] in E. assert (E' : ser n t v = Ok out) by (destruct v; exact E). apply (IH _ _ Hv (proj2 Ht) _ E').
    - destruct v; try contradiction. injection E as <-. apply dur_json.
    - destruct v; try contradiction. cbn [ser_text] in E. injection E as <-. destruct (secs <? 0)%Z; [apply word_null | apply dur_json].
    - cbn [ser_text] in E. assert (E' : ser n t (p_to p v) = Ok out) by (destruct v; exact E).
      apply (IH _ _ (proj1 (proj2 Hv)) (proj2 Ht) _ E').
    - (* named *) cbn [text_value ser_text] in *. destruct (nth_error G n0) as [d|] eqn:EG; [|contradiction].
      destruct (Hdecl _ _ EG) as [Da Dj].
      destruct d as [dflt cn fs|tr fs|vs|p t'].
      + destruct v; try contradiction. destruct Hv as (_ & Hn & Hv). apply rmap_ok in E as (ps & Hps & ->). apply wrap_obj.
        eapply named_emit; [|exact Hps]. cbn in Da, Dj. clear - Hv Da Dj Hn Hfield.
        revert Da Dj Hn. induction Hv as [|f v fs l Hf H IHl]; intros Da Dj Hn; [constructor|].
        inversion Da as [|? ? A1 A2]; inversion Dj as [|? ? B1 B2]; inversion Hn as [|? ? C1 C2]; subst. constructor; [|auto].
        intro Hs. split; [eapply Hfield; eauto | apply name_body; [apply (C1 Hs) | exact B1]].
      + destruct v; try contradiction. destruct Hv as [Hv _]. destruct (existsb f_hasproxy fs); [discriminate|]. cbn in Da.
        assert (He : Forall2 (fun f v => emits n (f_ty f) v) fs l).
        { clear E EG Dj. revert Da. induction Hv as [|f v fs l [_ Hf] H IHl]; intro Da; [constructor|]. inversion Da as [|? ? A1 A2]; subst.
          constructor; [apply IH; [exact Hf | exact A1] | auto]. }
        assert (Hw : forall out, rmap (wrap (t_open Json) (t_close Json)) (ser_unnamed Json (ser n) fs l) = Ok out -> rfc_json out).
        { intros o Ho. apply rmap_ok in Ho as (x & Hx & ->). destruct (unnamed_emit n fs l He x Hx) as (ps & -> & Hps & _).
          apply (wrap_list [32] ps); [repeat constructor; left; reflexivity | exact Hps]. }
        destruct fs as [|f [|g fs]].
        * destruct l; [injection E as <-; apply (js_obj0 _ _ _ []); apply ws0 | inversion Hv].
        * destruct l as [|w0 [|w1 l]]; [inversion Hv| |inversion Hv as [|? ? ? ? ? X]; inversion X]. destruct tr; [|apply Hw; exact E].
          inversion He; subst. auto.
        * apply Hw. destruct l as [|w0 [|w1 l]]; exact E.
      + destruct v; try contradiction. destruct Hv as [_ Hv]. destruct (nth_error vs (N.to_nat tag)) as [vr|] eqn:Ev; [|contradiction].
        destruct Hv as [Hg Hv]. pose proof (decl_all_variant _ _ _ _ Da Ev) as Dv.
        assert (Dk : printable (key_of_variant Json vr) /\ match v_body vr with BStruct fs => Forall (fun f => printable (f_name f)) fs /\ forall p f, fs = p ++ [f] -> f_isopt f = false | _ => True end).
        { cbn in Dj. rewrite Forall_forall in Dj. apply Dj. eapply nth_error_In; exact Ev. }
        destruct Dk as [Dk Dk2]. assert (Kb : rfc_body (variant_key Json vr)) by (apply name_body; assumption).
        assert (Hnest : forall body, rfc_json body -> rfc_json (wrap c_lcur c_rcur (label Json (variant_key Json vr) ++ c_colon :: body))).
        { intros body Hb. apply (wrap_obj [label Json (variant_key Json vr) ++ c_colon :: body]). constructor; [|constructor].
          exists (variant_key Json vr), body. auto. }
        destruct (v_body vr) as [|ts|fs].
        * subst l. injection E as <-. apply js_str. exact Kb.
        * destruct Hv as [Hne Hv]. destruct ts as [|t0 ts]; [congruence|]. apply rmap_ok in E as (ps & Hps & ->). apply Hnest.
          apply (wrap_list [] ps ws0). eapply tys_emit; [|exact Hps]. clear - Hv Dv IH.
          remember (t0 :: ts) as ts' eqn:X. clear X. revert Dv. induction Hv as [|x y ts' l Hx H IHl]; intro Dv; inversion Dv; subst; constructor; auto.
        * destruct Hv as (_ & Hn & Hv). destruct Dk2 as [Dk2 Dl]. apply rmap_ok in E as (b & Hb & ->). apply Hnest.
          assert (X : Forall2 (fun f v => field_emits n f v /\ rfc_body (f_name f)) fs l).
          { clear - Hv Dv Dk2 Hn Hfield. revert Dv Dk2 Hn. induction Hv as [|f v fs l Hf H IHl]; intros Dv Dk2 Hn; inversion Dv; subst; inversion Dk2; subst; inversion Hn as [|? ? (N1 & N2 & N3) N4]; subst; constructor; auto.
            split; [eapply Hfield; eauto | apply name_body; assumption]. }
          destruct (variant_emit n fs l X Dl b Hb) as (ps & -> & Hps & _). apply wrap_obj. exact Hps.
      + apply (IH _ _ (proj1 (proj2 Hv)) Da). destruct v; exact E.
  Qed.
End Rfc.

(** ** C20 *)
Theorem C20_valid_json F c G n t v : flt_ok F -> cfg_ok c -> json_env G -> ty_all json_node t -> text_value c G Json n t v ->
  exists out, writes F c G Json t v out /\ rfc_json out.
Proof.
  intros HF Hc HG Ht Hv. destruct (written_ok F c G Json HF Hc n t v Hv) as (w & Hs & _). exists (fst w).
  split; [exists n; exact Hs|]. apply (emits_json F c G HF HG n t v Hv Ht). apply Hs. apply le_n.
Qed.

(** 0: [enum E { Unit, Pair(Box<E>, u8), Rec { o: Option<i8>, name: String } }]
    1: [struct S { e: E, m: BTreeMap<String, bool>, o: Option<u8>, x: f64, at: SystemTime, p: (u8, bool) }] *)
Definition Gj : env :=
  [ DEnum [ {| v_name := chars "Unit"; v_rename := None; v_body := BUnit |};
            {| v_name := chars "Pair"; v_rename := None; v_body := BTuple [TBox (TNamed 0); TInt U8] |};
            {| v_name := chars "Rec"; v_rename := None;
               v_body := BStruct [opt_field (chars "o") (TInt I8); fld (chars "name") false (VStr []) TStr] |} ];
    DStruct false false
      [ fld (chars "e") false VUnit (TNamed 0);
        fld (chars "m") false (VMap []) (TMap MBTree TStr TBool);
        opt_field (chars "o") (TInt U8);
        fld (chars "x") false (VF 0) TF64;
        fld (chars "at") false (VTime 0 0) TTime;
        fld (chars "p") false VUnit (TTup [TInt U8; TBool]) ] ].
Definition vj : val :=
  VSeq [VEnum 1 [VEnum 2 [VNone; VStr [34; 10; 1; 233]]; VZ 7]; VMap [(VStr (chars "a"), VBool true); (VStr (chars "b"), VBool false)];
        VSome (VZ 3); VF 1; VTime 5 6; VSeq [VZ 1; VBool true]].
Lemma Gj_json : json_env Gj.
Proof.
  split; [repeat (constructor; cbn); auto|]. repeat (constructor; cbn); try (cbv; discriminate).
  intros p f E. destruct p as [|a [|b p]]; [discriminate | injection E as <- <-; reflexivity | destruct p; discriminate].
Qed.
Lemma vj_typed : text_value c64 Gj Json 6 (TNamed 1) vj.
Proof.
  unfold vj. repeat tv_step; auto; try reflexivity; try discriminate; try (cbv; intuition congruence).
  all: try (intros _; cbn; repeat constructor; cbv; intuition congruence).
  all: try (cbn; repeat constructor; fail).
  all: cbn; repeat constructor; cbv; discriminate.
Qed.

Example C20_ex : exists out, writes toy c64 Gj Json (TNamed 1) vj out /\ rfc_json out.
Proof.
  apply (C20_valid_json toy c64 Gj 6); [apply toy_ok | right; reflexivity | apply Gj_json | cbn; auto | apply vj_typed].
Qed.
Example C20_ex_text : serialize_text toy c64 Gj Json 6 (TNamed 1) vj =
  Ok (chars "{""e"":{""Pair"":[{""Rec"":{""name"":""\""\n\u0001" ++ [233] ++
      chars """}},7]},""m"":{""a"":true,""b"":false},""o"":3,""x"":1.0,""at"":{""secs"":5,""nanos"":6},""p"":[1,true]}").
Proof. vm_compute. reflexivity. Qed.

(** Every JSON text passes this scanner: outside strings, no comma before a
    closing brace, and after an opening brace only a string or the closing brace. *)
Inductive sst := SBad | SOut (last : N) | SIn | SEsc.
Definition sws (x : N) : bool := (x =? 32) || (x =? 9) || (x =? 10) || (x =? 13).
Definition sstep (s : sst) (x : N) : sst :=
  match s with
  | SBad => SBad
  | SIn => if x =? 34 then SOut 34 else if x =? 92 then SEsc else SIn
  | SEsc => SIn
  | SOut l =>
    if sws x then SOut l
    else if x =? 34 then SIn
    else if x =? 125 then if l =? 44 then SBad else SOut 125
    else if l =? 123 then SBad else SOut x
  end.
Definition srun (s : sst) (t : str) : sst := fold_left sstep t s.
Definition sgood (s : sst) : Prop := exists l, s = SOut l /\ l <> 44 /\ l <> 123.
Lemma srun_app s a b : srun s (a ++ b) = srun (srun s a) b.
Proof. apply fold_left_app. Qed.
Lemma srun_ws g l : rfc_ws g -> srun (SOut l) g = SOut l.
Proof.
  induction 1 as [|x g Hx H IH]; [reflexivity|]. cbn [srun fold_left sstep]. replace (sws x) with true; [exact IH|].
  unfold sws. destruct Hx as [-> | [-> | [-> | ->]]]; reflexivity.
Qed.
Lemma srun_chars b s : chars_by escape b s -> srun SIn b = SIn.
Proof.
  assert (Q : forall h n, hex_quad h n -> srun SIn h = SIn).
  { intros h n (a & b' & d & e & x & y & z & w & -> & A & B & D & E & _).
    assert (X : forall a x, hex_digit a x -> sstep SIn a = SIn).
    { intros a0 x0 H. unfold sstep. destruct (N.eqb_spec a0 34); [exfalso; unfold hex_digit in H; lia|].
      destruct (N.eqb_spec a0 92); [exfalso; unfold hex_digit in H; lia | reflexivity]. }
    cbn [srun fold_left]. rewrite (X a x), (X b' y), (X d z), (X e w) by assumption. reflexivity. }
  induction 1 as [|c t s H1 H2 H3 H IH|e c t s H1 H IH|h n t s H1 H2 H3 H IH|h1 n1 h2 n2 t s H1 H2 H3 H4 H IH].
  - reflexivity.
  - cbn [srun fold_left]. unfold sstep at 2. rewrite (proj2 (N.eqb_neq c 34)), (proj2 (N.eqb_neq c 92)) by assumption. exact IH.
  - exact IH.
  - rewrite !srun_app. change (srun SIn [92; 117]) with SIn. rewrite (Q _ _ H1). exact IH.
  - rewrite !srun_app. change (srun SIn [92; 117]) with SIn. rewrite (Q _ _ H1). change (srun SIn [92; 117]) with SIn. rewrite (Q _ _ H2). exact IH.
Qed.
Lemma srun_quoted l b : rfc_body b -> srun (SOut l) (quoted b) = SOut 34.
Proof.
  intros [[s H] _]. unfold quoted. change (34 :: b ++ [34]) with ([34] ++ b ++ [34]). rewrite !srun_app.
  change (srun (SOut l) [34]) with SIn. rewrite (srun_chars b s H). reflexivity.
Qed.
(** Characters of words and numbers. *)
Definition splain (x : N) : bool := negb (sws x) && negb (x =? 34) && negb (x =? 125) && negb (x =? 123) && negb (x =? 44).
Lemma srun_plain s : forallb splain s = true -> s <> [] -> forall l, l <> 123 -> sgood (srun (SOut l) s).
Proof.
  induction s as [|x s IH]; intros H Hn l Hl; [congruence|]. cbn [forallb] in H. apply andb_prop in H as [Hx Hs].
  assert (E : sstep (SOut l) x = SOut x /\ x <> 44 /\ x <> 123).
  { unfold splain in Hx. unfold sstep. destruct (sws x); [discriminate|]. destruct (x =? 34); [discriminate|]. destruct (x =? 125); [discriminate|].
    destruct (N.eqb_spec x 123); [discriminate|]. destruct (N.eqb_spec x 44); [discriminate|].
    rewrite (proj2 (N.eqb_neq l 123) Hl). auto. }
  destruct E as (E & E1 & E2). cbn [srun fold_left]. rewrite E. destruct s as [|y s]; [exists x; auto|]. apply IH; [exact Hs | discriminate | exact E2].
Qed.
Lemma number_plain s : rfc_number s -> forallb splain s = true /\ s <> [].
Proof.
  intros (sg & ip & fr & ex & -> & (H1 & [H2 H2'] & H3 & H4) & _).
  assert (D : forall d, Forall (fun y => 48 <= y <= 57) d -> forallb splain d = true).
  { intros d H. apply forallb_forall. rewrite Forall_forall in H. intros x Hx. apply H in Hx. unfold splain, sws. lia. }
  split.
  - rewrite !forallb_app. rewrite (D ip H2'). destruct H1 as [-> | ->]; cbn [forallb andb];
      (destruct H3 as [-> |(d & -> & [_ Hd])]; cbn [forallb]; rewrite ?(D d Hd));
      (destruct H4 as [-> |(e & es & d2 & -> & [-> | ->] & He & [_ Hd2])]; cbn [forallb]; rewrite ?forallb_app, ?(D d2 Hd2));
      try (destruct He as [-> | [-> | ->]]); reflexivity.
  - intro E. apply app_eq_nil in E as [_ E]. apply app_eq_nil in E as [E _]. congruence.
Qed.
Lemma json_scan :
  (forall s, rfc_json s -> forall l, l <> 123 -> sgood (srun (SOut l) s)) /\
  (forall s, elems s -> forall l, l <> 123 -> sgood (srun (SOut l) s)) /\
  (forall s, membs s -> forall l, sgood (srun (SOut l) s)).
Proof.
  assert (Cl : forall s, sgood s -> sgood (sstep s 93)).
  { intros s (l & -> & H1 & H2). cbn [sstep]. cbn. rewrite (proj2 (N.eqb_neq l 123) H2). exists 93. repeat split; discriminate. }
  assert (Cc : forall s, sgood s -> sgood (sstep s 125)).
  { intros s (l & -> & H1 & H2). cbn [sstep]. cbn. rewrite (proj2 (N.eqb_neq l 44) H1). exists 125. repeat split; discriminate. }
  assert (Ws : forall s g, sgood s -> rfc_ws g -> srun s g = s) by (intros s g (l & -> & _) Hg; apply srun_ws; exact Hg).
  assert (St : forall l x, l <> 123 -> x = 91 \/ x = 123 \/ x = 44 \/ x = 58 -> sstep (SOut l) x = SOut x).
  { intros l x Hl [-> | [-> | [-> | ->]]]; cbn; rewrite (proj2 (N.eqb_neq l 123) Hl); reflexivity. }
  assert (Sn : forall s x, sgood s -> x = 44 \/ x = 58 -> sstep s x = SOut x).
  { intros s x (l & -> & H1 & H2) H. apply St; [exact H2 | tauto]. }
  assert (Nil : forall s, srun s [] = s) by reflexivity.
  assert (One : forall s x t, srun s (x :: t) = srun (sstep s x) t) by reflexivity.
  apply json_mutind.
  - intros s H l Hl. destruct H as [-> | [-> | ->]]; (apply srun_plain; [reflexivity | discriminate | exact Hl]).
  - intros s H l Hl. destruct (number_plain s H). apply srun_plain; assumption.
  - intros b H l Hl. rewrite srun_quoted by exact H. exists 34. repeat split; discriminate.
  - intros g Hg l Hl. rewrite One, srun_app, St by auto. rewrite srun_ws by exact Hg. exists 93. repeat split; discriminate.
  - intros s _ IH l Hl. rewrite One, srun_app, St by auto. apply Cl, IH. discriminate.
  - intros g Hg l Hl. rewrite One, srun_app, St by auto. rewrite srun_ws by exact Hg. exists 125. repeat split; discriminate.
  - intros s _ IH l Hl. rewrite One, srun_app, St by auto. apply Cc, IH.
  - intros a x b Ha _ IH Hb l Hl. rewrite !srun_app, srun_ws by exact Ha. rewrite (Ws _ b) by auto. auto.
  - intros a x b s Ha _ IH Hb _ IHs l Hl. rewrite !srun_app, srun_ws by exact Ha. rewrite (Ws _ b) by auto. rewrite One, Sn by auto. apply IHs. discriminate.
  - intros a k b d x e Ha Hk Hb Hd _ IH He l. rewrite !srun_app, srun_ws by exact Ha. rewrite srun_quoted by exact Hk. rewrite srun_ws by exact Hb.
    rewrite (One _ 58), St by (discriminate || auto). rewrite Nil, (srun_ws d) by exact Hd. rewrite (Ws _ e) by (auto; apply IH; discriminate). apply IH. discriminate.
  - intros a k b d x e s Ha Hk Hb Hd _ IH He _ IHs l. rewrite !srun_app, srun_ws by exact Ha. rewrite srun_quoted by exact Hk. rewrite srun_ws by exact Hb.
    rewrite (One _ 58), St by (discriminate || auto). rewrite Nil, (srun_ws d) by exact Hd. rewrite (Ws _ e) by (auto; apply IH; discriminate).
    rewrite (One _ 44), Sn by (auto; apply IH; discriminate). apply IHs.
Qed.
Lemma not_json s : srun (SOut 0) s = SBad -> ~ rfc_json s.
Proof. intros H J. destruct (proj1 json_scan s J 0 ltac:(discriminate)) as (l & E & _). congruence. Qed.

(** Refuted: a struct-like variant whose last field is [None] leaves a comma behind:
    [enum E { V { a: u8, b: Option<u8> } }], [E::V { a: 1, b: None }]. *)
Definition Gc : env := [DEnum [ {| v_name := chars "V"; v_rename := None;
   v_body := BStruct [fld (chars "a") false (VZ 0) (TInt U8); opt_field (chars "b") (TInt U8)] |} ]].
Theorem C20_refuted_trailing_comma F c : exists out,
  writes F c Gc Json (TNamed 0) (VEnum 0 [VZ 1; VNone]) out /\ out = chars "{""V"":{""a"":1,}}" /\ ~ rfc_json out.
Proof.
  eexists. split; [apply (ser_text_returns F c Gc Json 3); [reflexivity | discriminate]|]. split; [reflexivity|].
  apply not_json. vm_compute. reflexivity.
Qed.
(** Refuted: map keys are written as their own type writes them, so integer keys
    are not strings: [HashMap<u8, u8>] with the entry 1 to 2. *)
Theorem C20_refuted_integer_keys F c G : exists out,
  writes F c G Json (TMap MHash (TInt U8) (TInt U8)) (VMap [(VZ 1, VZ 2)]) out /\ out = chars "{1:2}" /\ ~ rfc_json out.
Proof.
  eexists. split; [apply (ser_text_returns F c G Json 3); [reflexivity | discriminate]|]. split; [reflexivity|].
  apply not_json. vm_compute. reflexivity.
Qed.
(** Refuted: a quote in a [rename] attribute is not escaped. *)
Definition Gq : env := [DStruct false false [renamed [97; 34; 123] (fld (chars "a") false (VZ 0) (TInt U8))]].
Theorem C20_refuted_rename F c : exists out,
  writes F c Gq Json (TNamed 0) (VSeq [VZ 1]) out /\ out = chars "{""a""{"":1}" /\ ~ rfc_json out.
Proof.
  eexists. split; [apply (ser_text_returns F c Gq Json 3); [reflexivity | discriminate]|]. split; [reflexivity|].
  intro J. destruct (proj1 json_scan _ J 0 ltac:(discriminate)) as (l & E & H1 & H2). vm_compute in E. congruence.
Qed.
(** Refuted: floats that are not finite ([F] prints them as Rust does). *)
Theorem C20_refuted_nan F c G b : f64_show F b = chars "NaN" ->
  exists out, writes F c G Json TF64 (VF b) out /\ ~ rfc_json out.
Proof.
  intro Hb. exists (chars "NaN"). split; [apply (ser_text_returns F c G Json 1); [cbn; rewrite Hb; reflexivity | discriminate]|].
  intro J. inversion J as [s Hw E|s Hn E| | | | |]; subst.
  - destruct Hw as [H | [H | H]]; discriminate.
  - destruct Hn as (sg & ip & fr & ex & E & ([-> | ->] & [H1 H2] & _) & _).
    + destruct ip; [congruence|]. injection E as <- _. inversion H2; subst. lia.
    + discriminate.
Qed.

(** ** C49 *)
Lemma rall_total {E A B} (f : B -> res E A) l : Forall (fun x => exists y, f x = Ok y) l -> exists ps, rall (map f l) = Ok ps.
Proof.
  induction 1 as [|x l [y Hy] H [ps IH]]; [eexists; reflexivity|]. exists (y :: ps). cbn [map rall]. rewrite Hy. cbn [rbind]. rewrite IH. reflexivity.
Qed.
Lemma rmap_total {E A B} (f : A -> B) (r : res E A) : (exists a, r = Ok a) -> exists b, rmap f r = Ok b.
Proof. intros [a ->]. eexists; reflexivity. Qed.
Lemma tys_total (ser : ty -> val -> wres) ts l : Forall2 (fun t v => exists o, ser t v = Ok o) ts l -> exists ps, ser_tys ser ts l = Ok ps.
Proof.
  induction 1 as [|t v ts l [o Ho] H [ps IH]]; [eexists; reflexivity|]. cbn [ser_tys]. rewrite Ho. cbn [rbind]. rewrite IH. eexists; reflexivity.
Qed.
Lemma unnamed_total fm (ser : ty -> val -> wres) fs l : Forall2 (fun f v => exists o, ser (f_ty f) v = Ok o) fs l -> exists o, ser_unnamed fm ser fs l = Ok o.
Proof.
  induction 1 as [|f v fs l [o Ho] H [ps IH]]; [eexists; reflexivity|]. cbn [ser_unnamed]. rewrite Ho. cbn [rbind]. rewrite IH. cbn [rbind].
  destruct fm; [eexists; reflexivity|]. destruct (f_skip f); eexists; reflexivity.
Qed.
Lemma named_total fm (ser : ty -> val -> wres) cn fs l :
  Forall2 (fun f v => f_skip f = false -> forall null name, exists o, ser_field fm ser null name f v = Ok o) fs l -> exists ps, ser_named fm ser cn fs l = Ok ps.
Proof.
  induction 1 as [|f v fs l Hf H [ps IH]]; [eexists; reflexivity|]. cbn [ser_named]. destruct (f_skip f); [eauto|].
  destruct (Hf eq_refl (null_on_none fm cn f) (field_key f)) as [o Ho]. rewrite Ho. cbn [rbind]. rewrite IH. eexists; reflexivity.
Qed.
Lemma variant_total fm (ser : ty -> val -> wres) fs l :
  Forall2 (fun f v => forall null name, exists o, ser_field fm ser null name f v = Ok o) fs l -> exists o, ser_variant_fields fm ser fs l = Ok o.
Proof.
  induction 1 as [|f v fs l Hf H [ps IH]]; [eexists; reflexivity|]. cbn [ser_variant_fields].
  destruct (Hf false (f_name f)) as [o Ho]. rewrite Ho. cbn [rbind]. rewrite IH. eexists; reflexivity.
Qed.
Lemma Forall2_ty_all (P : ty -> Prop) (Q R : ty -> val -> Prop) ts l : (forall t v, ty_all P t -> Q t v -> R t v) ->
  Forall (ty_all P) ts -> Forall2 Q ts l -> Forall2 R ts l.
Proof. intros H Ht H2. induction H2 as [|t v ts l Hq H2 IH]; inversion Ht; subst; constructor; auto. Qed.
Lemma Forall2_fields (P : ty -> Prop) (Q R : field -> val -> Prop) fs l : (forall f v, ty_all P (f_ty f) -> Q f v -> R f v) ->
  Forall (fun f => ty_all P (f_ty f)) fs -> Forall2 Q fs l -> Forall2 R fs l.
Proof. intros H Ht H2. induction H2 as [|t v ts l Hq H2 IH]; inversion Ht; subst; constructor; auto. Qed.

Lemma ty_all_and (P Q : ty -> Prop) t : ty_all P t -> ty_all Q t -> ty_all (fun x => P x /\ Q x) t.
Proof.
  revert t. apply (ty_ind2 (fun t => ty_all P t -> ty_all Q t -> ty_all (fun x => P x /\ Q x) t)); cbn [ty_all]; try (intros; intuition (auto; fail)).
  intros ts IH [H1 H2] [H3 H4]. split; [auto|]. apply ty_all_list. apply ty_all_list in H2. apply ty_all_list in H4.
  rewrite Forall_forall in *. auto.
Qed.
Lemma env_all_and (P Q : ty -> Prop) G : env_all P G -> env_all Q G -> env_all (fun x => P x /\ Q x) G.
Proof.
  intros H1 H2. unfold env_all in *. rewrite Forall_forall in *. intros d Hd. specialize (H1 d Hd). specialize (H2 d Hd).
  assert (Hfs : forall fs, Forall (field_all P) fs -> Forall (field_all Q) fs -> Forall (field_all (fun x => P x /\ Q x)) fs).
  { intros fs Hp Hq. rewrite Forall_forall in *. intros f Hf. apply ty_all_and; [apply Hp | apply Hq]; exact Hf. }
  destruct d as [? ? fs|? fs|vs|p t]; cbn in *; auto; [|apply ty_all_and; assumption].
  rewrite Forall_forall in *. intros v Hv. specialize (H1 v Hv). specialize (H2 v Hv). destruct (v_body v); auto.
  rewrite Forall_forall in *. intros x Hx. apply ty_all_and; auto.
Qed.

Section Total.
  Variables (F : flt) (c : cfg) (G : env) (fm : fmt).
  Hypothesis HG : text_env fm G.
  Hypothesis HV : Forall full_variants G.
  Notation node := (fun t => text_node fm G t /\ some_array c t).
  Hypothesis HN : env_all node G.
  Lemma ser_total n : forall t v, ty_all node t -> shaped true c G n t v -> exists out, ser_text F c G fm n t v = Ok out.
  Proof.
    induction n as [|n IH]; intros t v Ht Hv; [contradiction|].
    assert (Hfield : forall f v, ty_all node (f_ty f) ->
       (if true && f_isopt f then match v, f_ty f with VNone, _ => True | VSome w, TOpt t' => shaped true c G n t' w
          | VSome w, TProxy p t' => shaped true c G n (TProxy p t') w | _, _ => False end else shaped true c G n (f_ty f) v) ->
       forall null name, exists o, ser_field fm (ser_text F c G fm n) null name f v = Ok o).
    { intros f w Hf Hw null name. unfold ser_field. cbn [andb] in Hw. destruct (f_isopt f); [|apply rmap_total; apply IH; assumption].
      destruct w; try contradiction; [eexists; reflexivity|]. apply rmap_total. unfold ser_some. destruct (f_ty f) eqn:Et; try contradiction.
      - apply IH; [apply Hf | exact Hw].
      - apply IH; [exact Hf | exact Hw]. }
    destruct t; cbn [shaped] in Hv; cbn [ser_text].
    - destruct v; try (destruct k; contradiction). destruct Ht as [[[H1 H2] _] _]. destruct k; try congruence; eexists; reflexivity.
    - destruct v; try contradiction. eexists; reflexivity.
    - destruct v; try contradiction. eexists; reflexivity.
    - destruct v; try contradiction. eexists; reflexivity.
    - destruct v; try contradiction. eexists; reflexivity.
    - destruct v; try contradiction. eexists; reflexivity.
    - destruct v; try contradiction; [eexists; reflexivity|]. apply IH; [apply Ht | exact Hv].
    - destruct v; try contradiction. apply rmap_total, rall_total. eapply Forall_impl; [|exact Hv]. intros w Hw. apply IH; [apply Ht | exact Hw].
    - destruct v; try contradiction. apply rmap_total, rall_total. eapply Forall_impl; [|exact Hv]. intros [a b] [Ha Hb]. unfold ser_entry. cbn [fst snd] in *.
      destruct Ht as (_ & Hk & Hw). destruct (IH _ _ Hk Ha) as [x ->]. destruct (IH _ _ Hw Hb) as [y ->]. eexists; reflexivity.
    - destruct v; try contradiction. destruct Hv as [Hl Hv]. destruct Ht as [[_ Hm] Ht]. destruct l as [|w l].
      + cbn in Hl. subst n0. destruct Hm as [-> |Hm]; [eexists; reflexivity | congruence].
      + apply rmap_total, rall_total. eapply Forall_impl; [|exact Hv]. intros w' Hw. apply IH; assumption.
    - destruct v; try contradiction. destruct Ht as [[[H1 H2] _] Ht]. unfold tuple_arity. rewrite (proj2 (Nat.leb_le _ _) H1), (proj2 (Nat.leb_le _ _) H2).
      cbn [andb]. apply rmap_total, tys_total. apply ty_all_list in Ht. eapply Forall2_ty_all; [|exact Ht | exact Hv]. cbn. auto.
    - assert (X : exists out, ser_text F c G fm n t v = Ok out) by (apply IH; [apply Ht | exact Hv]). destruct v; exact X.
    - destruct v; try contradiction. eexists; reflexivity.
    - destruct v; try contradiction. eexists; reflexivity.
    - destruct Ht as [[Hfm _] Ht]. assert (X : exists out, ser_text F c G fm n t (p_to p v) = Ok out) by (apply IH; assumption).
      cbn in Hfm. rewrite Hfm in X |- *. destruct v; exact X.
    - destruct (nth_error G n0) as [d|] eqn:EG; [|contradiction].
      pose proof (env_all_nth _ _ _ _ HN EG) as Da. 
      assert (Dt : text_decl fm d) by (destruct HG as [_ H]; rewrite Forall_forall in H; apply H; eapply nth_error_In; exact EG).
      assert (Dv : full_variants d) by (rewrite Forall_forall in HV; apply HV; eapply nth_error_In; exact EG).
      destruct d as [dflt cn fs|tr fs|vs|p t'].
      + destruct v; try contradiction. apply rmap_total, named_total. cbn in Da. eapply Forall2_fields; [|exact Da | exact Hv].
        cbn beta. intros f w Hf Hw Hs. apply Hfield; [exact Hf | exact (Hw Hs)].
      + destruct v; try contradiction. destruct Dt as [Dp Dn]. cbn in Da.
        replace (existsb f_hasproxy fs) with false
          by (symmetry; clear - Dp; induction Dp as [|f fs Hf H IHl]; [reflexivity|]; cbn; rewrite Hf; exact IHl).
        assert (He : Forall2 (fun f w => exists o, ser_text F c G fm n (f_ty f) w = Ok o) fs l)
          by (eapply Forall2_fields; [|exact Da | exact Hv]; cbn beta; auto).
        assert (Ed : fm = Json \/ fm <> Json) by (destruct fm; [left; reflexivity | right; discriminate]). destruct Ed as [Efm|Efm].
        * rewrite Efm in *. destruct fs as [|f [|g fs]]; [inversion He; subst; eexists; reflexivity | | ].
          -- inversion He as [|? ? ? ? H0 H1]; subst. inversion H1; subst. destruct tr; [exact H0 | apply rmap_total, unnamed_total; exact He].
          -- destruct l as [|w0 [|w1 l]]; apply rmap_total, unnamed_total; exact He.
        * assert (Er : fm = Ron) by (destruct fm; congruence). rewrite Er in *. destruct fs as [|f fs]; [exfalso; apply Dn; reflexivity|]. destruct l as [|w0 l]; apply rmap_total, unnamed_total; exact He.
      + destruct v; try contradiction. destruct (nth_error vs (N.to_nat tag)) as [vr|] eqn:Ev; [|contradiction].
        pose proof (decl_all_variant _ _ _ _ Da Ev) as Db. cbn in Dv. rewrite Forall_forall in Dv. specialize (Dv vr (nth_error_In _ _ Ev)).
        destruct (v_body vr) as [|ts|fs].
        * subst l. eexists; reflexivity.
        * destruct ts as [|t0 ts]; [congruence|]. apply rmap_total, tys_total. eapply Forall2_ty_all; [|exact Db | exact Hv]. cbn beta. auto.
        * apply rmap_total, variant_total. eapply Forall2_fields; [|exact Db | exact Hv]. cbn beta. auto.
      + cbn in Dt. assert (X : exists out, ser_text F c G fm n t' (p_to p v) = Ok out) by (apply IH; assumption). rewrite Dt in X |- *. destruct v; exact X.
  Qed.
End Total.
Theorem C49_text_returns F c G fm n t v : text_env fm G -> text_ty fm G t -> Forall full_variants G ->
  env_all (some_array c) G -> ty_all (some_array c) t -> shaped true c G n t v ->
  exists out, writes F c G fm t v out.
Proof.
  intros HG Ht HV HA Ha Hv. destruct (ser_total F c G fm HG HV (env_all_and _ _ _ (proj1 HG) HA) n t v (ty_all_and _ _ _ Ht Ha) Hv) as [out Ho].
  exists out. apply (ser_text_returns F c G fm n); [exact Ho | discriminate].
Qed.
(** Refuted: an array of length zero, in a build with overflow checks. *)
Theorem C49_refuted_empty_array F c G fm t : overflow_checks c = true ->
  returns (fun n => serialize_text F c G fm n (TArr 0 t) (VSeq [])) (Panic POverflow).
Proof.
  intro H. apply (ser_text_returns F c G fm 1); [cbn; rewrite H; reflexivity | discriminate].
Qed.
Section BinTotal.
  Variables (c : cfg) (G : env).
  Lemma bin_total n : forall t v, shaped false c G n t v -> forall out, exists bs, ser_bin G n t v out = Ok bs.
  Proof.
    induction n as [|n IH]; intros t v Hv out; [contradiction|].
    assert (Hitems : forall t l, Forall (shaped false c G n t) l -> forall out, exists bs, ser_items (ser_bin G n) t l out = Ok bs).
    { intros t0 l H. induction H as [|w l Hw H IHl]; intro o; [eexists; reflexivity|]. cbn [ser_items]. destruct (IH _ _ Hw o) as [b ->]. apply IHl. }
    assert (Htys : forall ts l, Forall2 (shaped false c G n) ts l -> forall out, exists bs, BinModel.ser_tys (ser_bin G n) ts l out = Ok bs).
    { intros ts l H. induction H as [|t0 w ts l Hw H IHl]; intro o; [eexists; reflexivity|]. cbn [BinModel.ser_tys]. destruct (IH _ _ Hw o) as [b ->]. apply IHl. }
    assert (Hfs : forall hs fs l, Forall2 (fun f w => (hs && f_skip f = false) -> shaped false c G n (f_ty f) w) fs l ->
              forall out, exists bs, ser_fields (ser_bin G n) hs fs l out = Ok bs).
    { intros hs fs l H. induction H as [|f w fs l Hw H IHl]; intro o; [eexists; reflexivity|]. cbn [ser_fields].
      destruct (hs && f_skip f); [apply IHl|]. destruct (IH _ _ (Hw eq_refl) o) as [b ->]. apply IHl. }
    destruct t; cbn [shaped] in Hv; cbn [ser_bin]; cbn [andb] in Hv.
    - destruct v; try (destruct k; contradiction). destruct k; eexists; reflexivity.
    - destruct v; try contradiction. eexists; reflexivity.
    - destruct v; try contradiction. eexists; reflexivity.
    - destruct v; try contradiction. eexists; reflexivity.
    - destruct v; try contradiction. eexists; reflexivity.
    - destruct v; try contradiction. eexists; reflexivity.
    - destruct v; try contradiction; [eexists; reflexivity|]. apply IH. exact Hv.
    - destruct v; try contradiction. apply Hitems. exact Hv.
    - destruct v; try contradiction. cbn [ser_usize emit rbind]. generalize (out ++ le_bytes 8 (lenN l mod 2 ^ 64)).
      induction Hv as [|[a b] l [Ha Hb] H IHl]; intro o; [eexists; reflexivity|]. cbn [ser_entries]. cbn [fst snd] in *.
      destruct (IH _ _ Ha o) as [x ->]. cbn [rbind]. destruct (IH _ _ Hb x) as [y ->]. apply IHl.
    - destruct v; try contradiction. apply Hitems. apply Hv.
    - destruct v; try contradiction. apply Htys. exact Hv.
    - destruct v; apply IH; exact Hv.
    - destruct v; try contradiction. eexists; reflexivity.
    - destruct v; try contradiction. destruct (secs <? 0)%Z; eexists; reflexivity.
    - destruct v; apply IH; exact Hv.
    - destruct (nth_error G n0) as [[dflt cn fs|tr fs|vs|p t']|]; [| | | |contradiction].
      + destruct v; try contradiction. apply Hfs. exact Hv.
      + destruct v; try contradiction. apply Hfs. clear - Hv. induction Hv; constructor; auto.
      + destruct v; try contradiction. destruct (nth_error vs (N.to_nat tag)) as [vr|]; [|contradiction]. cbn [emit rbind].
        destruct (v_body vr) as [|ts|fs]; [subst l; eexists; reflexivity | apply Htys; exact Hv | apply Hfs].
        clear - Hv. induction Hv; constructor; auto.
      + destruct v; apply IH; exact Hv.
  Qed.
End BinTotal.
Theorem C49_bin_returns c G n t v : shaped false c G n t v -> exists bs, encodes G t v bs.
Proof.
  intro Hv. destruct (bin_total c G n t v Hv []) as [bs Hb]. exists bs. apply (ser_returns G n t v []). exact Hb.
Qed.
(** A value no round trip could carry: a time before the epoch. *)
Example C49_ex : exists n, shaped true c64 Gj n (TNamed 1) (VSeq [VEnum 0 []; VMap []; VNone; VF 7; VTime (-5) 6; VSeq [VZ 1; VBool true]]) /\
  shaped false c64 Gj n (TNamed 1) (VSeq [VEnum 0 []; VMap []; VNone; VF 7; VTime (-5) 6; VSeq [VZ 1; VBool true]]) /\
  text_env Json Gj /\ Forall full_variants Gj /\ env_all (some_array c64) Gj.
Proof.
  exists 4%nat. split; [|split; [|split; [|split]]].
  - cbn -[int_ok]. repeat (match goal with |- Forall2 _ _ _ => constructor | |- Forall _ _ => constructor end; try (intros _; cbn -[int_ok])); try exact I; try reflexivity; try (cbv; intuition congruence).
  - cbn -[int_ok]. repeat (match goal with |- Forall2 _ _ _ => constructor | |- Forall _ _ => constructor end; try (intros _; cbn -[int_ok])); try exact I; try reflexivity; try (cbv; intuition congruence).
  - split; repeat (constructor; cbn); auto; try discriminate; lia.
  - repeat (constructor; cbn); auto; discriminate.
  - repeat (constructor; cbn); auto.
Qed.
