(** The round trip theorem for JSON and RON. *)
From Verif Require Import Base Utf8 Types BinModel BinRead Text TextModel TextSim TextToks TextLex TextRead SpecText TextRound.
Local Open Scope N_scope.

Lemma readable_S {F c G fm t l v} d : (forall n, de_text tok_lexer F c G fm (S n) t = d n) ->
  (exists N, forall n, (N <= n)%nat -> reads (d n) l v) -> readable F c G fm t l v.
Proof.
  intros E [N H]. exists (S N). intros n Hn. destruct n as [|n]; [lia|]. rewrite E. apply H. lia.
Qed.
Lemma readable_1 {F c G fm t l v} d : (forall n, de_text tok_lexer F c G fm (S n) t = d) -> reads d l v -> readable F c G fm t l v.
Proof. intros E H. apply (readable_S (fun _ => d)); [exact E | exists O; auto]. Qed.

Section Main.
  Variable F : flt.
  Variable c : cfg.
  Variable G : env.
  Variable fm : fmt.
  Hypothesis HF : flt_ok F.
  Hypothesis Hc : cfg_ok c.

  Notation ser := (ser_text F c G fm).
  Notation de := (de_text tok_lexer F c G fm).
  Notation lexes := (lexes F fm).
  Notation lexes_any := (lexes_any F fm).
  Notation written := (written F c G fm).
  Notation wrote := (wrote F c G fm).
  Notation readable := (readable F c G fm).
  Notation field_toks := (field_toks fm).
  Notation none_toks := (none_toks fm).

  Lemma written_read n t v w : written n t v w -> vtoks fm (snd w) /\ readable t (snd w) v.
  Proof. intros (_ & [] & _). auto. Qed.

  Lemma rall_ok m t l ws : Forall2 (fun v (w : str * list ltok) => ser m t v = Ok (fst w)) l ws ->
    rall (map (ser m t) l) = Ok (map fst ws).
  Proof. induction 1 as [|v w l ws H _ IH]; [reflexivity|]. cbn [map rall]. rewrite H, IH. reflexivity. Qed.
  Lemma ser_tys_ok m ts l ws : Forall2 (fun tv (w : str * list ltok) => ser m (fst tv) (snd tv) = Ok (fst w)) (combine ts l) ws ->
    length ts = length l -> ser_tys (ser m) ts l = Ok (map fst ws).
  Proof.
    revert l ws; induction ts as [|t ts IH]; intros [|v l] ws H Hl; try discriminate.
    - inversion H. reflexivity.
    - cbn [combine] in H. inversion H as [|x w y ws' Hx Hw]; subst. cbn [fst snd] in Hx. cbn [ser_tys]. rewrite Hx. cbn [rbind].
      rewrite (IH l ws' Hw) by (simpl in Hl; lia). reflexivity.
  Qed.
  Lemma lexes_of n t l ws : Forall2 (written n t) l ws -> Forall2 lexes (map fst ws) (map snd ws).
  Proof. induction 1 as [|v w l ws (_ & [H _ _] & _) _ IH]; constructor; auto. Qed.
  Lemma jt_bal_of (ws : list (str * list ltok)) tr : Forall (fun w => vtoks fm (snd w)) ws -> bal (jt (map snd ws) tr).
  Proof. intro H. apply jt_bal. induction H; constructor; auto. eapply vtoks_bal; eassumption. Qed.

  (** One field. *)
  Lemma field_written n null name f v :
    (forall t v, text_value c G fm n t v -> exists w, written n t v w) ->
    field_value (text_value c G fm n) (looks_none G fm n) null f v -> f_skip f = false ->
    (null = true -> fm = Json /\ f_hasproxy f = false) ->
    exists o : option (str * list ltok),
      (forall m, (n <= m)%nat -> ser_field fm (ser m) null name f v = Ok (option_map (fun w => field_hdr fm name ++ fst w) o)) /\
      match o with
      | Some w => lexes (fst w) (snd w) /\ vtoks fm (snd w) /\
                  exists N, forall m, (N <= m)%nat -> reads (de_field (de m) f) (snd w) v
      | None => v = omitted_value f /\ f_isopt f = true
      end.
  Proof.
    intros IH [Hwf Hv] Hsk Hnull. rewrite Hsk in Hv. unfold ser_field, de_field.
    destruct (f_isopt f) eqn:Eo.
    - destruct v; try contradiction.
      + (* None *)
        destruct null.
        * destruct (Hnull eq_refl) as [Ej Ehp]. unfold wf_field in Hwf.
          destruct (f_ty f) as [| | | | | |t0| | | | | | | | |] eqn:Et; try (destruct Hwf; congruence); try congruence.
          exists (Some (chars "null", [none_tok fm])).
          split; [reflexivity|]. cbn [fst snd]. split; [|split].
          { pose proof (none_text_lex F fm) as H. unfold none_text in H. unfold none_tok. rewrite Ej in *. exact H. }
          { apply vt_scalar, none_tok_scalar. }
          { exists 1%nat. intros m Hm. rewrite Ehp. cbn [andb]. destruct m as [|m]; [lia|]. cbn [de_text].
            apply opt_none_read. }
        * destruct Hv as [Hv|Hv]; [discriminate|]. exists None. split; [reflexivity|]. split; [symmetry; exact Hv | reflexivity].
      + (* Some *)
        unfold wf_field in Hwf.
        destruct (f_ty f) as [| | | | | |t0| | | | | | | |p t0|] eqn:Et; try (destruct Hwf; congruence).
        * destruct Hv as [Hv Hn]. destruct (IH _ _ Hv) as (w & Hs & [W1 W2 [N W3]] & W4).
          exists (Some w). split; [intros m Hm; unfold ser_some; rewrite Et, Hs by assumption; reflexivity|].
          split; [exact W1|]. split; [exact W2|].
          exists (S N). intros m Hm. rewrite Hwf. cbn [andb]. destruct m as [|m]; [lia|]. cbn [de_text].
          apply opt_some_read; [exact W2 | rewrite W4; exact Hn | apply W3; lia].
        * destruct (IH _ _ Hv) as (w & Hs & [W1 W2 [N W3]] & W4).
          exists (Some w). split; [intros m Hm; unfold ser_some; rewrite Et, Hs by assumption; reflexivity|].
          split; [exact W1|]. split; [exact W2|].
          exists N. intros m Hm. rewrite Hwf. cbn [andb]. apply reads_map. apply W3; lia.
    - destruct (IH _ _ Hv) as (w & Hs & [W1 W2 [N W3]] & W4).
      exists (Some w). split; [intros m Hm; rewrite Hs by assumption; reflexivity|].
      split; [exact W1|]. split; [exact W2|]. exists N. intros m Hm. cbn [andb]. apply W3; lia.
  Qed.

  Lemma field_lex f out l : good_name fm (field_key f) -> lexes out l ->
    lexes (field_hdr fm (field_key f) ++ out) (key_tok fm (field_key f) :: LP KColon :: l).
  Proof.
    intros Hg Hl. apply (lexes_app_r F fm _ _ [key_tok fm (field_key f); LP KColon] l); [|exact Hl].
    apply field_hdr_lex. exact Hg.
  Qed.

  (** The fields of a struct. *)
  Lemma named_written n cnull fs l :
    (forall t v, text_value c G fm n t v -> exists w, written n t v w) ->
    Forall2 (fun f => field_value (text_value c G fm n) (looks_none G fm n) (none_as_null fm cnull f) f) fs l ->
    Forall (fun f => f_skip f = false -> good_name fm (key_of_field f)) fs ->
    exists rs outs, map r_f rs = fs /\ map r_v rs = l /\
      (forall m, (n <= m)%nat -> ser_named fm (ser m) cnull fs l = Ok outs) /\
      Forall2 lexes outs (flat_map field_toks rs) /\
      exists N, forall m, (N <= m)%nat -> forall dflt, Forall (trip_ok fm (de m) dflt) rs.
  Proof.
    intros IH H Hg. revert Hg. induction H as [|f v fs l Hf H IHl]; intro Hg.
    - exists [], []. repeat split; try constructor. exists O. constructor.
    - inversion Hg as [|? ? Hg1 Hg2]; subst.
      destruct (IHl Hg2) as (rs & outs & E1 & E2 & E3 & E4 & N & E5).
      destruct (f_skip f) eqn:Es.
      + exists ({| r_f := f; r_v := v; r_o := None |} :: rs), outs. cbn [map r_f r_v].
        split; [congruence|]. split; [congruence|].
        split; [intros m Hm; cbn [ser_named]; rewrite Es; apply E3; exact Hm|]. split; [exact E4|].
        exists N. intros m Hm dflt. constructor; [|apply E5; exact Hm]. unfold trip_ok; cbn [r_o r_f r_v].
        destruct Hf as [_ Hf]. rewrite Es in Hf. auto.
      + destruct (field_written n (none_as_null fm cnull f) (field_key f) f v IH Hf Es) as (o & O1 & O2).
        { unfold none_as_null. destruct fm; [|discriminate]. intro H0. apply andb_prop in H0 as [_ H0].
          apply negb_true_iff in H0. auto. }
        exists ({| r_f := f; r_v := v; r_o := option_map snd o |} :: rs),
          (match o with Some w => (field_hdr fm (field_key f) ++ fst w) :: outs | None => outs end).
        cbn [map r_f r_v]. split; [congruence|]. split; [congruence|]. split; [|split].
        * intros m Hm. cbn [ser_named]. rewrite Es.
          change (null_on_none fm cnull f) with (none_as_null fm cnull f).
          rewrite O1 by exact Hm. cbn [rbind]. rewrite E3 by exact Hm. cbn [rbind]. destruct o; reflexivity.
        * cbn [flat_map]. unfold field_toks at 1. cbn [r_o r_f]. destruct o as [w|]; [|exact E4]. cbn [option_map app].
          destruct O2 as (O2 & _). constructor; [|exact E4]. apply field_lex; [apply Hg1; reflexivity | exact O2].
        * destruct o as [w|].
          -- destruct O2 as (O2 & O3 & N2 & O4). exists (N + N2)%nat. intros m Hm dflt.
             constructor; [|apply E5; lia]. unfold trip_ok; cbn [r_o r_f r_v option_map].
             split; [exact Es|]. split; [exact O3|]. apply O4. lia.
          -- exists N. intros m Hm dflt. constructor; [|apply E5; exact Hm]. unfold trip_ok; cbn [r_o r_f r_v option_map].
             destruct O2 as [O2 O3]. auto.
  Qed.

  (** The fields of a struct-like variant. *)
  Lemma variant_written n fs l :
    (forall t v, text_value c G fm n t v -> exists w, written n t v w) ->
    Forall2 (field_value (text_value c G fm n) (looks_none G fm n) false) fs l ->
    Forall (fun f => f_skip f = false /\ f_rename f = None /\ good_name fm (f_name f)) fs ->
    exists rs out tr, map r_f rs = fs /\ map r_v rs = l /\
      (forall m, (n <= m)%nat -> ser_variant_fields fm (ser m) fs l = Ok out) /\
      lexes out (jt (flat_map field_toks rs) tr) /\
      exists N, forall m, (N <= m)%nat -> forall dflt, Forall (trip_ok fm (de m) dflt) rs.
  Proof.
    intros IH H Hg. revert Hg. induction H as [|f v fs l Hf H IHl]; intro Hg.
    - exists [], [], false. repeat split; try constructor. + apply lexes_weak, lexes_any_nil. + exists O. constructor.
    - inversion Hg as [|? ? (Es & Er & Hg1) Hg2]; subst.
      destruct (IHl Hg2) as (rs & out & tr & E1 & E2 & E3 & E4 & N & E5).
      destruct (field_written n false (f_name f) f v IH Hf Es ltac:(discriminate)) as (o & O1 & O2).
      assert (Ek : field_key f = f_name f) by (unfold field_key; rewrite Er; reflexivity).
      destruct o as [w|]; cbn [option_map] in *.
      + destruct O2 as (O2 & O3 & N2 & O4).
        set (last := match fm, fs with Json, [] => true | _, _ => false end).
        assert (Hx : lexes (field_hdr fm (f_name f) ++ fst w) (key_tok fm (f_name f) :: LP KColon :: snd w)).
        { rewrite <- Ek. apply field_lex; [rewrite Ek; exact Hg1 | exact O2]. }
        exists ({| r_f := f; r_v := v; r_o := Some (snd w) |} :: rs),
          ((field_hdr fm (f_name f) ++ fst w) ++ (if last then [] else comma) ++ out),
          (if last then false else match flat_map field_toks rs with [] => true | _ => tr end).
        cbn [map r_f r_v]. split; [congruence|]. split; [congruence|]. split; [|split].
        * intros m Hm. cbn [ser_variant_fields]. rewrite O1 by exact Hm. cbn [rbind]. rewrite E3 by exact Hm. cbn [rbind].
          subst last. destruct fm, fs; reflexivity.
        * cbn [flat_map]. unfold TextRound.field_toks at 1. cbn [r_o r_f]. cbn [app]. rewrite Ek.
          destruct last eqn:El.
          -- assert (fs = [] /\ rs = []) as [-> ->].
             { subst last. destruct fm, fs; try discriminate. destruct rs; [auto|discriminate]. }
             specialize (E3 n (le_n n)). inversion H; subst. cbn in E3. inversion E3; subst. cbn [jt flat_map app].
             rewrite !app_nil_r. exact Hx.
          -- destruct (flat_map field_toks rs) as [|l1 ls] eqn:Efl.
             ++ cbn [jt]. apply lexes_app; [exact Hx | | right; reflexivity].
                apply (lexes_app_r F fm comma out [LP KComma] []); [apply lexes_comma | exact E4].
             ++ cbn [jt]. change (key_tok fm (f_name f) :: LP KColon :: snd w ++ LP KComma :: jt (l1 :: ls) tr)
                  with ((key_tok fm (f_name f) :: LP KColon :: snd w) ++ LP KComma :: jt (l1 :: ls) tr).
                apply lexes_app; [exact Hx | | right; reflexivity].
                apply (lexes_app_r F fm comma out [LP KComma] _); [apply lexes_comma | exact E4].
        * exists (N + N2)%nat. intros m Hm dflt. constructor; [|apply E5; lia]. unfold trip_ok; cbn [r_o r_f r_v].
          split; [exact Es|]. split; [exact O3|]. apply O4. lia.
      + destruct O2 as [O2 O3].
        exists ({| r_f := f; r_v := v; r_o := None |} :: rs), out, tr.
        cbn [map r_f r_v]. split; [congruence|]. split; [congruence|]. split; [|split].
        * intros m Hm. cbn [ser_variant_fields]. rewrite O1 by exact Hm. cbn [rbind]. rewrite E3 by exact Hm. reflexivity.
        * exact E4.
        * exists N. intros m Hm dflt. constructor; [|apply E5; exact Hm]. unfold trip_ok; cbn [r_o r_f r_v]. auto.
  Qed.

  Lemma trip_len rs : length (map r_f rs) = length rs.
  Proof. apply map_length. Qed.

  (** Fixed lists of elements. *)
  Lemma tys_written n ts l :
    (forall t v, text_value c G fm n t v -> exists w, written n t v w) ->
    Forall2 (text_value c G fm n) ts l ->
    exists ws : list (str * list ltok), length ws = length ts /\ length l = length ts /\
      (forall m, (n <= m)%nat -> ser_tys (ser m) ts l = Ok (map fst ws)) /\
      Forall2 lexes (map fst ws) (map snd ws) /\ Forall (fun w => vtoks fm (snd w)) ws /\
      exists N, forall m, (N <= m)%nat ->
        Forall2 (fun t lv => reads (de m t) (fst lv) (snd lv)) ts (combine (map snd ws) l).
  Proof.
    intros IH H. induction H as [|t v ts l Hv H (ws & L1 & L2 & S1 & S2 & S3 & N & S4)].
    - exists []. repeat split; try constructor. exists O. constructor.
    - destruct (IH _ _ Hv) as (w & Hs & [W1 W2 [N2 W3]] & W4).
      exists (w :: ws). split; [simpl; congruence|]. split; [simpl; congruence|]. split; [|split; [|split]].
      + intros m Hm. cbn [ser_tys]. rewrite Hs, S1 by exact Hm. reflexivity.
      + constructor; assumption.
      + constructor; assumption.
      + exists (N + N2)%nat. intros m Hm. cbn [map combine]. constructor; [apply W3; lia | apply S4; lia].
  Qed.
  Lemma items_reads (p : (ty -> @pm tst val) -> ty -> @pm tst val) m ts lvs :
    (forall t l v, reads (de m t) l v -> item_reads (p (de m) t) l v (k_tclose fm)) ->
    Forall2 (fun t (lv : list ltok * val) => reads (de m t) (fst lv) (snd lv)) ts lvs ->
    Forall2 (fun p lv => item_reads p (fst lv) (snd lv) (k_tclose fm)) (map (p (de m)) ts) lvs.
  Proof. intro Hp. induction 1; cbn [map]; constructor; auto. Qed.

  Lemma ser_unnamed_join m fs l (ws : list (str * list ltok)) :
    (fm = Ron -> existsb f_skip fs = false) ->
    ser_tys (ser m) (map f_ty fs) l = Ok (map fst ws) -> length ws = length fs ->
    ser_unnamed fm (ser m) fs l = Ok (join (chars ", ") (map fst ws)).
  Proof.
    revert l ws; induction fs as [|f fs IH]; intros l ws Hsk Hs Hl.
    - destruct l; [|discriminate]. destruct ws; [|discriminate]. reflexivity.
    - destruct l as [|v l]; [discriminate|]. cbn [map ser_tys] in Hs.
      destruct (ser m (f_ty f) v) as [x|e|p|] eqn:Ex; try discriminate. cbn [rbind] in Hs.
      destruct (ser_tys (ser m) (map f_ty fs) l) as [r|e|p|] eqn:Er; try discriminate.
      destruct ws as [|w ws]; [discriminate|]. cbn in Hs. inversion Hs; subst x r.
      assert (Hsk2 : fm = Ron -> existsb f_skip fs = false).
      { intro E. specialize (Hsk E). cbn [existsb] in Hsk. apply orb_false_iff in Hsk. tauto. }
      assert (Hf : fm = Ron -> f_skip f = false).
      { intro E. specialize (Hsk E). cbn [existsb] in Hsk. apply orb_false_iff in Hsk. tauto. }
      specialize (IH l ws Hsk2 Er ltac:(simpl in Hl; lia)).
      cbn [ser_unnamed]. rewrite Ex. cbn [rbind]. rewrite IH. cbn [rbind].
      assert (E : fst w ++ match fs with [] => [] | _ => chars ", " end ++ join (chars ", ") (map fst ws) =
                  join (chars ", ") (map fst (w :: ws))).
      { destruct fs, ws; try discriminate; cbn [map join app]; [rewrite app_nil_r; reflexivity | reflexivity]. }
      rewrite E. destruct fm eqn:Ef; [reflexivity|]. rewrite Hf by reflexivity. reflexivity.
  Qed.

  Lemma find_variant_nodup (p : variant -> bool) vs i vr :
    NoDup (map (key_of_variant fm) vs) -> nth_error vs i = Some vr -> p vr = true ->
    (forall v, p v = true -> key_of_variant fm v = key_of_variant fm vr) ->
    forall k, find_variant p vs k = Some (k + N.of_nat i, vr).
  Proof.
    intros Hn Hi Hp Hk. revert i Hi. induction vs as [|v vs IH]; intros i Hi k; [destruct i; discriminate|].
    cbn [map] in Hn. inversion Hn as [|? ? Hni Hn2]; subst. cbn [find_variant]. destruct i as [|i].
    - inversion Hi; subst v. rewrite Hp. f_equal. f_equal. lia.
    - cbn [nth_error] in Hi. destruct (p v) eqn:Ev.
      + exfalso. apply Hni. rewrite (Hk v Ev). apply in_map. eapply nth_error_In; exact Hi.
      + rewrite (IH Hn2 i Hi). f_equal. f_equal. lia.
  Qed.
  Lemma key_same v : key_of_variant fm v = variant_key fm v.
  Proof. unfold key_of_variant, variant_key. destruct fm; [reflexivity|]. destruct (v_rename v); reflexivity. Qed.

  Lemma topen_bracket : bracket (k_topen fm) (k_tclose fm).
  Proof. unfold k_topen, k_tclose. destruct fm; [left | right; right]; auto. Qed.
  Lemma sopen_bracket : bracket (k_sopen fm) (k_sclose fm).
  Proof. unfold k_sopen, k_sclose. destruct fm; [right; left | right; right]; auto. Qed.

  Definition body_ser (m : nat) (b : vbody) (l : list val) : wres :=
    match b with
    | BTuple ts => rmap (fun ps => wrap (t_open fm) (t_close fm) (join comma ps)) (ser_tys (ser m) ts l)
    | BStruct fs => rmap (wrap (s_open fm) (s_close fm)) (ser_variant_fields fm (ser m) fs l)
    | BUnit => Panic PIllTyped
    end.
  Definition nest (key out : str) : str :=
    match fm with
    | Json => wrap c_lcur c_rcur (label fm key ++ c_colon :: out)
    | Ron => label fm key ++ out
    end.
  Lemma enum_ser m i vs tag l vr : nth_error G i = Some (DEnum vs) -> nth_error vs (N.to_nat tag) = Some vr ->
    v_body vr <> BUnit -> v_body vr <> BTuple [] ->
    ser (S m) (TNamed i) (VEnum tag l) = rmap (nest (variant_key fm vr)) (body_ser m (v_body vr) l).
  Proof.
    intros Hi Hvr Hu Ht. cbn [ser_text]. rewrite Hi, Hvr. unfold body_ser, nest. destruct (v_body vr) as [|ts|fs]; [congruence| |].
    - destruct ts as [|t0 ts]; [congruence|]. destruct (ser_tys (ser m) (t0 :: ts) l); reflexivity.
    - destruct (ser_variant_fields fm (ser m) fs l); reflexivity.
  Qed.

  (** The payload of a variant: text, tokens, reading. *)
  Lemma body_written n tag vr l :
    (forall t v, text_value c G fm n t v -> exists w, written n t v w) ->
    v_body vr <> BUnit ->
    match v_body vr with
          | BUnit => l = []
          | BTuple ts => ts <> [] /\ Forall2 (text_value c G fm n) ts l
          | BStruct fs =>
            NoDup (map f_name fs) /\
            Forall (fun f => f_skip f = false /\ f_rename f = None /\ good_name fm (f_name f)) fs /\
            Forall2 (field_value (text_value c G fm n) (looks_none G fm n) false) fs l
          end ->
    exists out o cl inn, bracket o cl /\ bal inn /\ lexes_any out (LP o :: inn ++ [LP cl]) /\
      (fm = Ron -> boundary out) /\ v_body vr <> BTuple [] /\
      (forall m, (n <= m)%nat -> body_ser m (v_body vr) l = Ok out) /\
      exists N, forall m, (N <= m)%nat ->
        reads (de_body tok_lexer fm (de m) m tag (v_body vr)) (LP o :: inn ++ [LP cl]) (VEnum tag l).
  Proof.
    intros IH Hu Hb. destruct (v_body vr) as [|ts|fs]; [congruence| |].
    - destruct Hb as [Hne Hb]. destruct (tys_written n ts l IH Hb) as (ws & L1 & L2 & S1 & S2 & S3 & N & S4).
      exists (wrap (t_open fm) (t_close fm) (join comma (map fst ws))), (k_topen fm), (k_tclose fm), (jt (map snd ws) false).
      split; [apply topen_bracket|]. split; [apply jt_bal_of; exact S3|].
      split; [apply lexes_wrap_t, lexes_join; [apply lexes_comma | discriminate | right; reflexivity | exact S2]|].
      split; [intros ->; right; reflexivity|]. split; [congruence|].
      split; [intros m Hm; unfold body_ser; rewrite S1 by exact Hm; reflexivity|].
      exists N. intros m Hm. cbn [de_body]. apply reads_map. apply reads_bracketed.
      + apply (items_reads (de_item tok_lexer fm)); [intros; apply item_reads_item; assumption | apply S4; exact Hm].
      + rewrite !map_length. congruence.
      + rewrite map_length. congruence.
    - destruct Hb as (Hnd & Hg & Hb). destruct (variant_written n fs l IH Hb Hg) as (rs & out & tr & E1 & E2 & E3 & E4 & N & E5).
      exists (wrap (s_open fm) (s_close fm) out), (k_sopen fm), (k_sclose fm), (jt (flat_map field_toks rs) tr).
      split; [apply sopen_bracket|]. split; [eapply jt_fields_bal, (E5 N (le_n N) false)|].
      split; [apply lexes_wrap_s; exact E4|].
      split; [intros ->; right; reflexivity|]. split; [discriminate|].
      split; [intros m Hm; unfold body_ser; rewrite E3 by exact Hm; reflexivity|].
      exists (N + S (length rs))%nat. intros m Hm. cbn [de_body]. rewrite <- E1, <- E2. apply reads_map. apply named_reads.
      + apply E5. lia.
      + rewrite E1. 
        assert (Ef : filter live fs = fs).
        { clear - Hg. induction Hg as [|f fs (Hs & _) Hg IH]; [reflexivity|]. cbn [filter]. unfold live at 1. rewrite Hs. cbn. congruence. }
        rewrite Ef. replace (map field_key fs) with (map f_name fs); [exact Hnd|].
        clear - Hg. induction Hg as [|f fs (_ & Hs & _) Hg IH]; [reflexivity|]. cbn [map]. unfold field_key at 1. rewrite Hs. congruence.
      + lia.
  Qed.

  Lemma delim_keeps_sb tail b u u' :
    delim tail b -> match tail with LStr _ :: _ => True | _ => t_sb u' = t_sb u end -> t_sb u' = t_sb u.
  Proof. destruct tail as [|[| |[]] tail]; simpl; intros; auto; discriminate. Qed.
  Lemma delim_keeps_ib tail b u u' :
    delim tail b -> match tail with LId _ :: _ | LP (KBool _) :: _ | LP KNull :: _ => True | _ => t_ib u' = t_ib u end -> t_ib u' = t_ib u.
  Proof. destruct tail as [|[| |[]] tail]; simpl; intros; auto; discriminate. Qed.

  Lemma enum_written n vs tag l vr :
    (forall t v, text_value c G fm n t v -> exists w, written n t v w) ->
    NoDup (map (key_of_variant fm) vs) -> nth_error vs (N.to_nat tag) = Some vr ->
    good_name fm (key_of_variant fm vr) ->
    match v_body vr with
          | BUnit => l = []
          | BTuple ts => ts <> [] /\ Forall2 (text_value c G fm n) ts l
          | BStruct fs =>
            NoDup (map f_name fs) /\
            Forall (fun f => f_skip f = false /\ f_rename f = None /\ good_name fm (f_name f)) fs /\
            Forall2 (field_value (text_value c G fm n) (looks_none G fm n) false) fs l
          end ->
    forall i, nth_error G i = Some (DEnum vs) ->
    exists w, written (S n) (TNamed i) (VEnum tag l) w.
  Proof.
    intros IH Hnd Hvr Hg Hb i Hi.
    assert (Hin : In vr vs) by (eapply nth_error_In; exact Hvr).
    assert (Hfind : forall p, p vr = true -> (forall v, p v = true -> key_of_variant fm v = key_of_variant fm vr) ->
              find_variant p vs 0 = Some (tag, vr)).
    { intros p Hp Hk. rewrite (find_variant_nodup p vs _ vr Hnd Hvr Hp Hk). f_equal. f_equal. lia. }
    set (key := variant_key fm vr) in *.
    assert (Hgl : lexes (label fm key) [key_tok fm key]).
    { apply good_key_lex. unfold key. rewrite <- key_same. exact Hg. }
    assert (Hr : forall m, de (S m) (TNamed i) = match fm with Json => de_enum_json tok_lexer fm (de m) m vs | Ron => de_enum_ron tok_lexer fm (de m) m vs end).
    { intro m. cbn [de_text]. rewrite Hi. reflexivity. }
    assert (Hcase : v_body vr = BUnit \/ v_body vr <> BUnit) by (destruct (v_body vr); auto; right; discriminate).
    destruct Hcase as [Eb|Hu].
    { rewrite Eb in Hb.
      subst l. exists (label fm key, [key_tok fm key]). split; [|split].
      - intros m Hm. destruct m as [|m]; [lia|]. cbn [ser_text fst]. rewrite Hi, Hvr, Eb. reflexivity.
      - cbn [fst snd]. constructor; [exact Hgl | apply vt_scalar; unfold key_tok; destruct fm; reflexivity |].
        eapply readable_S; [exact Hr|]. exists O. intros m _ tail b u Hd Ha. cbn [app] in Ha.
        destruct fm eqn:Ef.
        + unfold de_enum_json. rewrite (tok_at _ _ _ _ Ha). cbn [key_tok ltok_kind tok_is andb].
          assert (Hex : existsb is_unit vs = true) by (apply existsb_exists; exists vr; split; [exact Hin | unfold is_unit; rewrite Eb; reflexivity]).
          rewrite Hex.
          destruct (expect_at KStr (chars "String") u _ _ _ Ha eq_refl (delim_go _ _ Hd)) as (u1 & E1 & Ha1 & Hsb & _).
          rewrite (pbind_ok _ _ _ _ _ E1).
          assert (El : l_str tok_lexer u1 = key).
          { cbn. rewrite (delim_keeps_sb _ _ _ _ Hd Hsb). destruct Ha as (H1 & _ & H3). unfold loaded in H3. rewrite H1 in H3. exact H3. }
          rewrite El, (Hfind _).
          * eauto.
          * unfold is_unit. rewrite Eb. cbn. apply str_eqb_refl.
          * intros v Hv. apply andb_prop in Hv as [_ Hv]. apply str_eqb_eq in Hv.
            rewrite <- Ef in *. rewrite !key_same. rewrite Ef in *. exact Hv.
        + unfold de_enum_ron.
          destruct (expect_at KIdent (chars "Identifier") u _ _ _ Ha eq_refl (delim_go _ _ Hd)) as (u1 & E1 & Ha1 & _ & Hib).
          rewrite (pbind_ok _ _ _ _ _ E1).
          assert (El : l_id tok_lexer u1 = key).
          { cbn. rewrite (delim_keeps_ib _ _ _ _ Hd Hib). destruct Ha as (H1 & _ & H3). unfold loaded in H3. rewrite H1 in H3. exact H3. }
          rewrite El, (Hfind _).
          * rewrite Eb. cbn [de_body]. exists u1. split; [reflexivity | exact Ha1].
          * apply str_eqb_refl.
          * intros v Hv. apply str_eqb_eq in Hv. rewrite <- Ef in *. rewrite !key_same. rewrite Ef in *. exact Hv.
      - cbn [snd looks_none]. rewrite Hi, Hvr. unfold TextRound.none_toks, key_tok. unfold key, variant_key. destruct fm; reflexivity. }
    destruct (body_written n tag vr l IH Hu Hb) as (out & o & cl & inn & B1 & B2 & B3 & B4 & Bt & B5 & N & B6).
    set (toks := match fm with
                 | Json => LP KCurlyOpen :: (LStr key :: LP KColon :: LP o :: inn ++ [LP cl]) ++ [LP KCurlyClose]
                 | Ron => LId key :: LP o :: inn ++ [LP cl]
                 end).
    exists (nest key out, toks). split; [|split].
    - intros m Hm. destruct m as [|m]; [lia|]. rewrite (enum_ser m i vs tag l vr Hi Hvr Hu Bt), B5 by lia. reflexivity.
    - cbn [fst snd]. constructor.
      + subst toks. unfold nest. destruct fm eqn:Ef.
        * apply lexes_weak. rewrite <- Ef. apply lexes_wrap_c. rewrite Ef.
          apply (lexes_app F Json (label Json key) (c_colon :: out) [LStr key]).
          -- exact Hgl.
          -- apply lexes_weak. apply (lexes_any_app F Json [c_colon] out [LP KColon]); [apply lexes_colon | exact B3].
          -- right; reflexivity.
        * apply (lexes_app F Ron (label Ron key) out [LId key]); [exact Hgl | apply lexes_weak; exact B3 | apply B4; reflexivity].
      + subst toks. destruct fm eqn:Ef.
        * apply vt_group; [right; left; auto|]. do 2 (apply bal_cons; [reflexivity|]). apply bal_wrap; assumption.
        * apply vt_named; [reflexivity | exact B1 | exact B2].
      + eapply readable_S; [exact Hr|]. exists N. intros m Hm tail b u Hd Ha. specialize (B6 m Hm). subst toks.
        destruct fm eqn:Ef.
        * cbn [app] in Ha. unfold de_enum_json. rewrite (tok_at _ _ _ _ Ha). cbn [ltok_kind tok_is andb].
          assert (Hex : existsb (fun v => negb (is_unit v)) vs = true).
          { apply existsb_exists. exists vr. split; [exact Hin|]. unfold is_unit. destruct (v_body vr); [congruence|reflexivity|reflexivity]. }
          rewrite Hex.
          destruct (expect_at KCurlyOpen (chars "{") u _ _ _ Ha eq_refl ltac:(left; discriminate)) as (u1 & E1 & Ha1 & _).
          rewrite (pbind_ok _ _ _ _ _ E1).
          destruct (expect_at KStr (chars "String") u1 _ _ _ Ha1 eq_refl ltac:(left; discriminate)) as (u2 & E2 & Ha2 & Hsb2 & _).
          rewrite (pbind_ok _ _ _ _ _ E2).
          destruct (expect_at KColon (chars ":") u2 _ _ _ Ha2 eq_refl ltac:(left; discriminate)) as (u3 & E3 & Ha3 & Hsb3 & _).
          unfold p_colon. rewrite (pbind_ok _ _ _ _ _ E3).
          assert (El : l_str tok_lexer u3 = key).
          { cbn. rewrite Hsb3, Hsb2. destruct Ha1 as (H1 & _ & H3). unfold loaded in H3. rewrite H1 in H3. exact H3. }
          rewrite El, (Hfind _).
          -- replace ((LP o :: inn ++ [LP cl]) ++ [LP KCurlyClose] ++ tail)
               with ((LP o :: inn ++ [LP cl]) ++ LP KCurlyClose :: tail) in * by reflexivity.
             assert (Ha3' : at_ u3 ((LP o :: inn ++ [LP cl]) ++ LP KCurlyClose :: tail) b).
             { cbn [app]. rewrite <- !app_assoc in Ha3. rewrite <- app_assoc. exact Ha3. }
             destruct (B6 (LP KCurlyClose :: tail) b u3 eq_refl Ha3') as (u4 & E4 & Ha4).
             rewrite (pbind_ok _ _ _ _ _ E4).
             destruct (expect_at KCurlyClose (chars "}") u4 _ _ _ Ha4 eq_refl (delim_go _ _ Hd)) as (u5 & E5 & Ha5 & _).
             rewrite (pbind_ok _ _ _ _ _ E5). exists u5. split; [reflexivity | exact Ha5].
          -- unfold is_unit. destruct (v_body vr); [congruence | apply str_eqb_refl | apply str_eqb_refl].
          -- intros v Hv. apply andb_prop in Hv as [_ Hv]. apply str_eqb_eq in Hv.
             rewrite <- Ef in *. rewrite !key_same. rewrite Ef in *. exact Hv.
        * cbn [app] in Ha. unfold de_enum_ron.
          destruct (expect_at KIdent (chars "Identifier") u _ _ _ Ha eq_refl ltac:(left; discriminate)) as (u1 & E1 & Ha1 & _ & Hib).
          rewrite (pbind_ok _ _ _ _ _ E1).
          assert (El : l_id tok_lexer u1 = key).
          { destruct Ha as (H1 & _ & H3). unfold loaded in H3. rewrite H1 in H3. cbn.
            destruct B1 as [[-> _]|[[-> _]|[-> _]]]; rewrite Hib; exact H3. }
          rewrite El, (Hfind _).
          -- apply (B6 tail b u1 Hd). exact Ha1.
          -- apply str_eqb_refl.
          -- intros v Hv. apply str_eqb_eq in Hv. rewrite <- Ef in *. rewrite !key_same. rewrite Ef in *. exact Hv.
    - cbn [snd looks_none]. rewrite Hi, Hvr. subst toks. unfold TextRound.none_toks, key, variant_key. destruct fm; reflexivity.
  Qed.

  (** Items of one type. *)
  Lemma list_written n t l :
    (forall t v, text_value c G fm n t v -> exists w, written n t v w) ->
    Forall (text_value c G fm n t) l ->
    exists ws : list (str * list ltok), length ws = length l /\
      (forall m, (n <= m)%nat -> rall (map (ser m t) l) = Ok (map fst ws)) /\
      Forall2 lexes (map fst ws) (map snd ws) /\ Forall (fun w => vtoks fm (snd w)) ws /\
      exists N, forall m, (N <= m)%nat ->
        Forall2 (fun lx v => vtoks fm lx /\ reads (de m t) lx v) (map snd ws) l.
  Proof.
    intros IH H. induction H as [|v l Hv H (ws & L1 & S1 & S2 & S3 & N & S4)].
    - exists []. repeat split; try constructor. exists O. constructor.
    - destruct (IH _ _ Hv) as (w & Hs & [W1 W2 [N2 W3]] & W4).
      exists (w :: ws). split; [simpl; congruence|]. split; [|split; [|split]].
      + intros m Hm. cbn [map rall]. rewrite Hs, S1 by exact Hm. reflexivity.
      + constructor; assumption.
      + constructor; assumption.
      + exists (N + N2)%nat. intros m Hm. cbn [map]. constructor; [split; [exact W2 | apply W3; lia] | apply S4; lia].
  Qed.

  Definition ent (e : (str * list ltok) * (str * list ltok)) : str * list ltok :=
    (fst (fst e) ++ c_colon :: fst (snd e), snd (fst e) ++ LP KColon :: snd (snd e)).
  Lemma map_written n tk tv l :
    (forall t v, text_value c G fm n t v -> exists w, written n t v w) ->
    Forall (fun e => text_value c G fm n tk (fst e) /\ text_value c G fm n tv (snd e)) l ->
    exists es : list ((str * list ltok) * (str * list ltok)), length es = length l /\
      (forall m, (n <= m)%nat -> rall (map (ser_entry (ser m) tk tv) l) = Ok (map (fun e => fst (ent e)) es)) /\
      Forall2 lexes (map (fun e => fst (ent e)) es) (map (fun e => snd (ent e)) es) /\
      Forall (fun e => bal (snd (ent e))) es /\
      exists N, forall m, (N <= m)%nat ->
        Forall2 (fun e kv => (vtoks fm (fst e) /\ reads (de m tk) (fst e) (fst kv)) /\
                             vtoks fm (snd e) /\ reads (de m tv) (snd e) (snd kv))
          (map (fun e => (snd (fst e), snd (snd e))) es) l.
  Proof.
    intros IH H. induction H as [|v l [Hk Hv] H (ws & L1 & S1 & S2 & S3 & N & S4)].
    - exists []. repeat split; try constructor. exists O. constructor.
    - destruct (IH _ _ Hk) as (w & Hs & [W1 W2 [N2 W3]] & W4).
      destruct (IH _ _ Hv) as (x & Xs & [X1 X2 [N3 X3]] & X4).
      exists ((w, x) :: ws). split; [simpl; congruence|]. split; [|split; [|split]].
      + intros m Hm. cbn [map rall]. unfold ser_entry at 1. rewrite Hs, Xs, S1 by exact Hm. reflexivity.
      + constructor; [|exact S2]. unfold ent. cbn [fst snd].
        apply lexes_app; [exact W1 | | right; reflexivity].
        apply (lexes_app_r F fm [c_colon] (fst x) [LP KColon] (snd x)); [apply lexes_colon | exact X1].
      + constructor; [|exact S3]. unfold ent. cbn [fst snd]. apply bal_app; [eapply vtoks_bal; exact W2|].
        apply bal_cons; [reflexivity|]. eapply vtoks_bal; exact X2.
      + exists (N + N2 + N3)%nat. intros m Hm. cbn [map]. constructor; [|apply S4; lia]. cbn [fst snd].
        split; (split; [assumption|]); [apply W3 | apply X3]; lia.
  Qed.

  Lemma array_items m t ls vs : Forall2 (fun lx v => vtoks fm lx /\ reads (de m t) lx v) ls vs ->
    Forall2 (fun p lv => item_reads p (fst lv) (snd lv) (k_tclose fm)) (repeat (de_item tok_lexer fm (de m) t) (length vs)) (combine ls vs).
  Proof.
    induction 1 as [|lx v ls vs [_ H] _ IH]; cbn [length repeat combine]; constructor; [|exact IH].
    cbn [fst snd]. apply item_reads_item. exact H.
  Qed.

  Lemma none_group o l : o <> KNull -> none_toks (LP o :: l) = false.
  Proof. intro H. unfold TextRound.none_toks. destruct fm; [|reflexivity]. destruct o; congruence. Qed.
  Lemma none_topen l : none_toks (LP (k_topen fm) :: l) = false.
  Proof. apply none_group. unfold k_topen. destruct fm; discriminate. Qed.
  Lemma none_sopen l : none_toks (LP (k_sopen fm) :: l) = false.
  Proof. apply none_group. unfold k_sopen. destruct fm; discriminate. Qed.

  Lemma sep_comma_lex : lexes_any (chars ", ") [LP KComma].
  Proof.
    apply (lexes_any_app F fm [c_comma] (chars " ") [LP KComma] []); [apply lexes_comma|]. apply lexes_ws. reflexivity.
  Qed.

  Lemma tuple_case n i tr fs l :
    (forall t v, text_value c G fm n t v -> exists w, written n t v w) ->
    nth_error G i = Some (DTuple tr fs) ->
    Forall2 (fun f w => f_hasproxy f = false /\ text_value c G fm n (f_ty f) w) fs l ->
    (fm = Ron -> fs <> [] /\ existsb f_skip fs = false) ->
    exists w, written (S n) (TNamed i) (VSeq l) w.
  Proof.
    intros IH Hi Hl Hron.
    assert (Hp : existsb f_hasproxy fs = false).
    { clear - Hl. induction Hl as [|f v fs l [H _] _ IHl]; [reflexivity|]. cbn [existsb]. rewrite H. exact IHl. }
    assert (Hl2 : Forall2 (text_value c G fm n) (map f_ty fs) l).
    { apply Forall2_map_l. eapply Forall2_imp; [|exact Hl]. intros f w [_ H]; exact H. }
    destruct (tys_written n (map f_ty fs) l IH Hl2) as (ws & L1 & L2 & S1 & S2 & S3 & N & S4).
    rewrite map_length in L1, L2.
    set (out := wrap (t_open fm) (t_close fm) (join (chars ", ") (map fst ws))).
    set (toks := LP (k_topen fm) :: jt (map snd ws) false ++ [LP (k_tclose fm)]).
    assert (Hlex : lexes out toks).
    { apply lexes_weak, lexes_wrap_t, lexes_join; [apply sep_comma_lex | discriminate | right; reflexivity | exact S2]. }
    assert (Hvt : vtoks fm toks) by (apply vt_group; [apply topen_bracket | apply jt_bal_of; exact S3]).
    assert (Hsu : forall m, (n <= m)%nat -> ser_unnamed fm (ser m) fs l = Ok (join (chars ", ") (map fst ws))).
    { intros m Hm. apply ser_unnamed_join; [intro E; apply Hron; exact E | apply S1; exact Hm | exact L1]. }
    assert (Hgen : forall m, (N <= m)%nat ->
              reads (de_bracketed tok_lexer fm (map (fun f => de_item tok_lexer fm (de m) (f_ty f)) fs)) toks l).
    { intros m Hm. apply reads_bracketed.
      - rewrite <- (map_map f_ty (de_item tok_lexer fm (de m))).
        apply (items_reads (de_item tok_lexer fm)); [intros; apply item_reads_item; assumption | apply S4; exact Hm].
      - rewrite !map_length. congruence.
      - rewrite map_length. congruence. }
    assert (Hfin : (forall m, (n <= m)%nat -> ser (S m) (TNamed i) (VSeq l) = Ok out) ->
                   (forall m, de (S m) (TNamed i) = pmap VSeq (de_bracketed tok_lexer fm (map (fun f => de_item tok_lexer fm (de m) (f_ty f)) fs))) ->
                   none_toks toks = looks_none G fm (S n) (TNamed i) (VSeq l) ->
                   exists w, written (S n) (TNamed i) (VSeq l) w).
    { intros Hs Hd Hn. exists (out, toks). split; [|split; [|exact Hn]].
      - intros m Hm. destruct m as [|m]; [lia|]. apply Hs. lia.
      - constructor; [exact Hlex | exact Hvt|]. eapply readable_S; [exact Hd|]. exists N. intros m Hm.
        apply reads_map. apply Hgen. exact Hm. }
    destruct fs as [|f [|f2 fs]].
    - destruct l; [|discriminate]. destruct fm eqn:Ef; [|destruct (Hron eq_refl); congruence].
      exists (chars "{}", [LP KCurlyOpen; LP KCurlyClose]). split; [|split].
      + intros m Hm. destruct m as [|m]; [lia|]. cbn [ser_text fst]. rewrite Hi. reflexivity.
      + cbn [fst snd]. constructor.
        * apply lexes_weak. apply (lexes_wrap_c F Json [] []). apply lexes_weak, lexes_any_nil.
        * apply (vt_group Json KCurlyOpen KCurlyClose []); [right; left; auto | constructor].
        * eapply (readable_1 (pmap VSeq (de_unnamed tok_lexer Json (de O) tr []))); [intro m; cbn [de_text]; rewrite Hi; reflexivity|].
          apply reads_map. intros tail b u Hd Ha. cbn [app] in Ha. unfold de_unnamed.
          destruct (expect_at KCurlyOpen (chars "{") u _ _ _ Ha eq_refl ltac:(left; discriminate)) as (u1 & E1 & Ha1 & _).
          rewrite (pbind_ok _ _ _ _ _ E1).
          destruct (expect_at KCurlyClose (chars "}") u1 _ _ _ Ha1 eq_refl (delim_go _ _ Hd)) as (u2 & E2 & Ha2 & _).
          rewrite (pbind_ok _ _ _ _ _ E2). exists u2. split; [reflexivity | exact Ha2].
      + cbn [snd looks_none]. rewrite Hi. destruct tr; reflexivity.
    - inversion Hl as [|? v ? l' [_ Hv] Hl']; subst. inversion Hl'; subst.
      destruct fm eqn:Ef.
      + destruct tr.
        * destruct (IH _ _ Hv) as (w & Hs & [W1 W2 [N2 W3]] & W4). exists w. split; [|split].
          -- intros m Hm. destruct m as [|m]; [lia|]. cbn [ser_text]. rewrite Hi, Hp. apply Hs. lia.
          -- constructor; [exact W1 | exact W2|].
             eapply readable_S; [intro m; cbn [de_text]; rewrite Hi, Hp; reflexivity|]. exists N2. intros m Hm.
             apply reads_map. cbn [de_unnamed]. apply (reads_map (fun v => [v])). apply W3. lia.
          -- cbn [looks_none]. rewrite Hi. exact W4.
        * destruct ws as [|w [|]]; try discriminate.
          exists (out, toks). split; [|split].
          -- intros m Hm. destruct m as [|m]; [lia|]. cbn [ser_text fst]. rewrite Hi, Hp, Hsu by lia. reflexivity.
          -- constructor; [exact Hlex | exact Hvt|].
             eapply readable_S; [intro m; cbn [de_text]; rewrite Hi, Hp; reflexivity|]. exists N. intros m Hm.
             apply reads_map. cbn [de_unnamed]. unfold de_bracketed.
             eapply reads_bracket; [| unfold closing; cbn; tauto | reflexivity | reflexivity].
             specialize (S4 m Hm). inversion S4 as [|? ? ? ? R _]; subst. cbn [fst snd] in R.
             intros tail b u Ha. cbn [de_list]. cbn [jt map] in Ha. rewrite app_nil_r in Ha.
             destruct (R (LP KBlockClose :: tail) b u eq_refl Ha) as (u' & E & Ha').
             rewrite (pbind_ok _ _ _ _ _ E). exists u'. split; [reflexivity | exact Ha'].
          -- cbn [snd looks_none]. rewrite Hi. reflexivity.
      + apply Hfin.
        * intros m Hm. cbn [ser_text]. rewrite Hi, Hp, Hsu by exact Hm. reflexivity.
        * intro m. cbn [de_text]. rewrite Hi, Hp. reflexivity.
        * cbn [looks_none]. rewrite Hi. destruct tr; reflexivity.
    - apply Hfin.
      + intros m Hm. cbn [ser_text]. rewrite Hi, Hp, Hsu by exact Hm. destruct fm; reflexivity.
      + intro m. cbn [de_text]. rewrite Hi, Hp. destruct fm; reflexivity.
      + cbn [looks_none]. rewrite Hi. subst toks. rewrite none_topen. destruct tr; reflexivity.
  Qed.

  Lemma named_len {A} (fs : list A) (rs : list trip) f : map f rs = fs -> length rs = length fs.
  Proof. intros <-. symmetry. apply map_length. Qed.

  (** What is written for a value lexes to tokens that read back as the value. *)
  Theorem written_ok n : forall t v, text_value c G fm n t v -> exists w, written n t v w.
  Proof.
    induction n as [|n IH]; intros t v Hv; [contradiction|].
    destruct t as [k| | | | | |t|k t|k tk tv|m t|ts|t| | |p t|i]; cbn [text_value] in Hv.
    - (* int *)
      destruct v; try contradiction. destruct Hv as (H1 & H2 & H3).
      destruct (int_read F c fm Hc k z H1 H2 H3) as (l & I1 & I2 & I3 & I4).
      exists (dec_z z, [l]). split; [|split].
      + intros m Hm. destruct m as [|m]; [lia|]. cbn [ser_text fst]. destruct k; congruence.
      + constructor; [exact I1 | apply vt_scalar; exact I2 |].
        eapply readable_1; [intro; cbn [de_text]; reflexivity | exact I4].
      + exact I3.
    - (* f32 *)
      destruct v; try contradiction.
      destruct (show32_parse F HF _ Hv) as (d & D1 & D2).
      exists (f32_show F bits, [LP (KF64 d)]). split; [|split].
      + intros m Hm. destruct m as [|m]; [lia|]. reflexivity.
      + constructor; [apply float_lex; [apply (show32_text F HF); exact Hv | exact D1] | apply vt_scalar; reflexivity |].
        eapply readable_1; [intro; cbn [de_text]; reflexivity |]. cbn [snd]. rewrite <- D2. apply (reads_map (fun b => VF (f32_of_f64 F b))). apply f64_read.
      + unfold TextRound.none_toks. destruct fm; reflexivity.
    - (* f64 *)
      destruct v; try contradiction.
      exists (f64_show F bits, [LP (KF64 bits)]). split; [|split].
      + intros m Hm. destruct m as [|m]; [lia|]. reflexivity.
      + constructor; [apply float_lex; [apply (show64_text F HF) | apply (show64_parse F HF)]; exact Hv | apply vt_scalar; reflexivity |].
        eapply readable_1; [intro; cbn [de_text]; reflexivity |]. apply reads_map. apply f64_read.
      + unfold TextRound.none_toks. destruct fm; reflexivity.
    - (* bool *)
      destruct v; try contradiction.
      exists (if b then chars "true" else chars "false", [LP (KBool b)]). split; [|split].
      + intros m Hm. destruct m as [|m]; [lia|]. reflexivity.
      + constructor; [| apply vt_scalar; reflexivity |].
        * cbn [fst snd]. destruct b; (apply lexes_word; [discriminate | reflexivity | destruct fm; reflexivity | destruct fm; reflexivity]).
        * eapply readable_1; [intro; cbn [de_text]; reflexivity |]. apply bool_read.
      + unfold TextRound.none_toks. destruct fm; reflexivity.
    - (* str *)
      destruct v; try contradiction.
      exists (esc_str fm s, [LStr s]). split; [|split].
      + intros m Hm. destruct m as [|m]; [lia|]. reflexivity.
      + constructor; [apply lexes_weak, lexes_str | apply vt_scalar; reflexivity |].
        eapply readable_1; [intro; cbn [de_text]; reflexivity |]. apply reads_map, str_read.
      + unfold TextRound.none_toks. destruct fm; reflexivity.
    - (* unit *)
      destruct v; try contradiction. destruct fm eqn:Ef.
      + exists (chars "null", [LP KNull]). split; [|split].
        * intros m Hm. destruct m as [|m]; [lia|]. reflexivity.
        * constructor; [exact (none_text_lex F Json) | apply vt_scalar; reflexivity |].
          eapply readable_1; [intro; cbn [de_text]; reflexivity |]. intros tail b u Hd Ha. cbn [app snd] in Ha.
          destruct (expect_at KNull (chars "null") u _ _ _ Ha eq_refl (delim_go _ _ Hd)) as (u1 & E1 & Ha1 & _).
          rewrite (pbind_ok _ _ _ _ _ E1). exists u1. split; [reflexivity | exact Ha1].
        * reflexivity.
      + exists (chars "()", [LP KParenOpen; LP KParenClose]). split; [|split].
        * intros m Hm. destruct m as [|m]; [lia|]. reflexivity.
        * constructor.
          -- apply lexes_weak. apply (lexes_wrap_t F Ron [] []). apply lexes_weak, lexes_any_nil.
          -- apply (vt_group Ron KParenOpen KParenClose []); [right; right; auto | constructor].
          -- eapply readable_1; [intro; cbn [de_text]; reflexivity |]. intros tail b u Hd Ha. cbn [app snd] in Ha.
             destruct (expect_at KParenOpen (chars "(") u _ _ _ Ha eq_refl ltac:(left; discriminate)) as (u1 & E1 & Ha1 & _).
             rewrite (pbind_ok _ _ _ _ _ E1).
             destruct (expect_at KParenClose (chars ")") u1 _ _ _ Ha1 eq_refl (delim_go _ _ Hd)) as (u2 & E2 & Ha2 & _).
             rewrite (pbind_ok _ _ _ _ _ E2). exists u2. split; [reflexivity | exact Ha2].
        * reflexivity.
    - (* option *)
      destruct v; try contradiction.
      + exists (none_text fm, [none_tok fm]). split; [|split].
        * intros m Hm. destruct m as [|m]; [lia|]. reflexivity.
        * constructor; [exact (none_text_lex F fm) | apply vt_scalar, none_tok_scalar |].
          eapply readable_S; [intro; cbn [de_text]; reflexivity |]. exists O. intros m _. apply opt_none_read.
        * cbn [looks_none snd]. unfold TextRound.none_toks, none_tok. destruct fm; reflexivity.
      + destruct Hv as [Hv Hn]. destruct (IH _ _ Hv) as (w & Hs & [W1 W2 [N W3]] & W4). exists w. split; [|split].
        * intros m Hm. destruct m as [|m]; [lia|]. cbn [ser_text]. apply Hs. lia.
        * constructor; [exact W1 | exact W2 |]. eapply readable_S; [intro; cbn [de_text]; reflexivity |]. exists N. intros m Hm.
          apply opt_some_read; [exact W2 | rewrite W4; exact Hn | apply W3; lia].
        * exact W4.
    - (* sequences *)
      destruct v; try contradiction. destruct Hv as [Hv Hinv].
      destruct (list_written n t l IH Hv) as (ws & L1 & S1 & S2 & S3 & N & S4).
      set (tr := match fm, k with Ron, SVec => true | _, _ => false end).
      set (out := match fm, k with Ron, SVec => each comma (map fst ws) | _, _ => join comma (map fst ws) end).
      exists (wrap c_lbr c_rbr out, LP KBlockOpen :: jt (map snd ws) tr ++ [LP KBlockClose]). split; [|split].
      + intros m Hm. destruct m as [|m]; [lia|]. cbn [ser_text fst]. rewrite S1 by lia. reflexivity.
      + constructor.
        * apply lexes_weak, lexes_wrap_b. subst out tr.
          destruct fm eqn:Ef; [|destruct k];
            first [ apply lexes_weak, lexes_each; exact S2
                  | apply lexes_join; [apply lexes_comma | discriminate | right; reflexivity | exact S2] ].
        * apply vt_group; [left; auto | apply jt_bal_of; exact S3].
        * eapply readable_S; [intro; cbn [de_text]; reflexivity |]. exists (N + S (length ws))%nat. intros m Hm. apply reads_map.
          assert (Es : seq_of k l [] = l) by (apply (seq_of_inv k l []); exact Hinv). rewrite <- Es.
          apply (seq_reads fm); [apply S4; lia | rewrite map_length; lia].
      + cbn [snd]. rewrite none_group by discriminate. reflexivity.
    - (* maps *)
      destruct v; try contradiction. destruct Hv as [Hv Hinv].
      destruct (map_written n tk tv l IH Hv) as (es & L1 & S1 & S2 & S3 & N & S4).
      set (tr := match fm with Ron => true | _ => false end).
      set (out := match fm with Ron => each comma (map (fun e => fst (ent e)) es) | _ => join comma (map (fun e => fst (ent e)) es) end).
      exists (wrap c_lcur c_rcur out, LP KCurlyOpen :: jt (map (fun e => snd (ent e)) es) tr ++ [LP KCurlyClose]). split; [|split].
      + intros m Hm. destruct m as [|m]; [lia|]. cbn [ser_text fst]. rewrite S1 by lia. subst out. destruct fm; reflexivity.
      + constructor.
        * apply lexes_weak, lexes_wrap_c. subst out tr.
          destruct fm eqn:Ef;
            first [ apply lexes_weak, lexes_each; exact S2
                  | apply lexes_join; [apply lexes_comma | discriminate | right; reflexivity | exact S2] ].
        * apply vt_group; [right; left; auto|]. apply jt_bal. rewrite Forall_map. exact S3.
        * eapply readable_S; [intro; cbn [de_text]; reflexivity |]. exists (N + S (length es))%nat. intros m Hm. apply reads_map.
          assert (Es : map_of k l [] = l) by (apply (map_of_inv k l []); exact Hinv). rewrite <- Es.
          replace (map (fun e => snd (ent e)) es)
            with (map (fun e : list ltok * list ltok => fst e ++ LP KColon :: snd e) (map (fun e => (snd (fst e), snd (snd e))) es))
            by (rewrite map_map; reflexivity).
          apply (map_reads fm); [apply S4; lia | rewrite map_length; lia].
      + cbn [snd]. rewrite none_group by discriminate. reflexivity.
    - (* arrays *)
      destruct v; try contradiction. destruct Hv as (Hlen & Hv & Hz).
      destruct (list_written n t l IH Hv) as (ws & L1 & S1 & S2 & S3 & N & S4).
      exists (wrap (t_open fm) (t_close fm) (join comma (map fst ws)), LP (k_topen fm) :: jt (map snd ws) false ++ [LP (k_tclose fm)]).
      split; [|split].
      + intros k Hk. destruct k as [|k]; [lia|]. cbn [ser_text fst]. destruct l as [|v l].
        * rewrite Hz by (symmetry; exact Hlen). destruct ws; [|discriminate]. reflexivity.
        * rewrite S1 by lia. reflexivity.
      + constructor.
        * apply lexes_weak, lexes_wrap_t, lexes_join; [apply lexes_comma | discriminate | right; reflexivity | exact S2].
        * apply vt_group; [apply topen_bracket | apply jt_bal_of; exact S3].
        * eapply readable_S; [intro; cbn [de_text]; reflexivity |]. exists N. intros k Hk. apply reads_map. rewrite <- Hlen. apply reads_bracketed.
          -- apply array_items. apply S4. exact Hk.
          -- rewrite map_length, repeat_length. exact L1.
          -- rewrite repeat_length. reflexivity.
      + cbn [snd]. rewrite none_topen. reflexivity.
    - (* tuples *)
      destruct v; try contradiction. destruct Hv as (Hlen & Hv).
      destruct (tys_written n ts l IH Hv) as (ws & L1 & L2 & S1 & S2 & S3 & N & S4).
      assert (Har : tuple_arity (length ts) = true) by (unfold tuple_arity; apply andb_true_intro; split; apply Nat.leb_le; lia).
      exists (wrap (t_open fm) (t_close fm) (join comma (map fst ws)), LP (k_topen fm) :: jt (map snd ws) false ++ [LP (k_tclose fm)]).
      split; [|split].
      + intros m Hm. destruct m as [|m]; [lia|]. cbn [ser_text fst]. rewrite Har, S1 by lia. reflexivity.
      + constructor.
        * apply lexes_weak, lexes_wrap_t, lexes_join; [apply lexes_comma | discriminate | right; reflexivity | exact S2].
        * apply vt_group; [apply topen_bracket | apply jt_bal_of; exact S3].
        * eapply readable_S; [intro m; cbn [de_text]; rewrite Har; reflexivity|]. exists N. intros m Hm. apply reads_map.
          apply reads_bracketed.
          -- apply (items_reads (comma_block tok_lexer fm)); [intros; apply item_reads_block; assumption | apply S4; exact Hm].
          -- rewrite !map_length. congruence.
          -- rewrite map_length. congruence.
      + cbn [snd]. rewrite none_topen. reflexivity.
    - (* box *)
      destruct (IH _ _ Hv) as (w & Hs & [W1 W2 [N W3]] & W4). exists w. split; [|split].
      + intros m Hm. destruct m as [|m]; [lia|]. cbn [ser_text]. apply Hs. lia.
      + constructor; [exact W1 | exact W2 |]. eapply readable_S; [intro; cbn [de_text]; reflexivity |]. exists N. exact W3.
      + exact W4.
    - (* duration *)
      destruct v; try contradiction. destruct Hv as [H1 H2].
      exists (ser_dur secs nanos, dur_toks secs nanos). split; [|split].
      + intros m Hm. destruct m as [|m]; [lia|]. reflexivity.
      + constructor; [apply lexes_weak, dur_lex; assumption | apply dur_vtoks |].
        eapply readable_S; [intro; cbn [de_text]; reflexivity |]. exists 3%nat. intros m Hm. apply dur_read; [assumption..|lia].
      + cbn [snd]. unfold dur_toks. rewrite none_group by discriminate. reflexivity.
    - (* time *)
      destruct v; try contradiction. destruct Hv as (H1 & H2 & H3).
      exists (ser_dur (Z.to_N secs) nanos, dur_toks (Z.to_N secs) nanos). split; [|split].
      + intros m Hm. destruct m as [|m]; [lia|]. cbn [ser_text fst]. rewrite (proj2 (Z.ltb_ge secs 0)) by lia. reflexivity.
      + assert (Hs : Z.to_N secs < 2 ^ 64) by lia.
        constructor; [apply lexes_weak, dur_lex; assumption | apply dur_vtoks |].
        eapply readable_S; [intro; cbn [de_text]; reflexivity |]. exists 3%nat. intros m Hm. unfold de_time.
        apply (reads_ret_bind _ _ _ (VSome (VDur (Z.to_N secs) nanos))).
        * apply opt_some_read; [apply dur_vtoks | apply none_group; discriminate |]. apply dur_read; [assumption..|lia].
        * intro u. rewrite (proj2 (N.leb_le _ _)) by lia. rewrite Z2N.id by lia. reflexivity.
      + cbn [snd]. unfold dur_toks. rewrite none_group by discriminate. reflexivity.
    - (* proxy *)
      destruct Hv as (Ej & Hv & Hp). destruct (IH _ _ Hv) as (w & Hs & [W1 W2 [N W3]] & W4). exists w. split; [|split].
      + intros m Hm. destruct m as [|m]; [lia|]. cbn [ser_text]. rewrite Ej in *. apply Hs. lia.
      + constructor; [exact W1 | exact W2 |]. rewrite Ej in *. eapply readable_S; [intro; cbn [de_text]; reflexivity |]. exists N. intros m Hm.
        cbn. rewrite <- Hp. apply (reads_map (p_from p)). apply W3. exact Hm.
      + exact W4.
    - (* named *)
      destruct (nth_error G i) as [[dflt cnull fs|tr fs|vs|p t]|] eqn:Ei; try contradiction.
      + (* struct *)
        destruct v; try contradiction. destruct Hv as (Hnd & Hg & Hv).
        destruct (named_written n cnull fs l IH Hv Hg) as (rs & outs & E1 & E2 & E3 & E4 & N & E5).
        set (tr := match fm with Ron => true | Json => false end).
        exists (wrap (s_open fm) (s_close fm) (match fm with Json => join comma outs | Ron => each comma outs end),
                LP (k_sopen fm) :: jt (flat_map field_toks rs) tr ++ [LP (k_sclose fm)]). split; [|split].
        * intros m Hm. destruct m as [|m]; [lia|]. cbn [ser_text fst]. rewrite Ei, E3 by lia. reflexivity.
        * constructor.
          -- apply lexes_weak, lexes_wrap_s. subst tr. destruct fm eqn:Ef.
             ++ apply lexes_join; [apply lexes_comma | discriminate | right; reflexivity | exact E4].
             ++ apply lexes_weak, lexes_each; exact E4.
          -- apply vt_group; [apply sopen_bracket|]. eapply jt_fields_bal, (E5 N (le_n N) false).
          -- eapply readable_S; [intro m; cbn [de_text]; rewrite Ei; reflexivity|].
             exists (N + S (length rs))%nat. intros m Hm. rewrite <- E1, <- E2. apply reads_map. apply named_reads.
             ++ apply E5. lia.
             ++ rewrite E1. exact Hnd.
             ++ lia.
        * cbn [snd]. rewrite none_sopen. cbn [looks_none]. rewrite Ei. reflexivity.
      + (* tuple struct *)
        destruct v; try contradiction. destruct Hv as (Hl & Hron).
        exact (tuple_case n i tr fs l IH Ei Hl Hron).
      + (* enum *)
        destruct v; try contradiction. destruct Hv as (Hnd & Hv).
        destruct (nth_error vs (N.to_nat tag)) as [vr|] eqn:Evr; [|contradiction]. destruct Hv as (Hg & Hb).
        exact (enum_written n vs tag l vr IH Hnd Evr Hg Hb i Ei).
      + (* container proxy *)
        destruct Hv as (Ej & Hv & Hp). destruct (IH _ _ Hv) as (w & Hs & [W1 W2 [N W3]] & W4). exists w. split; [|split].
        * intros m Hm. destruct m as [|m]; [lia|]. cbn [ser_text]. rewrite Ei. rewrite Ej in *. apply Hs. lia.
        * constructor; [exact W1 | exact W2 |]. rewrite Ej in *.
          eapply readable_S; [intro m; cbn [de_text]; rewrite Ei; reflexivity|]. exists N. intros m Hm.
          rewrite <- Hp. apply (reads_map (p_from p)). apply W3. exact Hm.
        * cbn [looks_none]. rewrite Ei. rewrite Ej in *. exact W4.
  Qed.

  (** The round trip. *)
  Theorem text_round_trip n t v : text_value c G fm n t v ->
    exists out, returns (fun m => serialize_text F c G fm m t v) (Ok out) /\
                returns (fun m => deserialize_text F c G fm m t out) (Ok v).
  Proof.
    intro Hv. destruct (written_ok n t v Hv) as (w & Hs & [W1 W2 [N W3]] & W4).
    exists (fst w). split.
    - exists n. exact Hs.
    - exists N. intros m Hm. apply agree_ok. eapply agree_trans; [apply deserialize_tokens|].
      rewrite (lexes_end F fm _ _ W1). unfold de_toks.
      specialize (W3 m Hm). destruct (snd w) as [|x r] eqn:Ew; [inversion W2|].
      set (u := {| t_toks := _; t_bad := _; t_sb := _; t_ib := _ |}).
      destruct (W3 [] false u) as (u' & E & _).
      + reflexivity.
      + rewrite app_nil_r. split; [reflexivity|]. split; [reflexivity|]. unfold loaded, u. cbn. destruct x; reflexivity.
      + rewrite E. apply agree_refl.
  Qed.
End Main.
