(** Where the JSON readers break down, exactly: enums, and all types together. *)
From Verif Require Import Base Utf8 Types TyAll BinModel Text TextModel TextSim TextToks TextLex TextRead SpecText SpecGram SpecObj SpecList TextGram TextMain TextFuel TextLocal TextRun TextEmbed TextObj TextList SpecTok TokLex SpecDoc Doc SpecAcc AccBase AccDoc AccDe SpecTerm SpecCrash CrashBase Crash CrashDe CrashAll.
Local Open Scope N_scope.

Section Ty.
  Variables (F : flt) (c : cfg) (G : env).
  Notation L := tok_lexer.
  Notation both := (both F Json).
  Notation cinv := (cinv F).
  Notation cfwd := (cfwd F).
  Notation DE := (de_text L F c G Json).
  Notation taken := (taken F c G).
  Notation passed := (passed F c G).
  Hypothesis HG : Forall distinct_names G.
  Notation TK := (TK F c G).
  Definition fine_variants (vs : list variant) : Prop := Forall (fun v => match v_body v with BStruct fs => distinct_fields fs | _ => True end) vs.

  Section Enums.
    Variable C : ty -> list lexeme -> crash -> Prop.
    Hypothesis HC : forall t l k, C t l k -> opens l.
    Notation items_crash := (items_crash F c G C).
    Notation members_crash := (members_crash F c G C).
    Definition body_crash (b : vbody) : crel := match b with BUnit => fun _ _ _ => False | BTuple ts => items_crash ts | BStruct fs => members_crash fs end.
    Definition enum_crash (vs : list variant) : crel := fun _ xs k => exists q s i vr ys, fv1 vs s = Some (i, vr) /\ xs = XP 123 :: XS q s :: xcolon :: ys /\ body_crash (v_body vr) None ys k.
    Lemma items_opens ts nx xs k : items_crash ts nx xs k -> opens xs.
    Proof. intros (ts1 & t & ts2 & ls & l & _ & _ & _ & ->). eexists. left. reflexivity. Qed.
    Lemma members_opens fs nx xs k : members_crash fs nx xs k -> opens xs.
    Proof. intros [(ms & ls & b & f & l & _ & _ & _ & _ & _ & ->)|(ms & ls & b & name & l & _ & _ & _ & _ & _ & ->)]; eexists; right; reflexivity. Qed.
    Lemma body_next b nx nx' ys k : body_crash b nx ys k -> body_crash b nx' ys k.
    Proof. destruct b; exact (fun H => H). Qed.
    Lemma body_opens b nx ys k : body_crash b nx ys k -> opens ys.
    Proof. destruct b as [|ts|fs]; [intros [] | apply items_opens | apply members_opens]. Qed.
    Lemma calm_member : calm p_member.
    Proof. unfold p_member. apply calm_bind; [apply calm_expect|]. intros _. unfold p_colon. apply calm_bind; [apply calm_expect|]. intros _ u. exact I. Qed.
    Lemma calm_bare vs : calm (bare vs).
    Proof.
      unfold bare, p_key. apply calm_bind; [apply calm_bind; [apply calm_expect | intros _ u; exact I]|]. intro k. destruct (fv2 vs k) as [[i v]|]; [apply calm_ret | apply calm_err].
    Qed.
    Notation wrap_then vs := (c_then (r_tok F Json KCurlyOpen) (fun _ => c_then member_rel (fun k => match fv1 vs k with Some (i, v) => body_crash (v_body v) | None => fun _ _ _ => False end))).
    Lemma wrap_iff vs nx xs k : wrap_then vs nx xs k <-> enum_crash vs nx xs k.
    Proof.
      split.
      - intros (x1 & x2 & [] & -> & H1 & x3 & x4 & s & -> & (q & s' & -> & Hk) & H2). destruct (fv1 vs s) as [[i vr]|] eqn:Ef; [|contradiction].
        apply (r_tok_op F 123 KCurlyOpen (kd_lcur F)) in H1. subst x1. pose proof (body_opens _ _ _ _ H2) as [r Hr].
        assert (s = s') by (destruct Hr as [-> | ->]; exact Hk). subst s'.
        exists q, s, i, vr, x4. split; [exact Ef|]. split; [reflexivity|]. eapply body_next; exact H2.
      - intros (q & s & i & vr & ys & Ef & -> & Hb). exists [XP 123], (XS q s :: xcolon :: ys), tt. split; [reflexivity|]. split; [apply (r_tok_op F 123 KCurlyOpen (kd_lcur F)); reflexivity|].
        exists [XS q s; xcolon], ys, s. split; [reflexivity|]. split.
        + exists q, s. split; [reflexivity|]. destruct (body_opens _ _ _ _ Hb) as [r [-> | ->]]; reflexivity.
        + rewrite Ef. eapply body_next; exact Hb.
    Qed.
    Definition variant_cinv (K n : nat) (v : variant) : Prop := match v_body v with
      | BUnit => True
      | BTuple ts => Forall (fun t => cinv K (DE n t) (fun _ => C t)) ts
      | BStruct fs => Forall (fun f => cinv K (DE n (f_ty f)) (fun _ => C (f_ty f))) fs end.
    Lemma Scurly : simple KCurlyOpen. Proof. split; [reflexivity | discriminate]. Qed.
    Lemma cinv_enum K n vs : fine_variants vs -> ((1 <= K)%nat -> Forall (variant_cinv (K - 1) n) vs) -> (K < n)%nat -> cinv K (de_enum_json L Json (DE n) n vs) (enum_crash vs).
    Proof.
      intros Hd Hv HK.
      assert (Hw : cinv K (wrapped F c G vs n) (enum_crash vs)).
      { apply (cinv_weak F K _ (wrap_then vs)); [|intros nx xs k H; apply wrap_iff; exact H]. unfold wrapped.
        apply (cinv_then F K 1 (expect L KCurlyOpen (chars "{")) _ (r_tok F Json KCurlyOpen)); [exact (proj1 (both_expect F Json n KCurlyOpen (chars "{") Scurly)) | intros nx xs u (x & -> & _); apply le_n | apply calm_expect|].
        intros _ HK1. specialize (Hv HK1).
        apply (cinv_then F (K - 1) 2 p_member _ member_rel); [exact (proj1 (acc_member F n)) | intros nx xs u (q & s & -> & _); apply le_n | apply calm_member|]. intros s HK2.
        destruct (fv1 vs s) as [[i vr]|] eqn:Ef; [|apply cinv_calm, calm_err]. apply cinv_first; [|intro r; apply calm_bind; [apply calm_expect | intro; apply calm_ret]].
        apply find_variant_some in Ef as (tag & _ & Hn & _). apply nth_error_In in Hn. unfold fine_variants in Hd. rewrite Forall_forall in Hd, Hv. specialize (Hd _ Hn). specialize (Hv _ Hn). unfold variant_cinv in Hv.
        destruct (v_body vr) as [|ts|fs]; cbn [de_body body_crash].
        - apply cinv_calm, calm_ret.
        - apply cinv_map. apply (cinv_items F c G C HC (K - 1 - 2) n (fun j => de_item L Json (DE j)) ts).
          + intros t _. apply (acc_item F c G n TK). intro t'. apply TK_both. exact HG.
          + intros t Ht HK3. apply cinv_item. rewrite Forall_forall in Hv. apply (cinv_le F (K - 1)); [lia|]. apply Hv. exact Ht.
        - apply cinv_map. apply (cinv_named F c G HG C HC); [exact Hd | | lia]. intros f Hf HK3. rewrite Forall_forall in Hv. apply (cinv_le F (K - 1)); [lia|]. apply Hv. exact Hf. }
      intros u xs0 b Ha Hg Hl. rewrite enum_split. destruct (tok_is (l_tok L u) KCurlyOpen && _); [exact (Hw u xs0 b Ha Hg Hl)|].
      destruct (tok_is (l_tok L u) KStr && _); [|exact I]. pose proof (calm_bare vs u) as Hb. destruct (snd (bare vs u)); [exact I | exact I | contradiction | contradiction].
    Qed.
    Lemma cfwd_enum vs : fine_variants vs -> (forall t, cfwd (fun j => DE j t) (fun _ => C t)) -> cfwd (fun j => de_enum_json L Json (DE j) j vs) (enum_crash vs).
    Proof.
      intros Hd Ht.
      assert (Hw : cfwd (fun j => wrapped F c G vs j) (enum_crash vs)).
      { apply (cfwd_weak F _ (wrap_then vs)); [|intros nx xs k H; apply wrap_iff; exact H]. unfold wrapped.
        apply (cfwd_then F (fun _ => expect L KCurlyOpen (chars "{")) (fun j _ => pbind p_member (fun k =>
          match fv1 vs k with
          | Some (i, v) => pbind (de_body L Json (DE j) j i (v_body v)) (fun r => pbind (expect L KCurlyClose (chars "}")) (fun _ => pret r))
          | None => perr L (NoSuchEnum k) end)) (r_tok F Json KCurlyOpen)).
        - exact (proj2 (both_expect F Json O KCurlyOpen (chars "{") Scurly)).
        - intros _. apply (cfwd_then F (fun _ => p_member) (fun j k =>
            match fv1 vs k with
            | Some (i, v) => pbind (de_body L Json (DE j) j i (v_body v)) (fun r => pbind (expect L KCurlyClose (chars "}")) (fun _ => pret r))
            | None => perr L (NoSuchEnum k) end) member_rel).
          + exact (proj2 (acc_member F O)).
          + intro s. destruct (fv1 vs s) as [[i vr]|] eqn:Ef; [|intros nx xs k []].
            apply (cfwd_first F (fun j => de_body L Json (DE j) j i (v_body vr)) (fun j r => pbind (expect L KCurlyClose (chars "}")) (fun _ => pret r))).
            apply find_variant_some in Ef as (tag & _ & Hn & _). apply nth_error_In in Hn. unfold fine_variants in Hd. rewrite Forall_forall in Hd. specialize (Hd _ Hn).
            destruct (v_body vr) as [|ts|fs]; cbn [de_body body_crash]; [intros nx xs k [] | |].
            * apply (cfwd_map F (VEnum i) (fun j => de_bracketed L Json (map (de_item L Json (DE j)) ts))). apply (cfwd_items F c G C HC (fun j => de_item L Json (DE j)) ts).
              -- intros t _. apply (acc_item F c G O TK). intro t'. apply TK_both. exact HG.
              -- intros t _. apply cfwd_item. apply Ht.
            * apply (cfwd_map F (VEnum i) (fun j => de_named L Json (DE j) j false fs)). apply (cfwd_named F c G HG C HC); [exact Hd | intros f _; apply Ht].
          + intros s nx H. destruct (fv1 vs s) as [[i vr]|]; [|exact H]. destruct (body_opens _ _ _ _ H) as [r [Q|Q]]; discriminate Q.
        - intros _ nx (x1 & x2 & s & E & (q & s' & -> & _) & _). discriminate E. }
      intros nx xs k H. destruct (Hw nx xs k H) as [N HN]. exists N. intros n Hn rest b u H1 H2 H3. rewrite enum_split. destruct H as (q & s & i & vr & ys & Ef & -> & Hb).
      rewrite (atx_tok F Json _ _ _ H3), (fv1_exists _ _ _ _ Ef). exact (HN n Hn rest b u H1 H2 H3).
    Qed.
  End Enums.

  (** ** What breaks down breaks down *)
  Hypothesis HE : text_env Json G.
  Definition one (l : list lexeme) (k : crash) : crel := fun _ l' k' => l' = l /\ k' = k.
  Definition hit (t : ty) (l : list lexeme) (k : crash) : Prop := opens l /\ cfwd (fun j => DE j t) (one l k).
  Lemma hit_opens t l k : hit t l k -> opens l. Proof. intros [H _]. exact H. Qed.
  Lemma hit_fwd t : cfwd (fun j => DE j t) (fun _ => hit t).
  Proof. intros nx xs k [_ H]. exact (H nx xs k (conj eq_refl eq_refl)). Qed.
  Lemma mk_hit t l k (R : crel) : opens l -> (forall nx, R nx l k) -> cfwd (fun j => DE (S j) t) R -> hit t l k.
  Proof. intros Ho Hr H. split; [exact Ho|]. apply cfwd_shift. intros nx xs k' [-> ->]. exact (H nx l k (Hr nx)). Qed.
  Lemma TKb n t : both n (fun j => DE j t) (fun nx xs v => TK (hstr nx) t xs v). Proof. apply TK_both. exact HG. Qed.
  Lemma hit_same t t' l k : (forall j u, snd (DE (S j) t' u) = snd (DE j t u)) -> hit t l k -> hit t' l k.
  Proof.
    intros E [Ho H]. apply (mk_hit t' l k (one l k)); [exact Ho | intro; split; reflexivity|]. intros nx xs k' Hc. destruct (H nx xs k' Hc) as [N HN]. exists N. intros n Hn rest b u. rewrite E. apply HN. exact Hn.
  Qed.
  Lemma hit_map t t' l k (g : val -> val) : (forall j u, DE (S j) t' u = pmap g (DE j t) u) -> hit t l k -> hit t' l k.
  Proof.
    intros E [Ho H]. apply (mk_hit t' l k (one l k)); [exact Ho | intro; split; reflexivity|]. apply (cfwd_ext F (fun j => pmap g (DE j t))); [intros n u; rewrite E; reflexivity|]. apply (cfwd_map F g (fun j => DE j t)). exact H.
  Qed.
  Lemma rep_map j t' m : repeat (de_item L Json (DE j) t') m = map (de_item L Json (DE j)) (repeat t' m).
  Proof. induction m as [|m IH]; [reflexivity|]. cbn. rewrite IH. reflexivity. Qed.
  Lemma decl_ok i d : nth_error G i = Some d -> distinct_names d /\ text_decl Json d.
  Proof. intro E. apply nth_error_In in E. destruct HE as [_ H]. rewrite Forall_forall in H. pose proof HG as H'. rewrite Forall_forall in H'. auto. Qed.
  Lemma no_proxy fs : Forall (fun f => f_hasproxy f = false) fs -> existsb f_hasproxy fs = false.
  Proof. induction 1 as [|f fs Hf _ IH]; [reflexivity|]. cbn. rewrite Hf. exact IH. Qed.
  Lemma hit_items ts : cfwd (fun j => de_bracketed L Json (map (de_item L Json (DE j)) ts)) (items_crash F c G hit ts).
  Proof.
    apply (cfwd_items F c G hit hit_opens (fun j => de_item L Json (DE j)) ts).
    - intros t _. apply (acc_item F c G O TK). apply TKb.
    - intros t _. apply cfwd_item. apply hit_fwd.
  Qed.
  Lemma hit_blocks ts : cfwd (fun j => de_bracketed L Json (map (comma_block L Json (DE j)) ts)) (items_crash F c G hit ts).
  Proof.
    apply (cfwd_items F c G hit hit_opens (fun j => comma_block L Json (DE j)) ts).
    - intros t _. apply (acc_block F c G O TK). apply TKb.
    - intros t _. apply cfwd_block. apply hit_fwd.
  Qed.
  Lemma hit_members dflt fs : distinct_fields fs -> cfwd (fun j => de_named L Json (DE j) j dflt fs) (members_crash F c G hit fs).
  Proof. intro Hu. apply (cfwd_named F c G HG hit hit_opens); [exact Hu | intros f _; apply hit_fwd]. Qed.
  Lemma hit_variant i vs vr b ys k : nth_error G i = Some (DEnum vs) -> In vr vs -> v_body vr <> BUnit -> body_crash hit (v_body vr) None ys k ->
    hit (TNamed i) (XP 123 :: XS b (key_of_variant Json vr) :: xcolon :: ys) k.
  Proof.
    intros E Hi Hn Hb. destruct (decl_ok _ _ E) as [[D1 D2] _]. apply (mk_hit _ _ _ (enum_crash hit vs)).
    - eexists. right. reflexivity.
    - intros nx. apply In_nth_error in Hi as [tag Ht]. exists b, (key_of_variant Json vr), (N.of_nat tag), vr, ys. split; [|auto]. unfold fv1. apply (fv_iff (fun v => negb (is_unit v))); [exact D1|].
      exists tag. split; [reflexivity|]. split; [exact Ht|]. split; [|reflexivity]. unfold is_unit. destruct (v_body vr); [congruence | reflexivity | reflexivity].
    - apply (cfwd_ext F (fun j => de_enum_json L Json (DE j) j vs)); [intros n u; cbn [de_text]; rewrite E; reflexivity|]. apply cfwd_enum; [exact hit_opens | exact D2 | exact hit_fwd].
  Qed.
  Theorem breaks_hit : (forall t xs k, breaks F c G t xs k -> hit t xs k) /\
    (forall ts xs k, breaks_items F c G ts xs k -> items_crash F c G hit ts None xs k) /\
    (forall fs xs k, breaks_members F c G fs xs k -> members_crash F c G hit fs None xs k).
  Proof.
    apply breaks_mutind.
    - (* Option *) intros t xs k _ IH. destruct IH as [Ho H]. apply (mk_hit _ _ _ (one xs k)); [exact Ho | intro; split; reflexivity|]. cbn [de_text].
      apply cfwd_opt; [intros nx l k' [-> _]; exact Ho | exact H].
    - intros t xs k _. apply hit_same. reflexivity.
    - intros p t xs k _. apply (hit_map _ _ _ _ (p_from p)). reflexivity.
    - intros q t ls l k Hf _ IH. apply (mk_hit _ _ _ (seq_crash F c G hit t)); [eexists; left; reflexivity | intros nx; exists ls, l; auto|]. cbn [de_text].
      apply (cfwd_map F VSeq (fun j => de_seq L (DE j) j q t)). apply cfwd_seq; [exact HG | exact hit_opens | apply hit_fwd].
    - intros q tk tv es l k Hf _ IH. apply (mk_hit _ _ _ (map_crash F c G hit tk tv)); [eexists; right; reflexivity | intros nx; exists es; split; [exact Hf | left; exists l; auto]|]. cbn [de_text].
      apply (cfwd_map F VMap (fun j => de_map L (DE j) j q tk tv)). apply cfwd_mapk; [exact HG | exact hit_opens | apply hit_fwd | apply hit_fwd].
    - intros q tk tv es x l k Hf Hx _ IH. apply (mk_hit _ _ _ (map_crash F c G hit tk tv)); [eexists; right; reflexivity | intros nx; exists es; split; [exact Hf | right; exists x, l; auto]|]. cbn [de_text].
      apply (cfwd_map F VMap (fun j => de_map L (DE j) j q tk tv)). apply cfwd_mapk; [exact HG | exact hit_opens | apply hit_fwd | apply hit_fwd].
    - intros m t xs k _ IH. apply (mk_hit _ _ _ (items_crash F c G hit (repeat t m))); [eapply items_opens; exact IH | intros nx; exact IH|].
      apply (cfwd_ext F (fun j => pmap VSeq (de_bracketed L Json (map (de_item L Json (DE j)) (repeat t m))))); [intros n u; cbn [de_text]; rewrite rep_map; reflexivity|].
      apply (cfwd_map F VSeq (fun j => de_bracketed L Json (map (de_item L Json (DE j)) (repeat t m)))). apply hit_items.
    - intros ts xs k Hl _ IH. apply (mk_hit _ _ _ (items_crash F c G hit ts)); [eapply items_opens; exact IH | intros nx; exact IH|].
      assert (Ha : tuple_arity (length ts) = true) by (unfold tuple_arity; apply andb_true_intro; split; apply Nat.leb_le; lia).
      apply (cfwd_ext F (fun j => pmap VSeq (de_bracketed L Json (map (comma_block L Json (DE j)) ts)))); [intros n u; cbn [de_text]; rewrite Ha; reflexivity|].
      apply (cfwd_map F VSeq (fun j => de_bracketed L Json (map (comma_block L Json (DE j)) ts))). apply hit_blocks.
    - intros xs Ho. apply (mk_hit _ _ _ c_dur); [apply overflow_opens; exact Ho | intros nx; split; [reflexivity | exact Ho]|]. cbn [de_text]. apply cfwd_dur.
    - intros xs Ho. apply (mk_hit _ _ _ (c_time c)); [apply overflow_opens; exact Ho | intros nx; left; split; [reflexivity | exact Ho]|]. cbn [de_text]. apply cfwd_time.
    - intros xs s ns Hd Hs. apply (mk_hit _ _ _ (c_time c)); [eapply dur_opens; exact Hd | intros nx; right; split; [reflexivity | eauto]|]. cbn [de_text]. apply cfwd_time.
    - intros i dflt nl fs xs k E _ IH. destruct (decl_ok _ _ E) as [D1 _]. apply (mk_hit _ _ _ (members_crash F c G hit fs)); [eapply members_opens; exact IH | intros nx; exact IH|].
      apply (cfwd_ext F (fun j => pmap VSeq (de_named L Json (DE j) j dflt fs))); [intros n u; cbn [de_text]; rewrite E; reflexivity|].
      apply (cfwd_map F VSeq (fun j => de_named L Json (DE j) j dflt fs)). apply hit_members. exact D1.
    - intros i f xs k E _. destruct (decl_ok _ _ E) as [_ [D1 _]]. apply (hit_map _ _ _ _ (fun v => VSeq [v])). intros j u. cbn [de_text]. rewrite E, (no_proxy _ D1). cbn [de_unnamed]. unfold pmap, pbind. destruct (DE j (f_ty f) u) as [u1 [a|e|p|]]; reflexivity.
    - intros i tr fs xs k E Htr _ IH. destruct (decl_ok _ _ E) as [_ [D1 _]]. apply (mk_hit _ _ _ (items_crash F c G hit (map f_ty fs))); [eapply items_opens; exact IH | intros nx; exact IH|].
      apply (cfwd_ext F (fun j => pmap VSeq (de_unnamed L Json (DE j) tr fs))); [intros n u; cbn [de_text]; rewrite E, (no_proxy _ D1); reflexivity|].
      apply (cfwd_map F VSeq (fun j => de_unnamed L Json (DE j) tr fs)).
      destruct fs as [|f [|f2 fs]].
      + intros nx l k' (ts1 & t & ts2 & ls & l' & Q & _). destruct ts1; discriminate Q.
      + destruct tr; [exfalso; apply Htr; reflexivity|]. apply (cfwd_single F c G hit hit_opens (f_ty f)). apply hit_fwd.
      + apply (cfwd_ext F (fun j => de_bracketed L Json (map (de_item L Json (DE j)) (map f_ty (f :: f2 :: fs))))); [|apply hit_items].
        intros n u. assert (Eu : de_unnamed L Json (DE n) tr (f :: f2 :: fs) = de_bracketed L Json (map (de_item L Json (DE n)) (map f_ty (f :: f2 :: fs)))) by (cbn [de_unnamed]; rewrite map_map; reflexivity).
        rewrite Eu. reflexivity.
    - intros i vs vr b ts ys k E Hi Eb _ IH. apply (hit_variant i vs vr b ys k E Hi); rewrite Eb; [discriminate | exact IH].
    - intros i vs vr b fs ys k E Hi Eb _ IH. apply (hit_variant i vs vr b ys k E Hi); rewrite Eb; [discriminate | exact IH].
    - intros i p t xs k E _. apply (hit_map _ _ _ _ (p_from p)). intros j u. cbn [de_text]. rewrite E. reflexivity.
    - intros ts1 t ts2 ls l k Hf _ IH. exists ts1, t, ts2, ls, l. auto.
    - intros fs ms ls b f l k H1 H2 H3 H4 _ IH. left. exists ms, ls, b, f, l. auto 10.
    - intros fs ms ls b name l k H1 H2 H3 H4 H5. right. exists ms, ls, b, name, l. auto 10.
  Qed.

  (** ** Nothing else does *)
  Notation br := (breaks F c G).
  Lemma br_opens t l k : br t l k -> opens l. Proof. intro H. exact (hit_opens t l k (proj1 breaks_hit t l k H)). Qed.
  Lemma items_br ts nx xs k : items_crash F c G br ts nx xs k -> breaks_items F c G ts xs k.
  Proof. intros (ts1 & t & ts2 & ls & l & -> & Hf & Hk & ->). constructor; assumption. Qed.
  Lemma members_br fs nx xs k : members_crash F c G br fs nx xs k -> breaks_members F c G fs xs k.
  Proof.
    intros [(ms & ls & b & f & l & H1 & H2 & H3 & H4 & H5 & ->)|(ms & ls & b & name & l & H1 & H2 & H3 & H4 & H5 & ->)]; [eapply bm_known | eapply bm_unknown]; eassumption.
  Qed.
  Variable rank : nat -> nat.
  Hypothesis Hrank : forall i d j, nth_error G i = Some d -> In j (decl_at_once Json d) -> (rank j < rank i)%nat.
  Notation good := (ty_all (text_node Json G)).
  Definition Cs (K : nat) (t : ty) : Prop := exists N, forall n, (N <= n)%nat -> cinv K (DE n t) (fun _ => br t).
  Lemma Cs_all K ts : Forall (Cs K) ts -> exists N, forall n, (N <= n)%nat -> Forall (fun t => cinv K (DE n t) (fun _ => br t)) ts.
  Proof.
    induction 1 as [|t ts [N1 H1] _ [N2 H2]]; [exists O; intros; constructor|].
    exists (Nat.max N1 N2). intros n Hn. constructor; [apply H1; lia | apply H2; lia].
  Qed.
  Lemma Cs_fields K fs : Forall (fun f => Cs K (f_ty f)) fs -> exists N, forall n, (N <= n)%nat -> Forall (fun f => cinv K (DE n (f_ty f)) (fun _ => br (f_ty f))) fs.
  Proof.
    intro H. destruct (Cs_all K (map f_ty fs)) as [N HN]; [rewrite Forall_map; exact H|].
    exists N. intros n Hn. specialize (HN n Hn). rewrite Forall_map in HN. exact HN.
  Qed.
  Lemma Cs_variants K vs : Forall (fun v => match v_body v with BUnit => True | BTuple ts => Forall (Cs K) ts | BStruct fs => Forall (fun f => Cs K (f_ty f)) fs end) vs ->
    exists N, forall n, (N <= n)%nat -> Forall (variant_cinv br K n) vs.
  Proof.
    induction 1 as [|v vs H1 _ [N2 H2]]; [exists O; intros; constructor|].
    assert (Hone : exists N, forall n, (N <= n)%nat -> variant_cinv br K n v).
    { unfold variant_cinv. destruct (v_body v) as [|ts|fs]; [exists O; auto| |]; [apply Cs_all | apply Cs_fields]; exact H1. }
    destruct Hone as [N1 HN1]. exists (Nat.max N1 N2). intros n Hn. constructor; [apply HN1; lia | apply H2; lia].
  Qed.
  (** At depth at least one, a bound on the rest follows from one for shorter token lists. *)
  Lemma from_shorter K (Q : nat -> nat -> Prop) : ((1 <= K)%nat -> exists N, forall n, (N <= n)%nat -> Q (K - 1)%nat n) -> exists N, forall n, (N <= n)%nat -> (1 <= K)%nat -> Q (K - 1)%nat n.
  Proof. intro H. destruct (le_lt_dec 1 K) as [HK|HK]; [|exists O; lia]. destruct (H HK) as [N HN]. exists N. intros n Hn _. apply HN. exact Hn. Qed.
  Lemma cinv_br_items K n ts : ((1 <= K)%nat -> Forall (fun t => cinv (K - 1) (DE n t) (fun _ => br t)) ts) -> cinv K (de_bracketed L Json (map (de_item L Json (DE n)) ts)) (fun _ => breaks_items F c G ts).
  Proof.
    intro H. apply (cinv_weak F K _ (items_crash F c G br ts)); [|intros nx xs k; apply items_br]. apply (cinv_items F c G br br_opens K n (fun j => de_item L Json (DE j)) ts).
    - intros t _. apply (acc_item F c G n TK). apply TKb.
    - intros t Ht HK. apply cinv_item. specialize (H HK). rewrite Forall_forall in H. exact (H t Ht).
  Qed.
  Lemma cinv_br_blocks K n ts : ((1 <= K)%nat -> Forall (fun t => cinv (K - 1) (DE n t) (fun _ => br t)) ts) -> cinv K (de_bracketed L Json (map (comma_block L Json (DE n)) ts)) (fun _ => breaks_items F c G ts).
  Proof.
    intro H. apply (cinv_weak F K _ (items_crash F c G br ts)); [|intros nx xs k; apply items_br]. apply (cinv_items F c G br br_opens K n (fun j => comma_block L Json (DE j)) ts).
    - intros t _. apply (acc_block F c G n TK). apply TKb.
    - intros t Ht HK. apply cinv_block. specialize (H HK). rewrite Forall_forall in H. exact (H t Ht).
  Qed.
  Lemma cinv_same K n t (m : @pm tst val) C : DE n t = m -> cinv K m C -> (forall nx xs k, C nx xs k -> br t xs k) -> cinv K (DE n t) (fun _ => br t).
  Proof. intros -> H Hc. eapply cinv_weak; [exact H | exact Hc]. Qed.
  Lemma cs_ty K : (forall K', (K' < K)%nat -> forall t, good t -> Cs K' t) -> forall r t, good t -> (forall j, In j (at_once t) -> (rank j < r)%nat) -> Cs K t.
  Proof.
    intros HB. induction r as [r IHr] using lt_wf_ind. intro t.
    assert (Calm : forall t, (forall n, calm (DE (S n) t)) -> Cs K t).
    { intros t0 Hm. exists 1%nat. intros [|n] Hn; [lia|]. apply cinv_calm. apply Hm. }
    induction t as [k| | | | | |t' IHt|k t' IHt|k tk tv IHk IHv|m t' IHt|ts IHts|t' IHt| | |p t' IHt|i] using ty_ind2; intros Hg Hu;
      cbn [ty_all] in Hg; destruct Hg as [Hg0 Hg]; cbn [text_node] in Hg0.
    - apply Calm; intro n; cbn [de_text]. apply calm_int; tauto.
    - apply Calm; intro n; cbn [de_text]. apply calm_map, calm_f64.
    - apply Calm; intro n; cbn [de_text]. apply calm_map, calm_f64.
    - apply Calm; intro n; cbn [de_text]. apply calm_bool.
    - apply Calm; intro n; cbn [de_text]. apply calm_map, calm_str.
    - apply Calm; intro n; cbn [de_text]. apply calm_bind; [apply calm_expect | intro; apply calm_ret].
    - destruct (IHt Hg Hu) as [N HN]. exists (S N). intros [|n] Hn; [lia|]. eapply cinv_same; [cbn [de_text]; reflexivity | apply cinv_opt, HN; lia | intros nx xs k; apply br_opt].
    - destruct (from_shorter K (fun K' n => cinv K' (DE n t') (fun _ => br t'))) as [N HN]; [intro HK; apply HB; [lia | exact Hg]|].
      exists (S (S (K + N))). intros [|n] Hn; [lia|]. eapply cinv_same; [cbn [de_text]; reflexivity | apply cinv_map, (cinv_seq F c G HG br br_opens K n k t'); [apply HN; lia | lia] | ].
      intros nx xs k' (ls & l & Hf & Hk & ->). apply br_seq; assumption.
    - destruct Hg as [Hg1 Hg2].
      destruct (from_shorter K (fun K' n => cinv K' (DE n tk) (fun _ => br tk))) as [N1 HN1]; [intro HK; apply HB; [lia | exact Hg1]|].
      destruct (from_shorter K (fun K' n => cinv K' (DE n tv) (fun _ => br tv))) as [N2 HN2]; [intro HK; apply HB; [lia | exact Hg2]|].
      exists (S (S (K + N1 + N2))). intros [|n] Hn; [lia|]. eapply cinv_same; [cbn [de_text]; reflexivity | apply cinv_map, (cinv_mapk F c G HG br br_opens K n k tk tv); [apply HN1; lia | apply HN2; lia | lia] | ].
      intros nx xs k' (es & Hf & [(l & Hk & ->)|(x & l & Hx & Hk & ->)]); [apply br_key | apply br_entry]; assumption.
    - destruct (from_shorter K (fun K' n => cinv K' (DE n t') (fun _ => br t'))) as [N HN]; [intro HK; apply HB; [lia | exact Hg]|].
      exists (S N). intros [|n] Hn; [lia|]. eapply cinv_same; [cbn [de_text]; rewrite rep_map; reflexivity | apply cinv_map, (cinv_br_items K n (repeat t' m)) | intros nx xs k; apply br_arr].
      intro HK. apply Forall_forall. intros x Hx. apply repeat_spec in Hx. subst x. apply HN; [lia | exact HK].
    - apply ty_all_list in Hg. assert (Ha : tuple_arity (length ts) = true) by (unfold tuple_arity; apply andb_true_intro; split; apply Nat.leb_le; lia).
      destruct (from_shorter K (fun K' n => Forall (fun t => cinv K' (DE n t) (fun _ => br t)) ts)) as [N HN].
      { intro HK. apply Cs_all. eapply Forall_impl; [|exact Hg]. intros t Ht. apply HB; [lia | exact Ht]. }
      exists (S N). intros [|n] Hn; [lia|]. eapply cinv_same; [cbn [de_text]; rewrite Ha; reflexivity | apply cinv_map, (cinv_br_blocks K n ts) | intros nx xs k; apply br_tup; exact Hg0]. apply HN. lia.
    - destruct (IHt Hg Hu) as [N HN]. exists (S N). intros [|n] Hn; [lia|]. eapply cinv_same; [cbn [de_text]; reflexivity | apply HN; lia | intros nx xs k; apply br_box].
    - exists (S (S K)). intros [|n] Hn; [lia|]. eapply cinv_same; [cbn [de_text]; reflexivity | apply cinv_dur; lia | ]. intros nx xs k [-> H]. apply br_dur. exact H.
    - exists (S (S K)). intros [|n] Hn; [lia|]. eapply cinv_same; [cbn [de_text]; reflexivity | apply cinv_time; lia | ]. intros nx xs k [[-> H]|(-> & s & ns & H1 & H2)]; [apply br_time; exact H | eapply br_late; eassumption].
    - destruct (IHt Hg Hu) as [N HN]. exists (S N). intros [|n] Hn; [lia|]. eapply cinv_same; [cbn [de_text]; reflexivity | apply cinv_map, HN; lia | intros nx xs k; apply br_proxy].
    - assert (Hi : (rank i < r)%nat) by (apply Hu; left; reflexivity).
      destruct (nth_error G i) as [d|] eqn:EG; [|apply nth_error_None in EG; lia].
      destruct (decl_ok _ _ EG) as [D2 D3]. pose proof (env_all_nth _ _ _ _ (proj1 HE) EG) as D1.
      destruct d as [dflt cn fs|tr fs|vs|p t'].
      + destruct (from_shorter K (fun K' n => Forall (fun f => cinv K' (DE n (f_ty f)) (fun _ => br (f_ty f))) fs)) as [N HN].
        { intro HK. apply Cs_fields. eapply Forall_impl; [|exact D1]. intros f Hf. apply HB; [lia | exact Hf]. }
        exists (S (S (K + N))). intros [|n] Hn; [lia|]. eapply cinv_same; [cbn [de_text]; rewrite EG; reflexivity | apply cinv_map, (cinv_named F c G HG br br_opens K n dflt fs); [exact D2 | | lia] | ].
        * intros f Hf HK. specialize (HN n ltac:(lia) HK). rewrite Forall_forall in HN. exact (HN f Hf).
        * intros nx xs k H. eapply br_struct; [exact EG | eapply members_br; exact H].
      + destruct D3 as [D3 _]. apply no_proxy in D3.
        assert (Hc : (exists f, tr = true /\ fs = [f]) \/ (tr = true -> length fs <> 1%nat)) by (destruct fs as [|f [|f2 fs]]; [right; discriminate | destruct tr; [left; eauto | right; discriminate] | right; discriminate]).
        destruct Hc as [(f & -> & ->)|Hc].
        * destruct (IHr (rank i) Hi (f_ty f)) as [N HN]; [exact (Forall_inv D1) | intros j Hj; eapply Hrank; [exact EG | exact Hj]|].
          exists (S N). intros [|n] Hn; [lia|]. eapply cinv_same; [cbn [de_text]; rewrite EG, D3; reflexivity | apply (cinv_map F K VSeq), (cinv_map F K (fun v => [v])), HN; lia | intros nx xs k; apply br_transparent; exact EG].
        * destruct (from_shorter K (fun K' n => Forall (fun f => cinv K' (DE n (f_ty f)) (fun _ => br (f_ty f))) fs)) as [N HN].
          { intro HK. apply Cs_fields. eapply Forall_impl; [|exact D1]. intros f Hf. apply HB; [lia | exact Hf]. }
          exists (S N). intros [|n] Hn; [lia|]. specialize (HN n ltac:(lia)).
          eapply cinv_same; [cbn [de_text]; rewrite EG, D3; reflexivity | apply (cinv_map F K VSeq (de_unnamed L Json (DE n) tr fs) (fun _ => breaks_items F c G (map f_ty fs))) | intros nx xs k H; eapply br_tuple; eassumption].
          destruct fs as [|f [|f2 fs]].
          -- apply cinv_calm. cbn [de_unnamed]. apply calm_bind; [apply calm_expect | intro; apply calm_bind; [apply calm_expect | intro; apply calm_ret]].
          -- destruct tr; [exfalso; apply Hc; reflexivity|]. cbn [de_unnamed]. apply (cinv_weak F K _ (items_crash F c G br [f_ty f])); [|intros nx xs k; apply items_br].
             apply (cinv_single F c G br K n (f_ty f)). intro HK. exact (Forall_inv (HN HK)).
          -- assert (Eu : de_unnamed L Json (DE n) tr (f :: f2 :: fs) = de_bracketed L Json (map (de_item L Json (DE n)) (map f_ty (f :: f2 :: fs)))) by (cbn [de_unnamed]; rewrite map_map; reflexivity).
             rewrite Eu. apply cinv_br_items. intro HK. rewrite Forall_map. exact (HN HK).
      + destruct D2 as [D2 D4].
        destruct (from_shorter K (fun K' n => Forall (variant_cinv br K' n) vs)) as [N HN].
        { intro HK. apply Cs_variants. apply Forall_forall. intros v Hv. cbn in D1. rewrite Forall_forall in D1. specialize (D1 v Hv). destruct (v_body v) as [|ts|fs]; [exact I| |].
          - eapply Forall_impl; [|exact D1]. intros t Ht. apply HB; [lia | exact Ht].
          - eapply Forall_impl; [|exact D1]. intros f Hf. apply HB; [lia | exact Hf]. }
        exists (S (S (K + N))). intros [|n] Hn; [lia|]. eapply cinv_same; [cbn [de_text]; rewrite EG; reflexivity | apply (cinv_enum br br_opens K n vs); [exact D4 | apply HN; lia | lia] | ].
        intros nx xs k (q & s & j & vr & ys & Ef & -> & Hb). apply (fv_iff (fun v => negb (is_unit v))) in Ef as (tag & _ & Ht & _ & <-); [|exact D2]. apply nth_error_In in Ht.
        destruct (v_body vr) as [|ts|fs] eqn:Eb; cbn [body_crash] in Hb; [contradiction | eapply br_variant_items | eapply br_variant_members]; try eassumption; [eapply items_br | eapply members_br]; exact Hb.
      + destruct (IHr (rank i) Hi t') as [N HN]; [exact D1 | intros j Hj; eapply Hrank; [exact EG | exact Hj]|].
        exists (S N). intros [|n] Hn; [lia|]. eapply cinv_same; [cbn [de_text]; rewrite EG; reflexivity | apply (cinv_map F K (p_from p)), HN; lia | intros nx xs k; intro H; eapply br_conv; [exact EG | exact H]].
  Qed.
  Theorem cs_all K : forall t, good t -> Cs K t.
  Proof.
    induction K as [K IH] using lt_wf_ind. intros t Ht.
    apply (cs_ty K) with (r := S (list_max (map rank (at_once t)))); auto.
    intros j Hj. apply Nat.lt_succ_r.
    assert (Hm := list_max_le (map rank (at_once t)) (list_max (map rank (at_once t)))).
    destruct Hm as [Hm _]. specialize (Hm (le_n _)). rewrite Forall_forall in Hm. apply Hm. apply in_map. assumption.
  Qed.
End Ty.
