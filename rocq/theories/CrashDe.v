(** Where the JSON readers break down, exactly: the readers of the types. *)
From Verif Require Import Base Utf8 Types TyAll BinModel Text TextModel TextSim TextToks TextLex TextRead SpecText SpecGram SpecObj SpecList TextGram TextMain TextFuel TextLocal TextRun TextEmbed TextObj TextList SpecTok TokLex SpecDoc Doc SpecAcc AccBase AccDoc AccDe SpecTerm SpecCrash CrashBase Crash.
Local Open Scope N_scope.

Section Skip.
  Variable F : flt.
  Notation L := tok_lexer.
  Notation atx := (atx F Json).
  Notation kd := (kd F Json).
  Notation good := (good F Json).
  Notation cinv := (cinv F).
  Notation cfwd := (cfwd F).
  Definition stays (d : N) (xs : list lexeme) : Prop := forall p q, xs = p ++ q -> p <> [] -> (0 < Z.of_N d + total p)%Z.
  Lemma step_depth d u x xs b : atx u (x :: xs) b -> d <> 0 \/ x = XP 91 \/ x = XP 123 ->
    exists d2, Z.of_N d2 = (Z.of_N d + weight x)%Z /\ forall n, whole_loop L (S n) d u = pbind (l_next L) (fun _ => if d2 =? 0 then pret tt else whole_loop L n d2) u.
  Proof.
    intros Ha Hd. assert (Hg : good x) by (destruct Ha as [_ Hg]; inversion Hg; assumption). pose proof (loop_step F d x Hg Hd) as Hs. cbv zeta in Hs.
    eexists. split; [exact Hs|]. intro n. cbn [whole_loop]. rewrite (atx_tok F Json _ _ _ Ha). reflexivity.
  Qed.
  Lemma loop_hang : forall n d u xs b, atx u xs b -> goes xs b -> d <> 0 \/ head xs = Some (XP 91) \/ head xs = Some (XP 123) -> (length xs < n)%nat ->
    match snd (whole_loop L n d u) with Ok _ | Err _ => True | r => r = NoFuel /\ b = false /\ stays d xs end.
  Proof.
    induction n as [|n IH]; intros d u xs b Ha Hg Hd Hn; [lia|]. destruct xs as [|x xs].
    - destruct Hd as [Hd|[Hd|Hd]]; try discriminate Hd. destruct Ha as [Ha _]. cbn [map] in Ha. rewrite (whole_eof Json (S n) d u b Ha Hd). split; [reflexivity|].
      split; [destruct Hg as [Hg|Hg]; [congruence | exact Hg]|]. intros p q E Hp. destruct p; [congruence | discriminate].
    - destruct (step_depth d u x xs b Ha) as (d2 & Hd2 & E); [cbn [head hd_of] in Hd; destruct Hd as [Hd|[Hd|Hd]]; [auto | injection Hd; auto | injection Hd; auto]|]. rewrite E. clear E.
      unfold pbind. pose proof (calm_next u) as Hc. destruct (l_next L u) as [u1 [r|e|p|]] eqn:En; cbn [snd] in *; try exact I; try contradiction.
      destruct (d2 =? 0) eqn:E0; [exact I|]. apply N.eqb_neq in E0. destruct (next_inv F Json _ _ _ _ _ _ Ha En) as [A1 G1].
      pose proof (IH d2 u1 xs b A1 G1 (or_introl E0) ltac:(cbn in Hn; lia)) as H. destruct (snd (whole_loop L n d2 u1)) as [?|?|?|]; [exact I | exact I | destruct H as [H _]; discriminate H |]. destruct H as (H1 & H2 & H3). split; [congruence|]. split; [exact H2|].
      intros p q Hpq Hp. destruct p as [|y p]; [congruence|]. injection Hpq as <- ->. cbn [total]. destruct p as [|z p]; [cbn [total]; lia|]. specialize (H3 (z :: p) q eq_refl ltac:(discriminate)). lia.
  Qed.
  Lemma hang_loop : forall xs n d u, atx u xs false -> d <> 0 \/ head xs = Some (XP 91) \/ head xs = Some (XP 123) -> stays d xs -> snd (whole_loop L n d u) = NoFuel.
  Proof.
    induction xs as [|x xs IH]; intros n d u Ha Hd Hs.
    - destruct Hd as [Hd|[Hd|Hd]]; try discriminate Hd. destruct Ha as [Ha _]. exact (whole_eof Json n d u false Ha Hd).
    - destruct n as [|n]; [reflexivity|]. destruct (step_depth d u x xs false Ha) as (d2 & Hd2 & E); [cbn [head hd_of] in Hd; destruct Hd as [Hd|[Hd|Hd]]; [auto | injection Hd; auto | injection Hd; auto]|]. rewrite E. clear E.
      assert (Hg : goes xs false) by (right; reflexivity). destruct (next_fwd F Json _ _ _ _ Ha Hg) as (u1 & E1 & A1 & _). unfold pbind. rewrite E1.
      assert (Hpos : (0 < Z.of_N d2)%Z) by (specialize (Hs [x] xs eq_refl ltac:(discriminate)); cbn [total] in Hs; lia).
      replace (d2 =? 0) with false by (symmetry; apply N.eqb_neq; lia). apply (IH n d2 u1 A1); [left; lia|]. intros p q -> Hp. specialize (Hs (x :: p) q eq_refl ltac:(discriminate)). cbn [total] in Hs. lia.
  Qed.
  Lemma good_punct p : good (XP p) -> In p [44; 58; 93; 125; 91; 123].
  Proof. intros [r H]. destruct H as [H|[Q _]]; [|discriminate]. cbn [In] in *. tauto. Qed.
  Lemma cinv_whole K n : (K < n)%nat -> cinv K (whole_field L n) (fun _ => fatal_value).
  Proof.
    intros HK u xs0 b Ha Hg Hl. destruct xs0 as [|x xs0].
    - unfold whole_field. rewrite (atx_tok F Json _ _ _ Ha). cbn [snd head hd_of AccBase.kh]. exists [], [], NoValue. split; [reflexivity|]. split; [reflexivity|].
      split; [split; [reflexivity|]; destruct Hg as [Hg|Hg]; [congruence | exact Hg] | reflexivity].
    - assert (Hgx : good x) by (destruct Ha as [_ Hgx]; inversion Hgx; assumption).
      assert (Hx : (forall p, x <> XP p) \/ exists p, x = XP p) by (destruct x; [right; eauto | left; discriminate | left; discriminate | left; discriminate]).
      destruct Hx as [Hx|[p ->]].
      + pose proof (good_open F x Hgx Hx) as Q. unfold whole_field. rewrite (atx_tok F Json _ _ _ Ha). cbn [head hd_of AccBase.kh]. pose proof (calm_next u) as Hc.
        destruct (kd x); try contradiction; destruct (snd (l_next L u)); auto; contradiction.
      + apply good_punct in Hgx. cbn [In] in Hgx.
        assert (Hbad : kd (XP p) = KComma \/ kd (XP p) = KColon \/ kd (XP p) = KBlockClose \/ kd (XP p) = KCurlyClose -> In p [44; 58; 93; 125] ->
          match snd (whole_field L n u) with Ok _ | Err _ => True | r => exists xs rest k, XP p :: xs0 = xs ++ rest /\ fatal_value xs k /\ tail_ok k rest b /\ r = fate k end).
        { intros Hk Hp. unfold whole_field. rewrite (atx_tok F Json _ _ _ Ha). cbn [head hd_of AccBase.kh].
          assert (Q : exists xs rest k, XP p :: xs0 = xs ++ rest /\ fatal_value xs k /\ tail_ok k rest b /\ (Panic PUnimplemented : res terr unit) = fate k).
          { exists [XP p], xs0, BadValue. split; [reflexivity|]. split; [exists p; auto|]. split; [exact I | reflexivity]. }
          destruct Hk as [-> |[-> |[-> | ->]]]; exact Q. }
        assert (Hop : p = 91 \/ p = 123 -> match snd (whole_field L n u) with Ok _ | Err _ => True | r => exists xs rest k, XP p :: xs0 = xs ++ rest /\ fatal_value xs k /\ tail_ok k rest b /\ r = fate k end).
        { intro Hp. assert (E : whole_field L n u = whole_loop L n 0 u) by (unfold whole_field; rewrite (atx_tok F Json _ _ _ Ha); destruct Hp as [-> | ->]; reflexivity). rewrite E.
          pose proof (loop_hang n 0 u (XP p :: xs0) b Ha Hg ltac:(right; cbn [head hd_of]; destruct Hp as [-> | ->]; auto) ltac:(lia)) as H.
          destruct (snd (whole_loop L n 0 u)) as [?|?|?|]; [exact I | exact I | destruct H as [H _]; discriminate H |]. destruct H as (H1 & H2 & H3). exists (XP p :: xs0), [], Unclosed. rewrite app_nil_r. split; [reflexivity|]. split; [|split; [split; [reflexivity | exact H2] | reflexivity]].
          split; [exists (XP p), xs0; split; [reflexivity|]; destruct Hp as [-> | ->]; auto|]. intros p' q E' Hp'. specialize (H3 p' q E' Hp'). lia. }
        destruct Hgx as [<- |[<- |[<- |[<- |[<- |[<- |[]]]]]]]; try (apply Hbad; [cbn; tauto | cbn; tauto]); apply Hop; auto.
  Qed.
  Lemma cfwd_whole : cfwd (fun n => whole_field L n) (fun _ => fatal_value).
  Proof.
    intros nx xs k H. exists O. intros n _ rest b u Hh Ht Ha. destruct k; cbn [fatal_value] in H; try contradiction.
    - destruct H as (p & -> & Hp). unfold whole_field. rewrite (atx_tok F Json _ _ _ Ha). cbn [app head hd_of AccBase.kh]. cbn [In] in Hp. destruct Hp as [<- |[<- |[<- |[<- |[]]]]]; reflexivity.
    - subst xs. destruct Ht as [-> ->]. unfold whole_field. rewrite (atx_tok F Json _ _ _ Ha). reflexivity.
    - destruct H as [(x & r & -> & Hx) H]. destruct Ht as [-> ->]. rewrite app_nil_r in Ha.
      assert (E : whole_field L n u = whole_loop L n 0 u) by (unfold whole_field; rewrite (atx_tok F Json _ _ _ Ha); destruct Hx as [-> | ->]; reflexivity). rewrite E.
      apply (hang_loop (x :: r) n 0 u Ha); [right; cbn [head hd_of]; destruct Hx as [-> | ->]; auto|]. intros p q E' Hp. specialize (H p q E' Hp). lia.
  Qed.

  (** *** Scalars, durations *)
  Lemma calm_str : calm (de_str L).
  Proof. intro u. unfold de_str, as_string, pbind. destruct (tok_is (l_tok L u) KStr); [|exact I]. pose proof (calm_next (l_take L u)) as H. destruct (l_next L (l_take L u)) as [u1 [a|e|p|]]; exact H. Qed.
  Lemma calm_u64 k : calm (de_u64 L k).
  Proof. unfold de_u64. apply calm_bind; [|intro; apply calm_bind; [apply calm_next | intro; apply calm_ret]]. intro u. unfold u64_range. destruct (l_tok L u); try exact I. destruct (_ <? _); exact I. Qed.
  Lemma calm_int c k : k <> U128 -> k <> I128 -> calm (de_int L c k).
  Proof.
    intros K1 K2. assert (Hi : forall a b f, calm (pbind (i64_range L a b) (fun v => pbind (l_next L) (fun _ => pret (f v : val))))).
    { intros a b f. apply calm_bind; [|intro; apply calm_bind; [apply calm_next | intro; apply calm_ret]]. intro u. unfold i64_range. destruct (l_tok L u); try exact I; destruct (_ <? _)%Z; exact I. }
    assert (Hu : forall a f, calm (pbind (u64_range L a) (fun v => pbind (l_next L) (fun _ => pret (f v : val))))).
    { intros a f. apply calm_bind; [|intro; apply calm_bind; [apply calm_next | intro; apply calm_ret]]. intro u. unfold u64_range. destruct (l_tok L u); try exact I; destruct (_ <? _); exact I. }
    destruct k; try congruence; unfold de_int; first [apply Hu | apply Hi].
  Qed.
  Lemma calm_f64 : calm (de_f64 L F).
  Proof. unfold de_f64. apply calm_bind; [|intro; apply calm_bind; [apply calm_next | intro; apply calm_ret]]. intro u. unfold as_f64. destruct (l_tok L u); exact I. Qed.
  Lemma calm_bool : calm (de_bool L Json).
  Proof. unfold de_bool. apply calm_bind; [|intro; apply calm_bind; [apply calm_next | intro; apply calm_ret]]. intro u. unfold as_bool. destruct (l_tok L u); exact I. Qed.
  Lemma calm_ditem a : calm (ditemx a).
  Proof.
    unfold ditemx, num_item. apply calm_bind; [apply calm_str|]. intro key.
    assert (Hn : forall k (f : N -> option N * option N), calm (pbind (p_colon L) (fun _ => pbind (de_u64 L k) (fun v => pret (f v))))) by (intros k f; apply calm_bind; [apply calm_expect|]; intros _; apply calm_bind; [apply calm_u64 | intro; apply calm_ret]).
    destruct (str_eqb key _); [destruct (fst a); [apply calm_err | apply Hn]|]. destruct (str_eqb key _); [destruct (snd a); [apply calm_err | apply Hn] | apply calm_err].
  Qed.
  Definition dlate (a : option N * option N) (k : crash) : Prop := k = TooLong /\ exists s, fst a = Some s /\ snd a = Some 1000000000 /\ ~ s + 1 < 2 ^ 64.
  Lemma dfin_crash a u : match snd (dfin a u) with Ok _ | Err _ => True | r => exists k, dlate a k /\ (k = TooLong \/ k = TooLate) /\ r = fate k end.
  Proof.
    unfold dfin. destruct (fst a) as [s|] eqn:Es; [|exact I]. cbv zeta. destruct (1000000000 <? _) eqn:E1; [exact I|]. destruct (_ <? 1000000000) eqn:E2; [exact I|]. destruct (s + 1 <? 2 ^ 64) eqn:E3; [exact I|].
    apply N.ltb_ge in E1, E2. apply N.ltb_ge in E3. cbn [pfail snd]. exists TooLong. split; [|split; [auto | reflexivity]]. split; [reflexivity|]. exists s. split; [exact Es|].
    split; [|lia]. destruct (snd a) as [x|]; [f_equal; lia | lia].
  Qed.
  Lemma dlate_fate a k u : dlate a k -> snd (dfin a u) = fate k.
  Proof.
    intros (-> & s & E1 & E2 & H). unfold dfin. rewrite E1, E2. cbv zeta. change (1000000000 <? 1000000000) with false. cbn iota. replace (s + 1 <? 2 ^ 64) with false by (symmetry; apply N.ltb_ge; lia). reflexivity.
  Qed.
  Lemma dur_crash nx xs k : c_loop 123 125 dstepx (fun _ _ _ => False) dlate (None, None) nx xs k <-> k = TooLong /\ dur_overflow xs.
  Proof.
    split.
    - intros [(ls & a & l & _ & [] & _)|(ls & ys & [o1 o2] & Hr & Hl & -> & -> & s & E1 & E2 & H)]. cbn [fst snd] in *. subst o1 o2. split; [reflexivity|].
      destruct (drun_inv ls s _ Hr) as (ms & Hm & Hlt & sa & sb & Ma & Hms). exists ms, sa, sb. split; [exists ls, ys; auto|]. assert (Es : s = 2 ^ 64 - 1) by lia. rewrite <- Es. split; [exact Ma|].
      destruct Hms as [[_ Q]|[Mb Hms]]; [discriminate Q | auto].
    - intros [-> (ms & sa & sb & (ls & ys & Hm & Hl & ->) & Ma & Mb & Hms)]. right.
      destruct (drun_fwd ms ls (2 ^ 64 - 1) 1000000000 sa sb Hm ltac:(lia) ltac:(lia) Ma ltac:(right; auto)) as (o & Hr & Eo). exists ls, ys, (Some (2 ^ 64 - 1), o). split; [exact Hr|]. split; [exact Hl|]. split; [reflexivity|].
      split; [reflexivity|]. eexists. split; [reflexivity|]. cbn [snd]. destruct o as [x|]; [|discriminate Eo]. split; [congruence | lia].
  Qed.
  Definition c_dur : crel := fun _ xs k => k = TooLong /\ dur_overflow xs.
  Lemma dstep_open a l a' : dstepx a l a' -> exists x r, l = x :: r /\ not_close F KCurlyClose (Some x) = true.
  Proof. intros (q & s & v & [(-> & _)|(-> & _)]); eexists; eexists; (split; [reflexivity | reflexivity]). Qed.
  Lemma dur_body_eq a u : dur_body L a u = body_of KCurlyClose (chars ", or }") ditemx a u.
  Proof. unfold dur_body, body_of, ditemx, pbind. destruct (de_str L u) as [u1 [key|e|p|]]; reflexivity. Qed.
  Lemma cinv_dur K n : (K < n)%nat -> cinv K (de_dur L n) c_dur.
  Proof.
    intro HK. eapply cinv_weak; [|intros nx xs k H; apply dur_crash in H; exact H].
    apply (cinv_loop F 123 125 KCurlyOpen KCurlyClose (kd_lcur F) (kd_rcur F)) with (cnd := not_close F KCurlyClose) (item := fun _ => ditemx) (I := fun a _ l a' => dstepx a l a') (w2 := chars ", or }") (fin := dfin).
    - split; [reflexivity | discriminate].
    - split; [reflexivity | discriminate].
    - discriminate.
    - reflexivity.
    - exact dstep_open.
    - intros a l k [].
    - reflexivity.
    - intros u xs b. apply not_close_cond.
    - intros a u _. apply dur_body_eq.
    - intro a. apply acc_ditem.
    - intros a _. apply cinv_calm, calm_ditem.
    - intros a k. apply cinv_pure. apply dfin_crash.
    - exact HK.
  Qed.
  Lemma cfwd_dur : cfwd (fun n => de_dur L n) c_dur.
  Proof.
    apply (cfwd_weak F _ (c_loop 123 125 dstepx (fun _ _ _ => False) dlate (None, None))); [|intros nx xs k H; apply dur_crash; exact H].
    apply (cfwd_loop F 123 125 KCurlyOpen KCurlyClose (kd_lcur F) (kd_rcur F)) with (cnd := not_close F KCurlyClose) (item := fun _ => ditemx) (I := fun a _ l a' => dstepx a l a') (w2 := chars ", or }") (fin := dfin).
    - split; [reflexivity | discriminate].
    - split; [reflexivity | discriminate].
    - discriminate.
    - reflexivity.
    - exact dstep_open.
    - intros a l k [].
    - reflexivity.
    - intros u xs b. apply not_close_cond.
    - intros j a u _. apply dur_body_eq.
    - intros n a. apply acc_ditem.
    - intros a nx xs k [].
    - intro a. apply cfwd_pure. intros k n u H. apply dlate_fate. exact H.
    - intros a [Q _]. discriminate.
  Qed.

  (** *** Options *)
  Lemma cinv_opt K (m : @pm tst val) C : cinv K m C -> cinv K (de_opt L Json m) C.
  Proof.
    intros H u xs0 b Ha Hg Hl. unfold de_opt. destruct (at_none L Json u).
    - pose proof (calm_bind (l_next L) (fun _ => pret VNone) calm_next (fun _ => calm_ret _) u) as Hc. destruct (snd (pbind (l_next L) (fun _ => pret VNone) u)); auto; contradiction.
    - exact (cinv_map F K VSome m C H u xs0 b Ha Hg Hl).
  Qed.
  Lemma cfwd_opt (m : nat -> @pm tst val) (C : crel) : (forall nx xs k, C nx xs k -> opens xs) -> cfwd m C -> cfwd (fun n => de_opt L Json (m n)) C.
  Proof.
    intros Ho H nx xs k HC. destruct (cfwd_map F VSome m C H nx xs k HC) as [N HN]. exists N. intros n Hn rest b u Hh Ht Ha. unfold de_opt, at_none. rewrite (atx_tok F Json _ _ _ Ha).
    destruct (Ho _ _ _ HC) as [r Hr]. replace (tok_is (AccBase.kh F Json (head (xs ++ rest))) KNull) with false by (destruct Hr as [-> | ->]; reflexivity). exact (HN n Hn rest b u Hh Ht Ha).
  Qed.
  Lemma object_opens ms xs : object_toks ms xs -> opens xs.
  Proof. intros (ls & ys & _ & _ & ->). exists (ys ++ [XP 125]). right. reflexivity. Qed.
  Lemma overflow_opens xs : dur_overflow xs -> opens xs.
  Proof. intros (ms & sa & sb & H & _). eapply object_opens; exact H. Qed.
  Lemma dur_opens xs s ns : dur_toks xs s ns -> opens xs.
  Proof. intros (ms & a & b & H & _). eapply object_opens; exact H. Qed.
  Variable c : cfg.
  Definition c_time : crel := fun _ xs k => k = TooLong /\ dur_overflow xs \/ k = TooLate /\ exists s ns, dur_toks xs s ns /\ time_max c < s.
  Definition opt_dur : rel val := fun nx xs v => xs = [XW (chars "null")] /\ v = VNone \/ xs <> [XW (chars "null")] /\ exists w, v = VSome w /\ exists s ns, dur_toks xs s ns /\ w = VDur s ns.
  Lemma acc_opt_dur n : both F Json n (fun j => de_opt L Json (de_dur L j)) opt_dur.
  Proof. apply (acc_opt F n (fun j => de_dur L j) (fun _ xs v => exists s ns, dur_toks xs s ns /\ v = VDur s ns) (acc_dur F n)). intros nx xs v (s & ns & H & _). eapply dur_shape; exact H. Qed.
  Definition late (w : val) (k : crash) : Prop := k = TooLate /\ exists s ns, w = VSome (VDur s ns) /\ time_max c < s.
  Definition tfin (v : val) : @pm tst val :=
    match v with
    | VSome (VDur s ns) => if s <=? time_max c then pret (VTime (Z.of_N s) ns) else pfail (Panic PTime)
    | _ => pret (VTime 0 0)
    end.
  Lemma time_crash nx xs k : (c_dur nx xs k \/ c_then opt_dur (fun w _ xs k => xs = [] /\ late w k) nx xs k) <-> c_time nx xs k.
  Proof.
    split.
    - intros [H|(x1 & x2 & w & -> & H & -> & -> & s & ns & -> & Hs)]; [left; exact H|]. right. split; [reflexivity|]. rewrite app_nil_r. destruct H as [[_ Q]|(_ & w & Q & s' & ns' & Hd & E)]; [discriminate|].
      injection Q as <-. injection E as <- <-. exists s, ns. auto.
    - intros [H|(-> & s & ns & Hd & Hs)]; [left; exact H|]. right. exists xs, [], (VSome (VDur s ns)). rewrite app_nil_r. split; [reflexivity|]. split.
      + right. split; [|eauto 6]. destruct (dur_opens _ _ _ Hd) as [r [-> | ->]]; discriminate.
      + split; [reflexivity|]. split; [reflexivity|]. eauto.
  Qed.
  Lemma tfin_crash w u : match snd (tfin w u) with Ok _ | Err _ => True | r => exists k, late w k /\ (k = TooLong \/ k = TooLate) /\ r = fate k end.
  Proof.
    unfold tfin. destruct w as [| | | | | |w| | | | |]; try exact I. destruct w; try exact I. destruct (_ <=? time_max c) eqn:E; [exact I|]. apply N.leb_gt in E. cbn [pfail snd]. exists TooLate.
    split; [split; [reflexivity|]; eauto | split; [auto | reflexivity]].
  Qed.
  Lemma cinv_time K n : (K < n)%nat -> cinv K (de_time L c Json n) c_time.
  Proof.
    intro HK. eapply cinv_weak; [|intros nx xs k H; apply time_crash; exact H].
    apply (cinv_bind F K 0 (de_opt L Json (de_dur L n)) tfin c_dur opt_dur (fun w _ xs k => xs = [] /\ late w k)).
    - apply (proj1 (acc_opt_dur n)).
    - intros; lia.
    - apply cinv_opt, cinv_dur. exact HK.
    - intros w _. apply cinv_pure. apply tfin_crash.
  Qed.
  Lemma cfwd_time : cfwd (fun n => de_time L c Json n) c_time.
  Proof.
    intros nx xs k H. apply time_crash in H. destruct H as [H|H]; revert nx xs k H.
    - apply (cfwd_first F (fun n => de_opt L Json (de_dur L n)) (fun _ => tfin)). apply cfwd_opt; [|apply cfwd_dur]. intros nx xs k [_ H]. apply overflow_opens. exact H.
    - apply (cfwd_then F (fun n => de_opt L Json (de_dur L n)) (fun _ => tfin)).
      + apply (proj2 (acc_opt_dur O)).
      + intro w. apply cfwd_pure. intros k n u (-> & s & ns & -> & Hs). unfold tfin. replace (s <=? time_max c) with false by (symmetry; apply N.leb_gt; exact Hs). reflexivity.
      + intros w nx (_ & Q & _). discriminate.
  Qed.
End Skip.
