(** The size of what is read from a text, for SpecMem.v. *)
From Verif Require Import Base Utf8 Types TyAll BinModel Text SpecText SpecGram SpecTok SpecDoc SpecAcc SpecRon SpecRonAcc SpecMem BinMem.
Local Open Scope N_scope.

(** ** Characters of tokens *)
Definition wide (x : lexeme) : N := match x with XS _ s => 2 + lenN s | _ => 1 end.
Fixpoint width (xs : list lexeme) : N := match xs with [] => 0 | x :: r => wide x + width r end.
Fixpoint widths (ls : list (list lexeme)) : N := match ls with [] => 0 | x :: r => width x + widths r end.
Lemma width_app a b : width (a ++ b) = width a + width b.
Proof. induction a as [|x a IH]; cbn; [reflexivity|]. rewrite IH. lia. Qed.
Lemma width_commas ls : widths ls <= width (commas ls).
Proof.
  induction ls as [|x ls IH]; [cbn; lia|]. destruct ls as [|y ls]; [cbn; lia|]. change (commas (x :: y :: ls)) with (x ++ xcomma :: commas (y :: ls)).
  change (widths (x :: y :: ls)) with (width x + widths (y :: ls)). rewrite width_app. cbn [width wide xcomma]. lia.
Qed.
Lemma width_listed ls ys : listed ls ys -> widths ls <= width ys.
Proof. intros [-> |[_ ->]]; [apply width_commas|]. rewrite width_app. pose proof (width_commas ls). lia. Qed.
Lemma width_between o cl xs : width (between o cl xs) = 2 + width xs.
Proof. unfold between. cbn [width wide]. rewrite width_app. cbn [width wide]. lia. Qed.
Lemma chars_len b s : chars_of b s -> lenN s <= lenN b.
Proof.
  induction 1 as [|x t s H1 H2 H3 H IH|e x t s He H IH|h n t s Hh H1 H2 H IH|h1 a h2 b t s Hh1 Hh2 H1 H2 H IH]; rewrite ?lenN_app; unfold lenN in *; cbn [length]; lia.
Qed.
Lemma wide_spelled fm F x r : token_before fm F x r -> wide x <= lenN (spelled x).
Proof.
  destruct x as [ch|w|s|b s]; cbn [token_before wide spelled]; intro H.
  - cbn. lia.
  - destruct H as [H _]. destruct fm; [destruct H as [-> |[-> | ->]]; cbn; lia | destruct H as (x & q & -> & _); unfold lenN; cbn [length]; lia].
  - destruct H as (sg & ip & fr & ex & -> & Hp & _ & Hv). destruct Hp as (_ & _ & _ & _ & Hn). rewrite !lenN_app.
    destruct sg as [|a sg]; [|unfold lenN; cbn [length]; lia]. destruct ip as [|a ip]; [|unfold lenN; cbn [length]; lia]. destruct (Hn eq_refl eq_refl) as [_ Hf].
    destruct fr as [|a fr]; [congruence | unfold lenN; cbn [length]; lia].
  - unfold quoted. unfold lenN. cbn [length]. rewrite app_length. cbn [length]. apply chars_len in H. unfold lenN in H. lia.
Qed.
Lemma width_tokens fm F xs text r : tokens fm F xs text r -> width xs + lenN r <= lenN text.
Proof.
  induction 1 as [r|g x xs text r Hg Hx H IH]; [cbn; lia|]. cbn [width]. apply wide_spelled in Hx. rewrite !lenN_app. lia.
Qed.

(** ** Sums *)
Lemma f2_sum {A} (P : A -> val -> Prop) (w : A -> N) (E : N) (ls : list A) ws :
  (forall x v, P x v -> cells v <= E * w x) -> Forall2 P ls ws -> tot cells ws <= E * fold_right (fun x n => w x + n) 0 ls.
Proof. intros HP. induction 1 as [|x v ls ws H Hs IH]; [cbn; lia|]. rewrite tot_cons. cbn [fold_right]. specialize (HP _ _ H). lia. Qed.
Lemma widths_fold ls : widths ls = fold_right (fun x n => width x + n) 0 ls.
Proof. induction ls as [|x ls IH]; [reflexivity|]. cbn. rewrite IH. reflexivity. Qed.
Lemma tuple_sum (take : ty -> list lexeme -> val -> Prop) E ts ls ws : (forall t x v, In t ts -> take t x v -> cells v <= E * width x) ->
  tuple_means take ts ls ws -> tot cells ws <= E * widths ls.
Proof.
  intros HP H. induction H as [|t d v ts ds vs H Hs IH]; [cbn; lia|]. rewrite tot_cons. cbn [widths].
  pose proof (HP t d v (or_introl eq_refl) H). assert (tot cells vs <= E * widths ds) by (apply IH; intros t0 x v0 Hin; apply HP; right; exact Hin). lia.
Qed.
(** The members of an object, each counted once. *)
Definition mwidth (ms : list (str * list lexeme)) : N := fold_right (fun m n => width (snd m) + n) 0 ms.
Lemma mwidth_cons k xs ms : mwidth ((k, xs) :: ms) = width xs + mwidth ms.
Proof. reflexivity. Qed.
Definition without (k : str) (ms : list (str * list lexeme)) : list (str * list lexeme) := filter (fun m => negb (str_eqb (fst m) k)) ms.
Lemma without_width k xs ms : In (k, xs) ms -> width xs + mwidth (without k ms) <= mwidth ms.
Proof.
  assert (Le : forall l, mwidth (without k l) <= mwidth l).
  { induction l as [|[k0 x0] l IH]; [cbn; lia|]. unfold without in *. cbn [filter fst]. destruct (negb (str_eqb k0 k)); rewrite ?mwidth_cons; lia. }
  induction ms as [|[k0 x0] ms IH]; intro Hin; [destruct Hin|]. destruct Hin as [E|Hin].
  - injection E as -> ->. unfold without. cbn [filter fst]. rewrite str_eqb_refl. cbn [negb]. rewrite mwidth_cons. specialize (Le ms). unfold without in Le. lia.
  - specialize (IH Hin). unfold without in *. cbn [filter fst]. destruct (negb (str_eqb k0 k)); rewrite ?mwidth_cons; lia.
Qed.
Lemma without_in k k' xs ms : k' <> k -> In (k', xs) ms -> In (k', xs) (without k ms).
Proof. intros Hk Hin. apply filter_In. split; [exact Hin|]. cbn [fst]. apply str_eqb_neq in Hk. rewrite Hk. reflexivity. Qed.
Lemma last_in k (d : list lexeme) ms : last_named k d ms -> In (k, d) ms.
Proof. intros (pre & post & -> & _). apply in_or_app. right. left. reflexivity. Qed.
Lemma absent_spare dflt f v : absent_value dflt f = Some v -> cells v <= spare f.
Proof. unfold absent_value, spare. destruct (f_default f) as [w|]; [intro H; injection H as <-; lia|]. destruct (f_isopt f || dflt); [|discriminate]. intro H. injection H as <-. lia. Qed.
Lemma fields_sum (take : ty -> list lexeme -> val -> Prop) E dflt fs vs : forall ms, 1 <= E ->
  (forall f x v, In f fs -> take (f_ty f) x v -> cells v <= E * width x) ->
  distinct_fields fs -> Forall2 (fun f v => f_skip f = true /\ v = omitted_value f \/
     f_skip f = false /\ ((exists d, In (key_of_field f, d) ms /\ field_means take f d v) \/ absent_value dflt f = Some v)) fs vs ->
  tot cells vs <= E * mwidth ms + spares fs.
Proof.
  revert vs. induction fs as [|f fs IH]; intros vs ms HE HP Hd H; inversion H as [|? v ? vs' H1 H2]; subst; [cbn; lia|].
  rewrite tot_cons. cbn [spares fold_right]. fold (spares fs).
  assert (HP' : forall f0 x v0, In f0 fs -> take (f_ty f0) x v0 -> cells v0 <= E * width x) by (intros f0 x v0 Hin; apply HP; right; exact Hin).
  unfold distinct_fields in Hd. cbn [filter] in Hd. destruct H1 as [[Hsk ->]|[Hsk H1]]; rewrite Hsk in Hd; cbn [negb] in Hd.
  - specialize (IH vs' ms HE HP' Hd H2). assert (cells (omitted_value f) <= spare f) by (unfold omitted_value, spare; destruct (f_default f); lia). lia.
  - cbn [map] in Hd. inversion Hd as [|? ? Hn Hd']; subst. destruct H1 as [(d & Hin & Hm)|Ha].
    + assert (Hv : cells v <= E * width d).
      { unfold field_means in Hm. destruct (f_isopt f && f_hasproxy f); [destruct Hm as (w & -> & Hm); cbn [cells]|]; apply (HP f _ _ (or_introl eq_refl) Hm). }
      pose proof (without_width _ _ _ Hin) as Hw.
      assert (tot cells vs' <= E * mwidth (without (key_of_field f) ms) + spares fs).
      { apply IH; [exact HE | exact HP' | exact Hd'|]. assert (Hn' : forall f0, In f0 fs -> f_skip f0 = false -> key_of_field f0 <> key_of_field f).
        { intros f0 Hf0 Hs0 Eq. apply Hn. rewrite <- Eq. apply in_map. apply filter_In. split; [exact Hf0|]. rewrite Hs0. reflexivity. }
        clear -H2 Hn'. induction H2 as [|f0 v0 fs vs H Hs IH]; constructor; [|apply IH; intros f1 Hf1; apply Hn'; right; exact Hf1].
        destruct H as [H|[Hs0 [(d & Hin & Hm)|Ha]]]; [left; exact H| |right; split; [exact Hs0 | right; exact Ha]].
        right. split; [exact Hs0|]. left. exists d. split; [|exact Hm]. apply without_in; [apply Hn'; [left; reflexivity | exact Hs0] | exact Hin]. }
      assert (1 <= spare f) by (unfold spare; lia). nia.
    + specialize (IH vs' ms HE HP' Hd' H2). apply absent_spare in Ha. lia.
Qed.
Lemma fields_means_sum (take : ty -> list lexeme -> val -> Prop) E dflt fs ms vs : 1 <= E ->
  (forall f x v, In f fs -> take (f_ty f) x v -> cells v <= E * width x) ->
  distinct_fields fs -> fields_means take dflt fs ms vs -> tot cells vs <= E * mwidth ms + spares fs.
Proof.
  intros HE HP Hd (H & _ & _). apply (fields_sum take E dflt fs vs ms HE HP Hd). clear -H. induction H as [|f v fs vs H Hs IH]; constructor; [|exact IH].
  unfold field_from in H. destruct (f_skip f); [left; auto|]. right. split; [reflexivity|]. destruct H as [(d & Hl & Hm)|[_ Ha]]; [left; exists d; split; [apply last_in; exact Hl | exact Hm] | right; exact Ha].
Qed.
Lemma object_width ms xs : object_toks ms xs -> mwidth ms + 2 <= width xs.
Proof.
  intros (ls & ys & Hm & Hl & ->). unfold in_curly. rewrite width_between. apply width_listed in Hl. assert (mwidth ms <= widths ls); [|lia].
  clear -Hm. induction Hm as [|[k x] l ms ls H Hs IH]; [cbn; lia|]. rewrite mwidth_cons. cbn [widths]. destruct H as [b ->]. cbn [fst snd width wide]. lia.
Qed.
Lemma robject_width ms xs : robject_toks ms xs -> mwidth ms + 2 <= width xs.
Proof.
  intros (ls & ys & Hm & Hl & ->). unfold in_round. rewrite width_between. apply width_listed in Hl. assert (mwidth ms <= widths ls); [|lia].
  clear -Hm. induction Hm as [|[k x] l ms ls H Hs IH]; [cbn; lia|]. rewrite mwidth_cons. cbn [widths]. destruct H as [_ ->]. cbn [fst snd width wide]. lia.
Qed.
Lemma array_width ls xs : array_toks ls xs -> widths ls + 2 <= width xs.
Proof. intros (ys & Hl & ->). unfold in_square. rewrite width_between. apply width_listed in Hl. lia. Qed.
Lemma round_width ls xs : round_toks ls xs -> widths ls + 2 <= width xs.
Proof. intros (ys & Hl & ->). unfold in_round. rewrite width_between. apply width_listed in Hl. lia. Qed.
Lemma entries_width es xs : entries_toks es xs -> fold_right (fun e n => width (fst e) + width (snd e) + n) 0 es + 2 <= width xs.
Proof.
  intros (ys & Hl & ->). unfold in_curly. rewrite width_between. apply width_listed in Hl.
  assert (fold_right (fun e n => width (fst e) + width (snd e) + n) 0 es <= widths (map (fun e => fst e ++ xcolon :: snd e) es)); [|lia].
  clear. induction es as [|[a b] es IH]; [cbn; lia|]. cbn [fold_right map widths fst snd]. rewrite width_app. cbn [width wide xcolon]. lia.
Qed.
Lemma seq_cells k ws : cells (VSeq (seq_of k ws [])) <= 1 + tot cells ws.
Proof. cbn [cells]. fold (tot cells (seq_of k ws [])). pose proof (tot_seq_of cells k ws []) as H. change (tot cells []) with 0 in H. lia. Qed.
Lemma map_cells k ws : cells (VMap (map_of k ws [])) <= 1 + tot2 cells ws.
Proof. cbn [cells]. fold (tot2 cells (map_of k ws [])). pose proof (tot2_map_of cells k ws []) as H. change (tot2 cells []) with 0 in H. lia. Qed.
Lemma vseq_cells ws : cells (VSeq ws) = 1 + tot cells ws.
Proof. reflexivity. Qed.
Lemma venum_cells i ws : cells (VEnum i ws) = 1 + tot cells ws.
Proof. reflexivity. Qed.
Lemma entries_sum (P : list lexeme * list lexeme -> val * val -> Prop) E es ws :
  (forall e w, P e w -> cells (fst w) <= E * width (fst e) /\ cells (snd w) <= E * width (snd e)) -> Forall2 P es ws ->
  tot2 cells ws <= E * fold_right (fun e n => width (fst e) + width (snd e) + n) 0 es.
Proof. intros HP. induction 1 as [|[a b] [x y] es ws H Hs IH]; [cbn; lia|]. rewrite tot2_cons. cbn [fold_right fst snd]. destruct (HP _ _ H) as [H1 H2]. cbn [fst snd] in *. lia. Qed.

(** ** JSON *)
Section Json.
  Variables (F : flt) (c : cfg) (G : env) (D : N).
  Hypothesis HG : Forall distinct_names G.
  Hypothesis HP : env_all no_proxy G.
  Hypothesis HD : Forall no_proxy_decl G.
  Hypothesis HT : Forall no_transparent G.
  Hypothesis HS : Forall (spare_at_most D) G.
  Notation E := (D + 1).
  Theorem json_cells n : forall nx t xs v, ty_all no_proxy t -> takes F c G n nx t xs v -> cells v <= E * width xs.
  Proof.
    induction n as [|n IH]; intros nx t xs v Ht H; [contradiction|]. assert (HE : 1 <= E) by lia.
    assert (One : forall w, cells w <= 1 -> 1 <= width xs -> cells w <= E * width xs) by (intros; nia).
    cbn [takes] in H. destruct t as [k| | | | | |t'|k t'|k tk tv|m t'|ts|t'| | |p t'|i]; cbn [ty_all] in Ht.
    - destruct H as (s & z & -> & -> & _). apply One; cbn; lia.
    - destruct H as (s & z & -> & -> & _). apply One; cbn; lia.
    - destruct H as (s & z & -> & -> & _). apply One; cbn; lia.
    - destruct H as [[-> ->]|[-> ->]]; apply One; cbn; lia.
    - destruct H as (b & s & -> & ->). cbn [cells width wide]. nia.
    - destruct H as [-> ->]. apply One; cbn; lia.
    - destruct H as [[-> ->]|[_ (w & -> & H)]]; [apply One; cbn; lia|]. cbn [cells]. apply (IH nx t' xs w); [apply Ht | exact H].
    - destruct H as (ls & ws & Ha & Hf & ->). apply array_width in Ha. pose proof (seq_cells k ws).
      pose proof (f2_sum (takes F c G n None t') width E ls ws (fun x v Hx => IH None t' x v (proj2 Ht) Hx) Hf) as Hsum. rewrite <- widths_fold in Hsum. nia.
    - destruct H as (es & ws & Ha & Hf & ->). apply entries_width in Ha. pose proof (map_cells k ws).
      pose proof (entries_sum _ E es ws (fun e w He => conj (IH None tk (fst e) (fst w) (proj1 (proj2 Ht)) (proj1 He)) (IH None tv (snd e) (snd w) (proj2 (proj2 Ht)) (proj2 He))) Hf) as Hsum. nia.
    - destruct H as (ls & ws & Ha & _ & Hf & ->). apply array_width in Ha. rewrite vseq_cells.
      pose proof (f2_sum (takes F c G n None t') width E ls ws (fun x v Hx => IH None t' x v (proj2 Ht) Hx) Hf) as Hsum. rewrite <- widths_fold in Hsum. nia.
    - destruct H as (_ & ls & ws & Ha & Hf & ->). apply array_width in Ha. rewrite vseq_cells. destruct Ht as [_ Ht]. apply ty_all_list in Ht. rewrite Forall_forall in Ht.
      pose proof (tuple_sum _ E ts ls ws (fun t x v Hin Hx => IH None t x v (Ht t Hin) Hx) Hf) as Hsum. nia.
    - apply (IH nx t' xs v); [apply Ht | exact H].
    - destruct H as (s & ns & (ms & a & b & Ho & _) & ->). apply object_width in Ho. apply One; [cbn; lia | lia].
    - destruct H as [[-> ->]|(s & ns & (ms & a & b & Ho & _) & _ & ->)]; [apply One; cbn; lia|]. apply object_width in Ho. apply One; [cbn; lia | lia].
    - destruct Ht as [[] _].
    - destruct (nth_error G i) as [d|] eqn:Ei; [|contradiction]. pose proof (env_all_nth _ _ _ _ HP Ei) as Hd. apply nth_error_In in Ei.
      rewrite Forall_forall in HG, HD, HT, HS. specialize (HG _ Ei). specialize (HD _ Ei). specialize (HT _ Ei). specialize (HS _ Ei).
      destruct d as [dflt nul fs|tr fs|vs|p t']; cbn [decl_all] in Hd.
      + destruct H as (ms & ws & Ho & -> & Hf & _). apply object_width in Ho. rewrite vseq_cells. cbn [distinct_names spare_at_most] in *. rewrite Forall_forall in Hd.
        pose proof (fields_means_sum _ E dflt fs ms ws HE (fun f x v Hin Hx => IH None (f_ty f) x v (Hd f Hin) Hx) HG Hf) as Hsum. nia.
      + cbn [no_transparent] in HT. subst tr. destruct H as [_ H]. rewrite Forall_forall in Hd.
        destruct fs as [|f fs]; [destruct H as [-> ->]; unfold in_curly, between; apply One; cbn; lia|]. destruct fs as [|f2 fs].
        * destruct H as (l & w & -> & H & ->). unfold in_square. rewrite width_between, vseq_cells, tot_cons. pose proof (IH None (f_ty f) l w (Hd f (or_introl eq_refl)) H). change (tot cells []) with 0. nia.
        * destruct H as (ls & ws & Ha & Hf & ->). apply array_width in Ha. rewrite vseq_cells.
          assert (Hsum : tot cells ws <= E * widths ls).
          { apply (tuple_sum _ E _ ls ws) with (2 := Hf). intros t x v Hin Hx. apply in_map_iff in Hin as (f0 & <- & Hin). exact (IH None (f_ty f0) x v (Hd f0 Hin) Hx). }
          nia.
      + destruct H as (tag & vr & Ev & H). apply nth_error_In in Ev. cbn [distinct_names spare_at_most] in *. destruct HG as [_ HGv]. rewrite Forall_forall in Hd, HGv, HS.
        specialize (Hd _ Ev). specialize (HGv _ Ev). specialize (HS _ Ev). destruct (v_body vr) as [|ts|fs].
        * destruct H as (b & s & -> & -> & _). apply One; cbn [width wide cells fold_right]; lia.
        * destruct H as (b & ls & ws & ys & -> & Ha & Hf & ->). apply array_width in Ha. rewrite venum_cells. unfold in_curly. rewrite width_between. cbn [width wide xcolon].
          rewrite Forall_forall in Hd. pose proof (tuple_sum _ E ts ls ws (fun t x v Hin Hx => IH None t x v (Hd t Hin) Hx) Hf) as Hsum. nia.
        * destruct H as (b & ms & ws & ys & -> & Ho & Hf & _ & ->). apply object_width in Ho. rewrite venum_cells. unfold in_curly. rewrite width_between. cbn [width wide xcolon].
          rewrite Forall_forall in Hd. pose proof (fields_means_sum _ E false fs ms ws HE (fun f x v Hin Hx => IH None (f_ty f) x v (Hd f Hin) Hx) HGv Hf) as Hsum. nia.
      + destruct HD.
  Qed.
End Json.

(** ** RON *)
Section Ron.
  Variables (F : flt) (c : cfg) (G : env) (D : N).
  Hypothesis HG : Forall SpecRon.distinct_ron G.
  Hypothesis HS : Forall (spare_at_most D) G.
  Notation E := (D + 1).
  Theorem ron_cells n : forall nx t xs v, rtakes F c G n nx t xs v -> cells v <= E * width xs.
  Proof.
    induction n as [|n IH]; intros nx t xs v H; [contradiction|]. assert (HE : 1 <= E) by lia.
    assert (One : forall w, cells w <= 1 -> 1 <= width xs -> cells w <= E * width xs) by (intros; nia).
    cbn [rtakes] in H. destruct t as [k| | | | | |t'|k t'|k tk tv|m t'|ts|t'| | |p t'|i].
    - destruct H as (s & z & -> & -> & _). apply One; cbn; lia.
    - destruct H as (s & z & -> & -> & _). apply One; cbn; lia.
    - destruct H as (s & z & -> & -> & _). apply One; cbn; lia.
    - destruct H as [[-> ->]|[[-> ->]|(s & z & -> & _ & ->)]]; apply One; cbn; lia.
    - destruct H as (b & s & -> & ->). cbn [cells width wide]. nia.
    - destruct H as [-> ->]. unfold in_round, between. apply One; cbn; lia.
    - destruct H as [[-> ->]|[_ (w & -> & H)]]; [apply One; cbn; lia|]. cbn [cells]. apply (IH nx t' xs w). exact H.
    - destruct H as (ls & ws & Ha & Hf & ->). apply array_width in Ha. pose proof (seq_cells k ws).
      pose proof (f2_sum (rtakes F c G n None t') width E ls ws (fun x v Hx => IH None t' x v Hx) Hf) as Hsum. rewrite <- widths_fold in Hsum. nia.
    - destruct H as (es & ws & Ha & Hf & ->). apply entries_width in Ha. pose proof (map_cells k ws).
      pose proof (entries_sum _ E es ws (fun e w He => conj (IH None tk (fst e) (fst w) (proj1 He)) (IH None tv (snd e) (snd w) (proj2 He))) Hf) as Hsum. nia.
    - destruct H as (ls & ws & Ha & _ & Hf & ->). apply round_width in Ha. rewrite vseq_cells.
      pose proof (f2_sum (rtakes F c G n None t') width E ls ws (fun x v Hx => IH None t' x v Hx) Hf) as Hsum. rewrite <- widths_fold in Hsum. nia.
    - destruct H as (_ & ls & ws & Ha & Hf & ->). apply round_width in Ha. rewrite vseq_cells.
      pose proof (tuple_sum _ E ts ls ws (fun t x v Hin Hx => IH None t x v Hx) Hf) as Hsum. nia.
    - apply (IH nx t' xs v). exact H.
    - destruct H as (s & ns & (ms & a & b & Ho & _) & ->). apply object_width in Ho. apply One; [cbn; lia | lia].
    - destruct H as [[-> ->]|(s & ns & (ms & a & b & Ho & _) & _ & ->)]; [apply One; cbn; lia|]. apply object_width in Ho. apply One; [cbn; lia | lia].
    - contradiction.
    - destruct (nth_error G i) as [d|] eqn:Ei; [|contradiction]. apply nth_error_In in Ei.
      rewrite Forall_forall in HG, HS. specialize (HG _ Ei). specialize (HS _ Ei).
      destruct d as [dflt nul fs|tr fs|vs|p t'].
      + destruct H as (ms & ws & Ho & -> & Hf & _). apply robject_width in Ho. rewrite vseq_cells. cbn [SpecRon.distinct_ron spare_at_most] in *.
        pose proof (fields_means_sum _ E dflt fs ms ws HE (fun f x v Hin Hx => IH None (f_ty f) x v Hx) HG Hf) as Hsum. nia.
      + destruct H as (_ & _ & ls & ws & Ha & Hf & ->). apply round_width in Ha. rewrite vseq_cells.
        pose proof (tuple_sum _ E _ ls ws (fun t x v Hin Hx => IH None t x v Hx) Hf) as Hsum. nia.
      + destruct H as (tag & vr & Ev & H). apply nth_error_In in Ev. cbn [SpecRon.distinct_ron spare_at_most] in *. destruct HG as [_ HGv]. rewrite Forall_forall in HGv, HS.
        specialize (HGv _ Ev). specialize (HS _ Ev). destruct (v_body vr) as [|ts|fs].
        * destruct H as (w & _ & -> & -> & _). apply One; cbn; lia.
        * destruct H as (ls & ws & ys & _ & -> & Ha & Hf & ->). apply round_width in Ha. rewrite venum_cells. cbn [width wide].
          pose proof (tuple_sum _ E ts ls ws (fun t x v Hin Hx => IH None t x v Hx) Hf) as Hsum. nia.
        * destruct H as (ms & ws & ys & _ & -> & Ho & Hf & _ & ->). apply robject_width in Ho. rewrite venum_cells. cbn [width wide].
          pose proof (fields_means_sum _ E false fs ms ws HE (fun f x v Hin Hx => IH None (f_ty f) x v Hx) HGv Hf) as Hsum. nia.
      + contradiction.
  Qed.
End Ron.
