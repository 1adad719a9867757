(** Proofs for C69 and C70, part 3: what the serializers do. *)
From Verif Require Import Base Types Text BinModel DeriveModel SpecDerive DeriveProofs PropsDerive GenModel SpecGen Gen TextModel SpecGenText GenText.
Local Open Scope N_scope.

Lemma rbind_assoc {E A B C} (m : res E A) (f : A -> res E B) (g : B -> res E C) : rbind (rbind m f) g = rbind m (fun x => rbind (f x) g).
Proof. destruct m; reflexivity. Qed.
Lemma rmap_bind {E A B} (f : A -> B) (m : res E A) : rmap f m = rbind m (fun x => Ok (f x)).
Proof. destruct m; reflexivity. Qed.
Lemma quoted_label x : quoted x = label Json x.
Proof. reflexivity. Qed.

Section SerSem.
  Variable W : world.
  Variable conv : ty -> str -> proxy.
  Notation typ := (fun t => w_ty W t None).
  Variable R : forall A, res Empty_set A -> res Empty_set A -> Prop.
  Hypothesis R_refl : forall A x, R A x x.
  Hypothesis R_bind : forall A B x y f g, R A x y -> (forall o, R B (f o) (g o)) -> R B (rbind x f) (rbind y g).
  Variables a b : ty -> val -> wres.
  Hypothesis Hab : forall t v, R _ (a t v) (b t v).
  Hypothesis Hpx : forall p t v, R _ (a (TProxy p t) v) (b t (p_to p v)).
  Hypothesis Hopt : forall t w, R _ (a t w) (b (TOpt t) (VSome w)).
  Hypothesis Hopx : forall p t w, R _ (a (TProxy p t) w) (b (TOpt t) (VSome (p_to p w))).
  Hypothesis Hnull : R _ (Ok (chars "null")) (b (TOpt (TInt I32)) VNone).

  Definition field_here (self_ : tvars) (nm : str) (f : sfield) (v : val) : Prop := assoc nm self_ = Some (w_ty W (ty_text (sf_type f)) None, v).

  (** The pieces, each but the first after a comma. *)
  Fixpoint pieces (k : bool) (ps : list str) : str :=
    match ps with [] => [] | p :: r => (if k then comma else []) ++ p ++ pieces true r end.
  Lemma pieces_join ps : pieces false ps = join comma ps.
  Proof.
    destruct ps as [|p ps]; [reflexivity|]. cbn [pieces app]. revert p. induction ps as [|q ps IH]; intros p; [apply app_nil_r|].
    change (join comma (p :: q :: ps)) with (p ++ comma ++ join comma (q :: ps)). cbn [pieces]. rewrite IH. reflexivity.
  Qed.

  Notation RJS := (run_jsts Json typ conv b).
  Notation RJB := (run_bases Json typ conv b).
  Lemma run_jsts_app fm s x l1 l2 : forall st, run_jsts fm typ conv b s x (l1 ++ l2) st = rbind (run_jsts fm typ conv b s x l1 st) (run_jsts fm typ conv b s x l2).
  Proof.
    induction l1 as [|j l1 IH]; intros st; [reflexivity|]. cbn [app run_jsts]. rewrite rbind_assoc.
    destruct (run_jst fm typ conv b s x j st); [apply IH|reflexivity|reflexivity|reflexivity].
  Qed.
  Lemma run_bases_jb fm s x l : forall st, run_jsts fm typ conv b s x (map JB l) st = run_bases fm typ conv b s x l st.
  Proof.
    induction l as [|j l IH]; intros st; [reflexivity|]. cbn [map run_jsts run_jst run_bases].
    destruct (run_base fm typ conv b s x j st); [apply IH|reflexivity|reflexivity|reflexivity].
  Qed.
  Lemma run_bases_app fm s x l1 l2 : forall st, run_bases fm typ conv b s x (l1 ++ l2) st = rbind (run_bases fm typ conv b s x l1 st) (run_bases fm typ conv b s x l2).
  Proof.
    induction l1 as [|j l1 IH]; intros st; [reflexivity|]. cbn [app run_bases]. rewrite rbind_assoc.
    destruct (run_base fm typ conv b s x j st); [apply IH|reflexivity|reflexivity|reflexivity].
  Qed.
  Lemma run_hdr s x k1 k2 sp key k out : plain_lit key = true ->
    RJB s x (json_hdr k1 k2 sp key) (Some k, out) = Ok (Some true, out ++ (if k then comma else []) ++ field_hdr Json key).
  Proof.
    intros H. unfold json_hdr. destruct k; cbn [run_bases run_base rbind fst snd]; unfold say, say_lit; cbn [rbind fst snd]; rewrite H;
      unfold say; cbn [fst snd app rbind]; unfold quoted, field_hdr; cbn [app]; rewrite <- ?app_assoc; reflexivity.
  Qed.

  Lemma tlook_self s loc x tv : assoc x s = Some tv -> tlook s loc (PSelf x) = Ok tv.
  Proof. unfold tlook. intros ->. reflexivity. Qed.
  Lemma tlook_var s loc x tv : assoc x loc = Some tv -> tlook s loc (PVar x) = Ok tv.
  Proof. unfold tlook. intros ->. reflexivity. Qed.
  Lemma tlook_here s loc x tv : tlook s ((x, tv) :: loc) (PVar x) = Ok tv.
  Proof. apply tlook_var, assoc_here. Qed.

  Definition piece (k : bool) (out : str) (o : option str) : jstate :=
    match o with Some x => (Some true, out ++ (if k then comma else []) ++ x) | None => (Some k, out) end.
  Lemma R_eq A x y y' : R A x y -> y = y' -> R A x y'.
  Proof. intros H <-. exact H. Qed.

  Lemma R_eq' A x x' y : R A x y -> x = x' -> R A x' y.
  Proof. intros H <-. exact H. Qed.

  Lemma run_json_field cnull s f v k out : field_known W conv f -> name_plain (sf_name f) (sf_attrs f) -> skipped f = false ->
    field_here s (sf_name f) f v ->
    forall C (M : option str -> res Empty_set C) K, (forall o, R _ (M o) (K (piece k out o))) ->
    R _ (rbind (ser_field Json a (null_on_none Json cnull (source_field W true f)) (field_key (source_field W true f)) (source_field W true f) v) M)
      (rbind (RJS s [] (json_field cnull f) (Some k, out)) K).
  Proof.
    intros (_ & t' & Ht & Hc) (Hn & Hr) Hs Hv C M K HM. unfold json_field. rewrite Hs.
    assert (Hk : plain_lit (key_name f) = true) by (unfold key_name; destruct (value_in (chars "rename") (items (sf_attrs f))); assumption).
    change (field_key (source_field W true f)) with (key_name f). unfold ser_field. change (f_isopt (source_field W true f)) with (opt f).
    change (null_on_none Json cnull (source_field W true f)) with (json_null cnull f).
    assert (Et : f_ty (source_field W true f) = w_ty W (ty_text (sf_type f)) (px f)) by reflexivity.
    unfold field_here in Hv. unfold opt in *. destruct (is_option (sf_type f)) eqn:Eo.
    - rewrite Ht in Hv. destruct (json_null cnull f) eqn:En.
      + assert (Hp : px f = None) by (unfold json_null in En; apply andb_prop in En as [_ En]; destruct (px f); [discriminate|reflexivity]).
        unfold guard. rewrite Hp in *. rewrite run_jsts_app, run_bases_jb, run_hdr by exact Hk. cbn [rbind run_jsts run_jst run_base run_jexp]. rewrite (tlook_self _ _ _ _ Hv).
        cbn [rbind]. destruct v as [| | | | | |w| | | | |]; cbn [rbind]; try apply R_refl.
        * cbn [run_bases run_base rbind run_jexp]. eapply R_eq.
          -- apply (R_bind _ _ (Ok (chars "null")) _ (fun x => M (Some (field_hdr Json (key_name f) ++ x))) _ Hnull (fun x => HM _)).
          -- rewrite !rbind_assoc. destruct (b (TOpt (TInt I32)) VNone) as [x| | |]; try reflexivity. cbn [rbind say piece fst snd]. rewrite <- !app_assoc. reflexivity.
        * unfold ser_some. rewrite Et, Ht, rmap_bind, rbind_assoc. cbn [run_bases run_base rbind run_jexp tvar]. rewrite tlook_here. cbn [rbind fst snd].
          eapply R_eq; [apply R_bind; [apply Hab|intros x; apply (HM (Some _))]|].
          rewrite ?rbind_assoc. destruct (b t' w) as [x| | |]; try reflexivity. cbn [rbind say piece fst snd]. rewrite <- !app_assoc. reflexivity.
      + cbn [run_jsts run_jst run_base rbind].
        assert (Hg : run_jexp typ conv s [] (guard (PSelf (sf_name f)) f) =
          match v with VSome w => Ok (TOpt (match px f with Some q => w_ty W q None | None => t' end), VSome (match px f with Some q => p_to (conv t' q) w | None => w end))
                  | VNone => Ok (TOpt (match px f with Some q => w_ty W q None | None => t' end), VNone)
                  | _ => match px f with Some _ => Panic PIllTyped | None => Ok (TOpt t', v) end end).
        { unfold guard, opt. rewrite Eo. destruct (px f); cbn [run_jexp]; rewrite (tlook_self _ _ _ _ Hv); cbn [rbind]; destruct v; reflexivity. }
        rewrite Hg. destruct v as [| | | | | |w| | | | |]; try (destruct (px f); apply R_refl); [apply (HM None)|].
        cbn [rbind]. rewrite run_bases_app. cbn [run_bases run_base rbind]. rewrite run_bases_app, run_hdr by exact Hk.
        cbn [rbind run_bases run_base run_jexp tvar]. rewrite tlook_here. cbn [rbind fst snd]. unfold ser_some. rewrite Et.
        rewrite ?rbind_assoc. destruct (px f) as [q|].
        * rewrite Hc, rmap_bind, rbind_assoc. eapply R_eq; [apply R_bind; [apply Hpx|intros x; apply (HM (Some _))]|].
          destruct (b (w_ty W q None) _) as [x| | |]; try reflexivity. cbn [rbind say piece fst snd]. rewrite <- !app_assoc. reflexivity.
        * rewrite Ht, rmap_bind, rbind_assoc. eapply R_eq; [apply R_bind; [apply Hab|intros x; apply (HM (Some _))]|].
          destruct (b t' w) as [x| | |]; try reflexivity. cbn [rbind say piece fst snd]. rewrite <- !app_assoc. reflexivity.
    - rewrite run_bases_jb, run_bases_app, run_hdr by exact Hk. cbn [rbind run_bases run_base]. rewrite Et, rmap_bind, rbind_assoc.
      rewrite ?rbind_assoc. unfold guard, opt. rewrite Eo. destruct (px f) as [q|]; cbn [run_jexp]; rewrite (tlook_self _ _ _ _ Hv); cbn [rmap rbind fst snd].
      + rewrite Hc, Ht. eapply R_eq; [apply R_bind; [apply Hpx|intros x; apply (HM (Some _))]|].
        destruct (b (w_ty W q None) _) as [x| | |]; try reflexivity. cbn [rbind say piece fst snd]. rewrite <- !app_assoc. reflexivity.
      + eapply R_eq; [apply R_bind; [apply Hab|intros x; apply (HM (Some _))]|].
        destruct (b (w_ty W (ty_text (sf_type f)) None) v) as [x| | |]; try reflexivity. cbn [rbind say piece fst snd]. rewrite <- !app_assoc. reflexivity.
  Qed.

  Definition fin (k : bool) (out : str) (ps : list str) : jstate := (Some (k || nonempty ps), out ++ pieces k ps).
  Lemma run_json_fields cnull s fs : Forall (field_known W conv) fs -> Forall (fun f => name_plain (sf_name f) (sf_attrs f)) fs ->
    forall l k out, Forall2 (fun f v => field_here s (sf_name f) f v) fs l ->
    R _ (rbind (ser_named Json a cnull (map (source_field W true) fs) l) (fun ps => Ok (fin k out ps)))
      (RJS s [] (concat (map (json_field cnull) fs)) (Some k, out)).
  Proof.
    intros H1. induction H1 as [|f fs Hf _ IH]; intros H2 l k out H; inversion H as [|? v ? l' Hv Hl]; subst.
    - cbn [map concat ser_named rbind run_jsts]. unfold fin. cbn [nonempty pieces]. rewrite Bool.orb_false_r, app_nil_r. apply R_refl.
    - inversion H2 as [|? ? Hn Hns]; subst. cbn [map concat ser_named]. change (f_skip (source_field W true f)) with (skipped f).
      rewrite run_jsts_app. destruct (skipped f) eqn:Es.
      + unfold json_field at 1. rewrite Es. cbn [run_jsts rbind]. apply IH; assumption.
      + rewrite rbind_assoc. apply run_json_field; try assumption. intros o. rewrite rbind_assoc.
        destruct o as [x|]; cbn [piece].
        * eapply R_eq'; [apply (IH Hns l' true _ Hl)|]. destruct (ser_named _ _ _ _ _) as [ps| | |]; try reflexivity. cbn [rbind]. unfold fin. cbn [nonempty pieces orb]. rewrite Bool.orb_true_r, <- !app_assoc. reflexivity.
        * apply (IH Hns l' k _ Hl).
  Qed.

  (** Fields of struct-like variants, and items by position. *)
  Definition vpiece (fl : option bool) (out tail : str) (o : option str) : jstate :=
    match o with Some x => (fl, out ++ x ++ tail) | None => (fl, out) end.
  Definition tail_of (last : bool) : str := if last then [] else comma.
  Lemma run_json_vfield last loc f v fl out : field_known W conv f -> name_plain (sf_name f) (sf_attrs f) ->
    (is_option (sf_type f) = false -> no_proxy f) -> field_here loc (sf_name f) f v ->
    forall C (M : option str -> res Empty_set C) K, (forall o, R _ (M o) (K (vpiece fl out (tail_of last) o))) ->
    R _ (rbind (ser_field Json a false (f_name (source_field W true f)) (source_field W true f) v) M)
      (rbind (RJS [] loc (json_vfield last f) (fl, out)) K).
  Proof.
    intros (_ & t' & Ht & Hc) (Hn & _) Hp Hv C M K HM. unfold json_vfield, field_here in *.
    change (f_name (source_field W true f)) with (sf_name f). unfold ser_field. change (f_isopt (source_field W true f)) with (opt f).
    assert (Et : f_ty (source_field W true f) = w_ty W (ty_text (sf_type f)) (px f)) by reflexivity.
    unfold opt in *. destruct (is_option (sf_type f)) eqn:Eo.
    - rewrite Ht in Hv. cbn [run_jsts run_jst]. rewrite (tlook_var _ _ _ _ Hv). cbn [rbind].
      destruct v as [| | | | | |w| | | | |]; try apply R_refl; [apply (HM None)|].
      rewrite ?rbind_assoc. cbn [app run_bases run_base]. unfold say_lit. rewrite Hn. unfold say at 1. cbn [rbind fst snd].
      assert (Hg : run_jexp typ conv [] loc (guard (PVar (sf_name f)) f) =
          Ok (TOpt (match px f with Some q => w_ty W q None | None => t' end), VSome (match px f with Some q => p_to (conv t' q) w | None => w end))).
      { unfold guard, opt. rewrite Eo. destruct (px f); cbn [run_jexp]; rewrite (tlook_var _ _ _ _ Hv); reflexivity. }
      rewrite Hg. cbn [rbind fst snd]. unfold ser_some. rewrite Et, rmap_bind, ?rbind_assoc. destruct (px f) as [q|].
      + rewrite Hc, ?rbind_assoc. eapply R_eq; [apply R_bind; [apply Hopx|intros x; apply (HM (Some _))]|].
        destruct (b (TOpt (w_ty W q None)) _) as [x| | |]; try reflexivity. destruct last; cbn [run_bases run_base rbind say vpiece tail_of fst snd app];
          unfold quoted, field_hdr; rewrite ?app_nil_r, <- ?app_assoc; cbn [app]; rewrite <- ?app_assoc; reflexivity.
      + rewrite Ht, ?rbind_assoc. eapply R_eq; [apply R_bind; [apply Hopt|intros x; apply (HM (Some _))]|].
        destruct (b (TOpt t') (VSome w)) as [x| | |]; try reflexivity. destruct last; cbn [run_bases run_base rbind say vpiece tail_of fst snd app];
          unfold quoted, field_hdr; rewrite ?app_nil_r, <- ?app_assoc; cbn [app]; rewrite <- ?app_assoc; reflexivity.
    - assert (Hp' : px f = None) by (apply (Hp eq_refl)). rewrite run_bases_jb. cbn [app run_bases run_base]. unfold say_lit. rewrite Hn. unfold say at 1. cbn [rbind fst snd].
      unfold guard. rewrite Hp' in *. cbn [run_jexp]. rewrite (tlook_var _ _ _ _ Hv). cbn [rbind fst snd]. rewrite Et, rmap_bind, ?rbind_assoc.
      eapply R_eq; [apply R_bind; [apply Hab|intros x; apply (HM (Some _))]|].
      destruct (b (w_ty W (ty_text (sf_type f)) None) v) as [x| | |]; try reflexivity. destruct last; cbn [run_bases run_base rbind say vpiece tail_of fst snd app];
          unfold quoted, field_hdr; rewrite ?app_nil_r, <- ?app_assoc; cbn [app]; rewrite <- ?app_assoc; reflexivity.
  Qed.
  Lemma run_json_vfields loc fs : Forall (field_known W conv) fs -> Forall (fun f => name_plain (sf_name f) (sf_attrs f)) fs ->
    Forall (fun f => is_option (sf_type f) = false -> no_proxy f) fs ->
    forall l fl out, Forall2 (fun f v => field_here loc (sf_name f) f v) fs l ->
    R _ (rbind (ser_variant_fields Json a (map (source_field W true) fs) l) (fun r => Ok (fl, out ++ r)))
      (RJS [] loc (json_vfields fs) (fl, out)).
  Proof.
    intros H1. induction H1 as [|f fs Hf _ IH]; intros H2 H3 l fl out H; inversion H as [|? v ? l' Hv Hl]; subst.
    - cbn [map ser_variant_fields json_vfields rbind run_jsts]. rewrite app_nil_r. apply R_refl.
    - inversion H2 as [|? ? Hn Hns]; subst. inversion H3 as [|? ? Hq Hqs]; subst. cbn [map ser_variant_fields json_vfields].
      rewrite run_jsts_app, rbind_assoc. apply run_json_vfield; try assumption. intros o. rewrite rbind_assoc.
      destruct o as [x|]; cbn [vpiece].
      + eapply R_eq'; [apply (IH Hns Hqs l' fl _ Hl)|]. destruct (ser_variant_fields _ _ _ _) as [ps| | |]; try reflexivity.
        destruct fs; cbn [rbind map nonempty negb tail_of]; rewrite <- ?app_assoc; reflexivity.
      + apply (IH Hns Hqs l' fl _ Hl).
  Qed.

  Lemma join_cons p ps : join comma (p :: ps) = p ++ (if nonempty ps then comma else []) ++ join comma ps.
  Proof. destruct ps; [cbn; rewrite app_nil_r; reflexivity|reflexivity]. Qed.
  Definition here (loc : tvars) (x : str) (t : str) (v : val) : Prop := assoc x loc = Some (w_ty W t None, v).
  Lemma ser_tys_len ts : forall l ps, ser_tys a ts l = Ok ps -> length ps = length ts.
  Proof.
    induction ts as [|t ts IH]; intros [|v l] ps H; try discriminate; [injection H as <-; reflexivity|].
    cbn [ser_tys] in H. destruct (a t v) as [x| | |]; try discriminate. cbn [rbind] in H. destruct (ser_tys a ts l) as [r| | |] eqn:E; try discriminate.
    injection H as <-. cbn [length]. f_equal. apply (IH _ _ E).
  Qed.
  Lemma same_nonempty {A B} (x : list A) (y : list B) : length x = length y -> nonempty x = nonempty y.
  Proof. destruct x, y; try discriminate; reflexivity. Qed.
  Lemma run_json_vitems ts : forall loc l n fl out, Forall2 (fun nt v => here loc (fst nt) (snd nt) v) (combine (fvars n ts) ts) l ->
    R _ (rbind (ser_tys a (map (fun t => w_ty W t None) ts) l) (fun ps => Ok (fl, out ++ join comma ps)))
      (RJS [] loc (json_vitems n ts) (fl, out)).
  Proof.
    induction ts as [|t ts IH]; intros loc l n fl out H; cbn [fvars combine] in H; inversion H as [|? v ? l' Hv Hl]; subst.
    - cbn [map ser_tys rbind json_vitems run_jsts join]. rewrite app_nil_r. apply R_refl.
    - cbn [map ser_tys json_vitems]. unfold here in Hv. cbn [fst snd] in Hv. cbn [run_jsts run_jst run_base run_jexp]. rewrite (tlook_var _ _ _ _ Hv). cbn [rbind fst snd].
      rewrite !rbind_assoc. apply R_bind; [apply Hab|]. intros x. cbn [say rbind fst snd]. rewrite rmap_bind, rbind_assoc, run_jsts_app.
      eapply R_eq; [eapply R_eq'; [apply (IH loc l' (n + 1) fl ((out ++ x) ++ (if nonempty ts then comma else [])) Hl)|]|].
      + destruct (ser_tys a _ l') as [ps| | |] eqn:E; try reflexivity. cbn [rbind]. rewrite join_cons.
        apply ser_tys_len in E. rewrite map_length in E. rewrite (same_nonempty _ _ E). rewrite <- !app_assoc. reflexivity.
      + destruct (nonempty ts); cbn [run_jsts run_jst run_base rbind say fst snd]; rewrite ?app_nil_r; reflexivity.
  Qed.

  (** Tuple structs. *)
  Lemma run_json_items fs : Forall no_proxy fs -> forall s l n fl out, Forall2 (fun nf v => field_here s (fst nf) (snd nf) v) (numbered_fields n fs) l ->
    R _ (rbind (ser_unnamed Json a (map (source_field W false) fs) l) (fun r => Ok (fl, out ++ r)))
      (RJS s [] (json_items n fs) (fl, out)).
  Proof.
    induction 1 as [|f fs Hf _ IH]; intros s l n fl out H; cbn [numbered_fields] in H; inversion H as [|? v ? l' Hv Hl]; subst.
    - cbn [map ser_unnamed rbind json_items run_jsts]. rewrite app_nil_r. apply R_refl.
    - cbn [map ser_unnamed json_items]. unfold field_here in Hv. cbn [fst snd] in Hv. cbn [run_jsts run_jst run_base run_jexp]. rewrite (tlook_self _ _ _ _ Hv). cbn [rbind fst snd].
      assert (Et : f_ty (source_field W false f) = w_ty W (ty_text (sf_type f)) None) by (cbn [source_field f_ty]; rewrite Hf; reflexivity).
      rewrite Et, !rbind_assoc. apply R_bind; [apply Hab|]. intros x. cbn [say rbind fst snd]. rewrite rbind_assoc, run_jsts_app.
      eapply R_eq; [eapply R_eq'; [apply (IH s l' (n + 1) fl ((out ++ x) ++ (if nonempty fs then chars ", " else [])) Hl)|]|].
      + destruct (ser_unnamed Json a _ l') as [r| | |]; try reflexivity. cbn [rbind]. destruct fs; cbn [nonempty map app]; rewrite ?app_nil_r, <- ?app_assoc; reflexivity.
      + destruct (nonempty fs); cbn [run_jsts run_jst run_base rbind]; unfold say_lit, say; cbn [rbind fst snd]; rewrite ?app_nil_r; reflexivity.
  Qed.

  (** ** RON *)
  Notation RRS := (run_jsts Ron typ conv b).
  Lemma run_ron_field s f v fl out : field_known W conv f -> name_plain (sf_name f) (sf_attrs f) -> no_proxy f -> skipped f = false ->
    field_here s (sf_name f) f v ->
    forall C (M : option str -> res Empty_set C) K, (forall o, R _ (M o) (K (vpiece fl out comma o))) ->
    R _ (rbind (ser_field Ron a false (field_key (source_field W true f)) (source_field W true f) v) M)
      (rbind (RRS s [] (ron_field f) (fl, out)) K).
  Proof.
    intros (_ & t' & Ht & _) (Hn & Hr) Hp Hs Hv C M K HM. unfold ron_field, field_here in *. rewrite Hs.
    assert (Hk : plain_lit (key_name f) = true) by (unfold key_name; destruct (value_in (chars "rename") (items (sf_attrs f))); assumption).
    change (field_key (source_field W true f)) with (key_name f). unfold ser_field. change (f_isopt (source_field W true f)) with (opt f).
    assert (Et : f_ty (source_field W true f) = w_ty W (ty_text (sf_type f)) None) by (cbn [source_field f_ty]; rewrite Hp; reflexivity).
    unfold opt in *. destruct (is_option (sf_type f)) eqn:Eo.
    - rewrite Ht in Hv. cbn [run_jsts run_jst run_jexp]. rewrite (tlook_self _ _ _ _ Hv). cbn [rbind].
      destruct v as [| | | | | |w| | | | |]; try apply R_refl; [apply (HM None)|].
      cbn [run_bases run_base rbind]. unfold say_lit. rewrite Hk. unfold say at 1. cbn [rbind fst snd run_jexp tvar]. rewrite tlook_here. cbn [rbind fst snd].
      unfold ser_some. rewrite Et, Ht, rmap_bind, ?rbind_assoc. eapply R_eq; [apply R_bind; [apply Hab|intros x; apply (HM (Some _))]|].
      destruct (b t' w) as [x| | |]; try reflexivity. cbn [rbind say vpiece fst snd field_hdr]. rewrite <- ?app_assoc. reflexivity.
    - rewrite run_bases_jb. cbn [run_bases run_base rbind]. unfold say_lit. rewrite Hk. unfold say at 1. cbn [rbind fst snd run_jexp]. rewrite (tlook_self _ _ _ _ Hv). cbn [rbind fst snd].
      rewrite Et, rmap_bind, ?rbind_assoc. eapply R_eq; [apply R_bind; [apply Hab|intros x; apply (HM (Some _))]|].
      destruct (b (w_ty W (ty_text (sf_type f)) None) v) as [x| | |]; try reflexivity. cbn [rbind say vpiece fst snd field_hdr]. rewrite <- ?app_assoc. reflexivity.
  Qed.
  Lemma run_ron_fields s fs : Forall (field_known W conv) fs -> Forall (fun f => name_plain (sf_name f) (sf_attrs f)) fs -> Forall no_proxy fs ->
    forall cnull l fl out, Forall2 (fun f v => field_here s (sf_name f) f v) fs l ->
    R _ (rbind (ser_named Ron a cnull (map (source_field W true) fs) l) (fun ps => Ok (fl, out ++ each comma ps)))
      (RRS s [] (concat (map ron_field fs)) (fl, out)).
  Proof.
    intros H1. induction H1 as [|f fs Hf _ IH]; intros H2 H3 cnull l fl out H; inversion H as [|? v ? l' Hv Hl]; subst.
    - cbn [map concat ser_named rbind run_jsts each flat_map]. rewrite app_nil_r. apply R_refl.
    - inversion H2 as [|? ? Hn Hns]; subst. inversion H3 as [|? ? Hq Hqs]; subst. cbn [map concat ser_named]. change (f_skip (source_field W true f)) with (skipped f).
      rewrite run_jsts_app. destruct (skipped f) eqn:Es.
      + unfold ron_field at 1. rewrite Es. cbn [run_jsts rbind]. apply IH; assumption.
      + rewrite rbind_assoc. change (null_on_none Ron cnull (source_field W true f)) with false. apply run_ron_field; try assumption. intros o. rewrite rbind_assoc.
        destruct o as [x|]; cbn [vpiece].
        * eapply R_eq'; [apply (IH Hns Hqs cnull l' fl _ Hl)|]. destruct (ser_named _ _ _ _ _) as [ps| | |]; try reflexivity. cbn [rbind each flat_map]. rewrite <- !app_assoc. reflexivity.
        * apply (IH Hns Hqs cnull l' fl _ Hl).
  Qed.
  Lemma run_ron_vfield loc f v fl out : field_known W conv f -> name_plain (sf_name f) (sf_attrs f) -> no_proxy f -> field_here loc (sf_name f) f v ->
    forall C (M : option str -> res Empty_set C) K, (forall o, R _ (M o) (K (vpiece fl out comma o))) ->
    R _ (rbind (ser_field Ron a false (f_name (source_field W true f)) (source_field W true f) v) M)
      (rbind (RRS [] loc (ron_vfield f) (fl, out)) K).
  Proof.
    intros (_ & t' & Ht & _) (Hn & _) Hp Hv C M K HM. unfold ron_vfield, field_here in *.
    change (f_name (source_field W true f)) with (sf_name f). unfold ser_field. change (f_isopt (source_field W true f)) with (opt f).
    assert (Et : f_ty (source_field W true f) = w_ty W (ty_text (sf_type f)) None) by (cbn [source_field f_ty]; rewrite Hp; reflexivity).
    unfold opt in *. destruct (is_option (sf_type f)) eqn:Eo.
    - rewrite Ht in Hv. cbn [run_jsts run_jst]. rewrite (tlook_var _ _ _ _ Hv). cbn [rbind].
      destruct v as [| | | | | |w| | | | |]; try apply R_refl; [apply (HM None)|].
      cbn [run_bases run_base rbind]. unfold say_lit. rewrite Hn. unfold say at 1. cbn [rbind fst snd run_jexp]. rewrite (tlook_var _ _ _ _ Hv). cbn [rbind fst snd].
      unfold ser_some. rewrite Et, Ht, rmap_bind, ?rbind_assoc. eapply R_eq; [apply R_bind; [apply Hopt|intros x; apply (HM (Some _))]|].
      destruct (b (TOpt t') (VSome w)) as [x| | |]; try reflexivity. cbn [rbind say vpiece fst snd field_hdr]. rewrite <- ?app_assoc. reflexivity.
    - rewrite run_bases_jb. cbn [run_bases run_base rbind]. unfold say_lit. rewrite Hn. unfold say at 1. cbn [rbind fst snd run_jexp]. rewrite (tlook_var _ _ _ _ Hv). cbn [rbind fst snd].
      rewrite Et, rmap_bind, ?rbind_assoc. eapply R_eq; [apply R_bind; [apply Hab|intros x; apply (HM (Some _))]|].
      destruct (b (w_ty W (ty_text (sf_type f)) None) v) as [x| | |]; try reflexivity. cbn [rbind say vpiece fst snd field_hdr]. rewrite <- ?app_assoc. reflexivity.
  Qed.
  Lemma run_ron_vfields loc fs : Forall (field_known W conv) fs -> Forall (fun f => name_plain (sf_name f) (sf_attrs f)) fs -> Forall no_proxy fs ->
    forall l fl out, Forall2 (fun f v => field_here loc (sf_name f) f v) fs l ->
    R _ (rbind (ser_variant_fields Ron a (map (source_field W true) fs) l) (fun r => Ok (fl, out ++ r)))
      (RRS [] loc (concat (map ron_vfield fs)) (fl, out)).
  Proof.
    intros H1. induction H1 as [|f fs Hf _ IH]; intros H2 H3 l fl out H; inversion H as [|? v ? l' Hv Hl]; subst.
    - cbn [map concat ser_variant_fields rbind run_jsts]. rewrite app_nil_r. apply R_refl.
    - inversion H2 as [|? ? Hn Hns]; subst. inversion H3 as [|? ? Hq Hqs]; subst. cbn [map concat ser_variant_fields].
      rewrite run_jsts_app, rbind_assoc. apply run_ron_vfield; try assumption. intros o. rewrite rbind_assoc.
      destruct o as [x|]; cbn [vpiece].
      + eapply R_eq'; [apply (IH Hns Hqs l' fl _ Hl)|]. destruct (ser_variant_fields _ _ _ _) as [ps| | |]; try reflexivity. cbn [rbind]. rewrite <- ?app_assoc. reflexivity.
      + apply (IH Hns Hqs l' fl _ Hl).
  Qed.
  Lemma run_ron_vitems ts : forall loc l n fl out, Forall2 (fun nt v => here loc (fst nt) (snd nt) v) (combine (fvars n ts) ts) l ->
    R _ (rbind (ser_tys a (map (fun t => w_ty W t None) ts) l) (fun ps => Ok (fl, out ++ join comma ps)))
      (RRS [] loc (ron_vitems n ts) (fl, out)).
  Proof.
    induction ts as [|t ts IH]; intros loc l n fl out H; cbn [fvars combine] in H; inversion H as [|? v ? l' Hv Hl]; subst.
    - cbn [map ser_tys rbind ron_vitems run_jsts join]. rewrite app_nil_r. apply R_refl.
    - cbn [map ser_tys ron_vitems]. unfold here in Hv. cbn [fst snd] in Hv. cbn [run_jsts run_jst run_base run_jexp]. rewrite (tlook_var _ _ _ _ Hv). cbn [rbind fst snd].
      rewrite !rbind_assoc. apply R_bind; [apply Hab|]. intros x. cbn [say rbind fst snd]. rewrite rmap_bind, rbind_assoc, run_jsts_app.
      eapply R_eq; [eapply R_eq'; [apply (IH loc l' (n + 1) fl ((out ++ x) ++ (if nonempty ts then comma else [])) Hl)|]|].
      + destruct (ser_tys a _ l') as [ps| | |] eqn:E; try reflexivity. cbn [rbind]. rewrite join_cons.
        apply ser_tys_len in E. rewrite map_length in E. rewrite (same_nonempty _ _ E). rewrite <- !app_assoc. reflexivity.
      + destruct (nonempty ts); cbn [run_jsts run_jst run_base rbind]; unfold say_lit, say; cbn [rbind fst snd]; rewrite ?app_nil_r; reflexivity.
  Qed.
  Lemma run_ron_items fs : Forall no_proxy fs -> forall s l n fl out, Forall2 (fun nf v => field_here s (fst nf) (snd nf) v) (numbered_fields n fs) l ->
    R _ (rbind (ser_unnamed Ron a (map (source_field W false) fs) l) (fun r => Ok (fl, out ++ r)))
      (RRS s [] (ron_items n fs) (fl, out)).
  Proof.
    induction 1 as [|f fs Hf _ IH]; intros s l n fl out H; cbn [numbered_fields] in H; inversion H as [|? v ? l' Hv Hl]; subst.
    - cbn [map ser_unnamed rbind ron_items run_jsts]. rewrite app_nil_r. apply R_refl.
    - cbn [map ser_unnamed ron_items]. change (f_skip (source_field W false f)) with (skipped f). rewrite run_jsts_app. destruct (skipped f); [apply IH; assumption|].
      unfold field_here in Hv. cbn [fst snd] in Hv. cbn [run_jsts run_jst run_base run_jexp]. rewrite (tlook_self _ _ _ _ Hv). cbn [rbind fst snd].
      assert (Et : f_ty (source_field W false f) = w_ty W (ty_text (sf_type f)) None) by (cbn [source_field f_ty]; rewrite Hf; reflexivity).
      rewrite Et, !rbind_assoc. apply R_bind; [apply Hab|]. intros x. cbn [say rbind fst snd]. rewrite rbind_assoc.
      eapply R_eq; [eapply R_eq'; [apply (IH s l' (n + 1) fl ((out ++ x) ++ (if nonempty fs then chars ", " else [])) Hl)|]|].
      + destruct (ser_unnamed Ron a _ l') as [r| | |]; try reflexivity. cbn [rbind]. destruct fs; cbn [nonempty map app]; rewrite ?app_nil_r, <- ?app_assoc; reflexivity.
      + destruct (nonempty fs); cbn [run_jsts run_jst run_base rbind]; unfold say_lit, say; cbn [rbind fst snd]; rewrite ?app_nil_r; reflexivity.
  Qed.
End SerSem.

Lemma typed_assoc (g : str -> ty) x : forall xs ts (l : list val),
  assoc x (combine xs (combine (map g ts) l)) = option_map (fun tv => (g (fst tv), snd tv)) (assoc x (combine xs (combine ts l))).
Proof.
  induction xs as [|y xs IH]; intros [|t ts] [|v l]; try reflexivity. cbn [map combine assoc]. destruct (str_eqb y x); [reflexivity|apply IH].
Qed.
Lemma f2_map_self {A B C} (h : A -> B) (P : B -> C -> Prop) (xs : list A) (l : list C) : Forall2 P (map h xs) l -> Forall2 (fun x v => P (h x) v) xs l.
Proof. revert l. induction xs as [|x xs IH]; intros l H; inversion H; subst; constructor; auto. Qed.
Lemma f2_imp {A B} (P Q : A -> B -> Prop) (xs : list A) (l : list B) : (forall x v, P x v -> Q x v) -> Forall2 P xs l -> Forall2 Q xs l.
Proof. intros H. induction 1; constructor; auto. Qed.
Lemma tpick_arm (arm : svariant -> str * spat * list jst) (vs : list svariant) : (forall v, fst (fst (arm v)) = sv_name v) -> NoDup (map sv_name vs) ->
  forall k v, nth_error vs k = Some v -> tpick (sv_name v) (map arm vs) = Some (snd (fst (arm v)), snd (arm v)).
Proof.
  intros Ha Hnd. induction vs as [|u vs IH]; intros [|k] v Hk; try discriminate; inversion Hnd as [|? ? Hu Hnd']; subst; cbn [nth_error map tpick] in *.
  - injection Hk as ->. pose proof (Ha v) as E. destruct (arm v) as [[x p] l]. cbn [fst snd] in *. subst x. rewrite str_eqb_refl. reflexivity.
  - pose proof (Ha u) as E. destruct (arm u) as [[x p] l]. cbn [fst snd] in E. subst x.
    assert (Hne : sv_name u <> sv_name v) by (intros E; apply Hu; rewrite E; apply in_map; eapply nth_error_In; exact Hk).
    apply str_eqb_neq in Hne. rewrite Hne. apply (IH Hnd' k v Hk).
Qed.

Lemma json_vitems_map {A B} (g : A -> B) l : forall n, json_vitems n (map g l) = json_vitems n l.
Proof. induction l as [|x l IH]; intros n; [reflexivity|]. cbn [map json_vitems]. rewrite IH. destruct l; reflexivity. Qed.
Lemma ron_vitems_map {A B} (g : A -> B) l : forall n, ron_vitems n (map g l) = ron_vitems n l.
Proof. induction l as [|x l IH]; intros n; [reflexivity|]. cbn [map ron_vitems]. rewrite IH. destruct l; reflexivity. Qed.

Section SerAll.
  Variable W : world.
  Variable conv : ty -> str -> proxy.
  Variable self_conv : str -> proxy.
  Variable d : sdef.
  Hypothesis Hw : world_ok W conv self_conv d.
  Variable F : flt.
  Variable c : cfg.
  Variable G : env.
  Variable R : forall A, res Empty_set A -> res Empty_set A -> Prop.
  Hypothesis R_refl : forall A x, R A x x.
  Hypothesis R_bind : forall A B x y f g, R A x y -> (forall o, R B (f o) (g o)) -> R B (rbind x f) (rbind y g).
  Variable n : nat.
  Variable b : ty -> val -> wres.
  Notation typ := (fun t => w_ty W t None).

  Lemma R_post {A B} (f : A -> res Empty_set B) x y : R A x y -> R B (rbind x f) (rbind y f).
  Proof. intros H. apply R_bind; [exact H|]. intros o. apply R_refl. Qed.
  Lemma f2_named fs (l : list val) : NoDup (map sf_name fs) -> length l = length fs ->
    Forall2 (fun f v => field_here W (typed typ (map fst (map (fun f => (sf_name f, ty_text (sf_type f))) fs)) (map snd (map (fun f => (sf_name f, ty_text (sf_type f))) fs)) l) (sf_name f) f v) fs l.
  Proof.
    intros Hnd HL. pose proof (f2_item (named_fields fs) l (named_nodup _ Hnd)) as H.
    assert (HL' : length l = length (named_fields fs)) by (unfold named_fields; rewrite map_length; exact HL). specialize (H HL').
    rewrite nf_named in H. unfold named_fields in H. apply f2_map_self in H. revert H. apply f2_imp. intros f v H. cbn [fst snd] in H.
    unfold field_here, typed. rewrite typed_assoc. unfold str in *. rewrite H. reflexivity.
  Qed.
  Lemma f2_numbered fs (l : list val) : length l = length fs ->
    Forall2 (fun nf v => field_here W (typed typ (map fst (numbered 0 (map (fun f => ty_text (sf_type f)) fs))) (map snd (numbered 0 (map (fun f => ty_text (sf_type f)) fs))) l) (fst nf) (snd nf) v) (numbered_fields 0 fs) l.
  Proof.
    intros HL. pose proof (f2_item (numbered_fields 0 fs) l (numbered_nodup _ _)) as H.
    assert (HL' : length l = length (numbered_fields 0 fs)).
    { rewrite HL. generalize 0. clear. induction fs as [|f fs IH]; intros k; [reflexivity|]. cbn [numbered_fields length]. rewrite <- IH. reflexivity. }
    specialize (H HL'). rewrite nf_numbered in H. revert H. apply f2_imp. intros nf v H.
    unfold field_here, typed. rewrite typed_assoc. unfold str in *. rewrite H. reflexivity.
  Qed.
  Lemma f2_vars ts (l : list val) : length l = length ts ->
    Forall2 (fun nt v => here W (typed typ (fvars 0 ts) ts l) (fst nt) (snd nt) v) (combine (fvars 0 ts) ts) l.
  Proof.
    intros HL. pose proof (f2_combine (fvars 0 ts) ts (proj1 (fvars_nodup ts 0)) (fvars_length ts 0) l HL) as H. revert H. apply f2_imp. intros nt v H.
    unfold here, typed. rewrite typed_assoc. unfold str in *. rewrite H. reflexivity.
  Qed.
  Lemma bind_struct fs (l : list val) : Forall (fun f => sf_name f <> chars "s" /\ sf_name f <> chars "d") fs ->
    tbind_pat typ (PatStruct (map sf_name fs)) (VsStruct (map (fun f => (sf_name f, ty_text (sf_type f))) fs)) l =
    Some (typed typ (map fst (map (fun f => (sf_name f, ty_text (sf_type f))) fs)) (map snd (map (fun f => (sf_name f, ty_text (sf_type f))) fs)) l).
  Proof.
    intros H. rewrite Forall_forall in H. cbn [tbind_pat]. rewrite !existsb_notin; cbn [orb].
    - replace (forallb _ _ && forallb _ _) with true; [reflexivity|].
      symmetry. apply andb_true_intro. split; apply forallb_forall.
      + intros x Hx. apply in_map_iff in Hx as (f & <- & Hf). cbn [fst]. apply existsb_in. exact (in_map sf_name fs f Hf).
      + intros x Hx. apply existsb_in. rewrite map_map. exact Hx.
    - intros Hx. apply in_map_iff in Hx as (f & E & Hf). destruct (H _ Hf). contradiction.
    - intros Hx. apply in_map_iff in Hx as (f & E & Hf). destruct (H _ Hf). contradiction.
  Qed.

  Lemma run_json_ser i v : let a := ser_text F c G Json n in
    (forall t v, R _ (a t v) (b t v)) -> (forall p t v, R _ (a (TProxy p t) v) (b t (p_to p v))) ->
    (forall t w, R _ (a t w) (b (TOpt t) (VSome w))) -> (forall p t w, R _ (a (TProxy p t) w) (b (TOpt t) (VSome (p_to p w)))) ->
    R _ (Ok (chars "null")) (b (TOpt (TInt I32)) VNone) ->
    def_ok d -> rust_ok d -> proxy_plain d -> names_plain d -> json_tuple_plain d -> variants_compile d ->
    nth_error G i = Some (source_decl W d) -> instance (shape_of d) v ->
    R _ (ser_text F c G Json (S n) (TNamed i) v) (run_jser Json typ conv self_conv (shape_of d) b (mk_json_ser d) v).
  Proof.
    intros a Hab Hpx Hopt Hopx Hnull Hok Hru Hpp Hnp Htp Hvc HG Hi. destruct Hw as (_ & Hpr & Hfk). cbn [ser_text]. fold a. rewrite HG.
    unfold source_decl, mk_json_ser, shape_of, rust_ok, proxy_plain, names_plain, json_tuple_plain, variants_compile, all_fields, container_proxy in *.
    destruct (sd_body d) as [fs bb|fs bb| |vs bb] eqn:Eb.
    - destruct (value_in (chars "proxy") (items (sd_attrs d))) as [p|].
      + rewrite Hpr. cbn [fst snd run_jser]. apply Hab.
      + destruct v as [| | | | | | |l| | | |]; try contradiction. cbn [run_jser json_struct]. cbn [instance] in Hi. rewrite map_length in Hi.
        cbn [app run_jsts run_jst run_base rbind say fst snd]. rewrite run_jsts_app, !rmap_bind.
        pose proof (run_json_fields W conv R R_refl R_bind a b Hab Hpx Hnull (word_in (chars "serialize_none_as_null") (items (sd_attrs d))) _ fs Hfk (proj1 Hnp) l false [c_lcur] (f2_named fs l Hru Hi)) as H.
        apply (R_post (fun st => Ok (snd st ++ [c_rcur]))) in H.
        eapply R_eq; [eapply R_eq'; [exact H|]|].
        * rewrite rbind_assoc. destruct (ser_named _ _ _ _ _) as [ps| | |]; try reflexivity. cbn [rbind fin snd]. rewrite pieces_join. reflexivity.
        * rewrite rbind_assoc. destruct (run_jsts _ _ _ _ _ _ _ _) as [st| | |]; try reflexivity.
    - destruct (value_in (chars "proxy") (items (sd_attrs d))) as [p|].
      + rewrite Hpr. cbn [fst snd run_jser]. apply Hab.
      + destruct v as [| | | | | | |l| | | |]; try contradiction. cbn [run_jser json_unnamed]. cbn [instance] in Hi.
        assert (HL : length l = length fs).
        { rewrite Hi. generalize 0. clear. induction fs as [|f fs IH]; intros k; [reflexivity|]. cbn [map numbered length]. rewrite <- (IH (k + 1)). reflexivity. }
        assert (Hhp : existsb f_hasproxy (map (source_field W false) fs) = false).
        { clear - Htp. induction Htp as [|f fs Hf _ IH]; [reflexivity|]. cbn [map existsb source_field f_hasproxy]. unfold no_proxy in Hf. rewrite Hf. cbn [is_some orb]. exact IH. }
        rewrite Hhp.
        assert (Hall : R _ (rmap (wrap c_lbr c_rbr) (ser_unnamed Json a (map (source_field W false) fs) l))
          (rmap snd (run_jsts Json typ conv b (typed typ (map fst (numbered 0 (map (fun f => ty_text (sf_type f)) fs))) (map snd (numbered 0 (map (fun f => ty_text (sf_type f)) fs))) l) []
             ([JB (JPush 91)] ++ json_items 0 fs ++ [JB (JPush 93)]) (None, [])))).
        { cbn [app run_jsts run_jst run_base rbind say fst snd]. rewrite run_jsts_app, !rmap_bind.
          pose proof (run_json_items W conv R R_refl R_bind a b Hab fs Htp _ l 0 None [91] (f2_numbered fs l HL)) as H.
          apply (R_post (fun st => Ok (snd st ++ [c_rbr]))) in H.
          eapply R_eq; [eapply R_eq'; [exact H|]|].
          - rewrite rbind_assoc. destruct (ser_unnamed _ _ _ _) as [ps| | |]; try reflexivity.
          - rewrite rbind_assoc. destruct (run_jsts _ _ _ _ _ _ _ _) as [st| | |]; try reflexivity. }
        destruct fs as [|f [|f' fs]]; [destruct l; [apply R_refl|discriminate]| |exact Hall].
        cbn [map]. destruct l as [|w [|w' l]]; try discriminate.
        destruct (word_in (chars "transparent") (items (sd_attrs d))); [|exact Hall].
        inversion Htp as [|? ? Hf _]; subst. cbn [source_field f_ty]. unfold no_proxy in Hf. rewrite Hf.
        cbn. pose proof (Hab (w_ty W (ty_text (sf_type f)) None) w) as H. apply (R_post (fun x => Ok x)) in H.
        eapply R_eq; [eapply R_eq'; [exact H|]|]; [destruct (a (w_ty W (ty_text (sf_type f)) None) w); reflexivity|]. destruct (b (w_ty W (ty_text (sf_type f)) None) w); reflexivity.
    - destruct (value_in (chars "proxy") (items (sd_attrs d))) as [p|].
      + rewrite Hpr. cbn [fst snd run_jser]. apply Hab.
      + destruct v as [| | | | | | |l| | | |]; try contradiction. destruct l; [|discriminate]. apply R_refl.
    - destruct (value_in (chars "proxy") (items (sd_attrs d))) as [p|] eqn:Ep; [destruct Hpp as [_ []]; discriminate|].
      destruct v as [| | | | | | | | |tag l| |]; try contradiction. cbn [instance] in Hi. destruct Hi as (nm & sh & Hn & HL).
      cbn [run_jser]. rewrite Hn. rewrite nth_error_map in Hn. rewrite nth_error_map.
      destruct (nth_error vs (N.to_nat tag)) as [vr|] eqn:Ev; [|discriminate]. cbn [option_map] in *.
      destruct Hru as (Hnd & _ & Hfs).
      injection Hn as <- <-. rewrite (tpick_arm json_arm vs (fun v => eq_refl) Hnd _ _ Ev).
      assert (Hvr : In vr vs) by (eapply nth_error_In; exact Ev).
      rewrite Forall_forall in Hfs, Hvc, Hfk. specialize (Hfs _ Hvr). specialize (Hvc _ Hvr). destruct Hnp as [Hnf Hnv]. rewrite Forall_forall in Hnf, Hnv.
      destruct (Hnv _ Hvr) as (Hn1 & Hn2).
      assert (Hk : plain_lit (key_variant vr) = true) by (unfold key_variant; destruct (value_in (chars "rename") (items (sv_attrs vr))); assumption).
      change (variant_key Json (source_variant W vr)) with (key_variant vr).
      cbn [json_arm fst snd source_variant v_body].
      destruct (sv_payload vr) as [|ts tb|fs tb] eqn:Epl; cbn [v_body].
      + destruct l; [|discriminate]. cbn [tbind_pat run_jsts run_jst run_base]. unfold say_lit. rewrite Hk. apply R_refl.
      + assert (Hne : ts <> []).
        { destruct Hok as (_ & _ & _ & _ & _ & _ & _ & Hok). rewrite Eb in Hok. rewrite Forall_forall in Hok. destruct (Hok _ Hvr) as [_ Hok']. rewrite Epl in Hok'. apply Hok'. }
        assert (Hb : match map ty_text ts with [] => False | _ => True end) by (destruct ts; [apply Hne; reflexivity|exact I]).
        rewrite <- (map_map ty_text (fun t => w_ty W t None)).
        cbn [tbind_pat]. rewrite fvars_length, map_length, Nat.eqb_refl. rewrite !run_jsts_app, !run_bases_jb.
        rewrite <- (fvars_map ty_text). rewrite <- (json_vitems_map ty_text).
        pose proof (run_json_vitems W conv R R_refl R_bind a b Hab (map ty_text ts) _ l 0 None ((((([] ++ [123]) ++ quoted (key_variant vr)) ++ [58]) ++ [91])) (f2_vars _ l HL)) as H.
        apply (R_post (fun st => Ok ((snd st ++ [93]) ++ [125]))) in H.
        eapply R_eq; [eapply R_eq'; [exact H|]|].
        * destruct (map (fun t => w_ty W t None) (map ty_text ts)) as [|t0 ts0] eqn:Et; [destruct (map ty_text ts); [destruct Hb|discriminate]|].
          rewrite rbind_assoc. destruct (ser_tys _ _ _) as [ps| | |]; try reflexivity. cbn [rbind rmap fst snd]. unfold wrap, label, quoted. rewrite <- ?app_assoc. cbn [app]. rewrite <- ?app_assoc. reflexivity.
        * cbn [run_bases run_base rbind]. unfold say_lit. rewrite Hk. unfold say. cbn [rbind fst snd]. rewrite rmap_bind, !run_jsts_app.
          rewrite rbind_assoc. destruct (run_jsts _ _ _ _ _ _ (json_vitems _ _) _) as [st| | |]; reflexivity.
      + rewrite bind_struct by (eapply Forall_impl; [|exact Hvc]; intros f Hf; apply Hf).
        rewrite map_length in HL. rewrite !run_jsts_app, !run_bases_jb.
        assert (Hsub : forall f, In f fs -> In f (concat (map (fun v => match sv_payload v with PStruct fs _ => fs | _ => [] end) vs))).
        { intros f Hf. apply in_concat. exists fs. split; [|exact Hf]. apply in_map_iff. exists vr. rewrite Epl. split; [reflexivity|exact Hvr]. }
        assert (Hfk' : Forall (field_known W conv) fs) by (apply Forall_forall; intros f Hf; apply Hfk, Hsub, Hf).
        assert (Hnf' : Forall (fun f => name_plain (sf_name f) (sf_attrs f)) fs) by (apply Forall_forall; intros f Hf; apply Hnf, Hsub, Hf).
        assert (Hq : Forall (fun f => is_option (sf_type f) = false -> no_proxy f) fs) by (eapply Forall_impl; [|exact Hvc]; intros f Hf; apply Hf).
        pose proof (run_json_vfields W conv R R_refl R_bind a b Hab Hopt Hopx _ fs Hfk' Hnf' Hq l None ((((([] ++ [123]) ++ quoted (key_variant vr)) ++ [58]) ++ [123])) (f2_named fs l Hfs HL)) as H.
        apply (R_post (fun st => Ok ((snd st ++ [125]) ++ [125]))) in H.
        eapply R_eq; [eapply R_eq'; [exact H|]|].
        * rewrite rbind_assoc. destruct (ser_variant_fields _ _ _ _) as [ps| | |]; try reflexivity. cbn [rbind rmap fst snd]. unfold wrap, label, quoted. cbn [s_open s_close]. rewrite <- ?app_assoc. cbn [app]. rewrite <- ?app_assoc. reflexivity.
        * cbn [run_bases run_base rbind]. unfold say_lit. rewrite Hk. unfold say. cbn [rbind fst snd]. rewrite rmap_bind, !run_jsts_app.
          rewrite rbind_assoc. destruct (run_jsts _ _ _ _ _ _ (json_vfields _) _) as [st| | |]; reflexivity.
  Qed.

  Lemma run_ron_ser i v : let a := ser_text F c G Ron n in
    (forall t v, R _ (a t v) (b t v)) -> (forall t w, R _ (a t w) (b (TOpt t) (VSome w))) ->
    def_ok d -> rust_ok d -> names_plain d -> ron_plain d -> variants_compile d ->
    nth_error G i = Some (source_decl W d) -> instance (shape_of d) v ->
    R _ (ser_text F c G Ron (S n) (TNamed i) v) (run_jser Ron typ conv self_conv (shape_of d) b (mk_ron_ser d) v).
  Proof.
    intros a Hab Hopt Hok Hru Hnp (Hcp & Hrp & Hrt) Hvc HG Hi. destruct Hw as (_ & _ & Hfk). cbn [ser_text]. fold a. rewrite HG.
    unfold source_decl, mk_ron_ser, shape_of, rust_ok, names_plain, variants_compile, all_fields in *. rewrite Hcp in *.
    destruct (sd_body d) as [fs bb|fs bb| |vs bb] eqn:Eb.
    - destruct v as [| | | | | | |l| | | |]; try contradiction. cbn [run_jser ron_struct]. cbn [instance] in Hi. rewrite map_length in Hi.
      cbn [app run_jsts run_jst run_base rbind say fst snd]. rewrite run_jsts_app, !rmap_bind.
      pose proof (run_ron_fields W conv R R_refl R_bind a b Hab _ fs Hfk (proj1 Hnp) Hrp (word_in (chars "serialize_none_as_null") (items (sd_attrs d))) l None [c_lpar] (f2_named fs l Hru Hi)) as H.
      apply (R_post (fun st => Ok (snd st ++ [c_rpar]))) in H.
      eapply R_eq; [eapply R_eq'; [exact H|]|].
      + rewrite rbind_assoc. destruct (ser_named _ _ _ _ _) as [ps| | |]; try reflexivity.
      + rewrite rbind_assoc. destruct (run_jsts _ _ _ _ _ _ _ _) as [st| | |]; try reflexivity.
    - destruct v as [| | | | | | |l| | | |]; try contradiction. cbn [run_jser]. cbn [instance] in Hi.
      assert (HL : length l = length fs).
      { rewrite Hi. generalize 0. clear. induction fs as [|f fs IH]; intros k; [reflexivity|]. cbn [map numbered length]. rewrite <- (IH (k + 1)). reflexivity. }
      assert (Hhp : existsb f_hasproxy (map (source_field W false) fs) = false).
      { clear - Hrp. induction Hrp as [|f fs Hf _ IH]; [reflexivity|]. cbn [map existsb source_field f_hasproxy]. unfold no_proxy in Hf. rewrite Hf. cbn [is_some orb]. exact IH. }
      rewrite Hhp. cbn [app run_jsts run_jst run_base rbind say fst snd]. rewrite run_jsts_app, !rmap_bind.
      pose proof (run_ron_items W conv R R_refl R_bind a b Hab fs Hrp _ l 0 None [40] (f2_numbered fs l HL)) as H.
      apply (R_post (fun st => Ok (snd st ++ [c_rpar]))) in H.
      eapply R_eq; [eapply R_eq'; [exact H|]|].
      + rewrite rbind_assoc. destruct fs as [|f fs]; [contradiction|]. cbn [map]. destruct (ser_unnamed _ _ _ _) as [ps| | |]; try reflexivity.
      + rewrite rbind_assoc. destruct (run_jsts _ _ _ _ _ _ _ _) as [st| | |]; try reflexivity.
    - contradiction.
    - destruct v as [| | | | | | | | |tag l| |]; try contradiction. cbn [instance] in Hi. destruct Hi as (nm & sh & Hn & HL).
      cbn [run_jser]. rewrite Hn. rewrite nth_error_map in Hn. rewrite nth_error_map.
      destruct (nth_error vs (N.to_nat tag)) as [vr|] eqn:Ev; [|discriminate]. cbn [option_map] in *.
      destruct Hru as (Hnd & _ & Hfs).
      injection Hn as <- <-. rewrite (tpick_arm ron_arm vs (fun v => eq_refl) Hnd _ _ Ev).
      assert (Hvr : In vr vs) by (eapply nth_error_In; exact Ev).
      rewrite Forall_forall in Hfs, Hvc, Hfk, Hrp. specialize (Hfs _ Hvr). specialize (Hvc _ Hvr). destruct Hnp as [Hnf Hnv]. rewrite Forall_forall in Hnf, Hnv.
      destruct (Hnv _ Hvr) as (Hk & _).
      change (variant_key Ron (source_variant W vr)) with (sv_name vr).
      cbn [ron_arm fst snd source_variant v_body].
      destruct (sv_payload vr) as [|ts tb|fs tb] eqn:Epl; cbn [v_body].
      + destruct l; [|discriminate]. cbn [tbind_pat run_jsts run_jst run_base]. unfold say_lit. rewrite Hk. apply R_refl.
      + assert (Hne : ts <> []).
        { destruct Hok as (_ & _ & _ & _ & _ & _ & _ & Hok). rewrite Eb in Hok. rewrite Forall_forall in Hok. destruct (Hok _ Hvr) as [_ Hok']. rewrite Epl in Hok'. apply Hok'. }
        assert (Hb : match map ty_text ts with [] => False | _ => True end) by (destruct ts; [apply Hne; reflexivity|exact I]).
        rewrite <- (map_map ty_text (fun t => w_ty W t None)).
        cbn [tbind_pat]. rewrite fvars_length, map_length, Nat.eqb_refl. rewrite !run_jsts_app, !run_bases_jb.
        rewrite <- (fvars_map ty_text). rewrite <- (ron_vitems_map ty_text).
        pose proof (run_ron_vitems W conv R R_refl R_bind a b Hab (map ty_text ts) _ l 0 None (([] ++ sv_name vr) ++ [40]) (f2_vars _ l HL)) as H.
        apply (R_post (fun st => Ok (snd st ++ [41]))) in H.
        eapply R_eq; [eapply R_eq'; [exact H|]|].
        * destruct (map (fun t => w_ty W t None) (map ty_text ts)) as [|t0 ts0] eqn:Et; [destruct (map ty_text ts); [destruct Hb|discriminate]|].
          rewrite rbind_assoc. destruct (ser_tys _ _ _) as [ps| | |]; try reflexivity. cbn [rbind rmap fst snd]. unfold wrap, label. rewrite <- ?app_assoc. reflexivity.
        * cbn [run_bases run_base rbind]. unfold say_lit. rewrite Hk. unfold say. cbn [rbind fst snd]. rewrite rmap_bind, !run_jsts_app.
          rewrite rbind_assoc. destruct (run_jsts _ _ _ _ _ _ (ron_vitems _ _) _) as [st| | |]; reflexivity.
      + rewrite bind_struct by (eapply Forall_impl; [|exact Hvc]; intros f Hf; apply Hf).
        rewrite map_length in HL. rewrite !run_jsts_app, !run_bases_jb.
        assert (Hsub : forall f, In f fs -> In f (concat (map (fun v => match sv_payload v with PStruct fs _ => fs | _ => [] end) vs))).
        { intros f Hf. apply in_concat. exists fs. split; [|exact Hf]. apply in_map_iff. exists vr. rewrite Epl. split; [reflexivity|exact Hvr]. }
        assert (Hfk' : Forall (field_known W conv) fs) by (apply Forall_forall; intros f Hf; apply Hfk, Hsub, Hf).
        assert (Hnf' : Forall (fun f => name_plain (sf_name f) (sf_attrs f)) fs) by (apply Forall_forall; intros f Hf; apply Hnf, Hsub, Hf).
        assert (Hq : Forall no_proxy fs) by (apply Forall_forall; intros f Hf; apply Hrp, Hsub, Hf).
        pose proof (run_ron_vfields W conv R R_refl R_bind a b Hab Hopt _ fs Hfk' Hnf' Hq l None (([] ++ sv_name vr) ++ [40]) (f2_named fs l Hfs HL)) as H.
        apply (R_post (fun st => Ok (snd st ++ [41]))) in H.
        eapply R_eq; [eapply R_eq'; [exact H|]|].
        * rewrite rbind_assoc. destruct (ser_variant_fields _ _ _ _) as [ps| | |]; try reflexivity. cbn [rbind rmap fst snd]. unfold wrap, label. cbn [s_open s_close]. rewrite <- ?app_assoc. reflexivity.
        * cbn [run_bases run_base rbind]. unfold say_lit. rewrite Hk. unfold say. cbn [rbind fst snd]. rewrite rmap_bind, !run_jsts_app.
          rewrite rbind_assoc. destruct (run_jsts _ _ _ _ _ _ (concat _) _) as [st| | |]; reflexivity.
  Qed.
End SerAll.
