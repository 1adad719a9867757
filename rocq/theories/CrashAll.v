(** Where the JSON readers break down, exactly: containers, structs and enums, and
    the whole. *)
From Verif Require Import Base Utf8 Types TyAll BinModel Text TextModel TextSim TextToks TextLex TextRead SpecText SpecGram SpecObj SpecList TextGram TextMain TextFuel TextLocal TextRun TextEmbed TextObj TextList SpecTok TokLex SpecDoc Doc SpecAcc AccBase AccDoc AccDe SpecTerm SpecCrash CrashBase Crash CrashDe.
Local Open Scope N_scope.

Section All.
  Variables (F : flt) (c : cfg) (G : env).
  Notation L := tok_lexer.
  Notation atx := (atx F Json).
  Notation both := (both F Json).
  Notation cinv := (cinv F).
  Notation cfwd := (cfwd F).
  Notation DE := (de_text L F c G Json).
  Notation taken := (taken F c G).
  Notation passed := (passed F c G).
  Hypothesis HG : Forall distinct_names G.
  Definition TK (nx : option str) (t : ty) (xs : list lexeme) (v : val) : Prop := exists n, takes F c G n nx t xs v.
  Lemma TK_both n t : both n (fun j => DE j t) (fun nx xs v => TK (hstr nx) t xs v).
  Proof.
    split.
    - intros u u' a xs0 b Ha E. destruct (proj1 (acc_all F c G HG n t) u u' a xs0 b Ha E) as (xs & rest & H1 & H2 & H3 & H4). exists xs, rest. do 3 (split; [assumption|]). exists n. exact H4.
    - intros nx xs a [m Hm]. exact (proj2 (acc_all F c G HG m t) nx xs a Hm).
  Qed.
  Lemma TK_shape nx t xs v : TK nx t xs v -> shape xs.
  Proof. intros [n H]. eapply takes_shape; exact H. Qed.
  Lemma taken_TK t l : taken t l <-> exists v, TK None t l v.
  Proof. split; [intros (n & v & H); exists v, n; exact H | intros (v & n & H); exists n, v; exact H]. Qed.
  Lemma opens_not_close xs : opens xs -> exists x r, xs = x :: r /\ x <> XP 93 /\ not_close F KBlockClose (Some x) = true /\ not_close F KCurlyClose (Some x) = true.
  Proof. intros [r [-> | ->]]; eexists; eexists; (split; [reflexivity|]; split; [discriminate|]; split; reflexivity). Qed.

  (** *** The parts of a type, given where its parts break down *)
  Section Parts.
    Variable C : ty -> list lexeme -> crash -> Prop.
    Hypothesis HC : forall t l k, C t l k -> opens l.

    (** Lists *)
    Definition seq_crash (t : ty) : crel := fun _ xs k => exists ls l, Forall (taken t) ls /\ C t l k /\ xs = XP 91 :: with_commas ls ++ l.
    Notation J_seq q t := (fun a l a' => exists v, TK None t l v /\ a' = seq_add q v a).
    Lemma f_f2 t ls : Forall (taken t) ls <-> exists ws, Forall2 (TK None t) ls ws.
    Proof.
      split.
      - induction 1 as [|l ls H _ (ws & IH)]; [exists []; constructor|]. apply taken_TK in H as [v H]. exists (v :: ws). constructor; assumption.
      - intros [ws H]. induction H as [|l w ls ws H _ IH]; constructor; [apply taken_TK; eauto | exact IH].
    Qed.
    Lemma seq_crash_iff q t nx xs k : c_loop 91 93 (J_seq q t) (fun _ => C t) (fun _ _ => False) [] nx xs k <-> seq_crash t nx xs k.
    Proof.
      split.
      - intros [(ls & a & l & Hr & Hk & ->)|(ls & ys & a & _ & _ & _ & [])]. apply (run_seq TK) in Hr as (ws & Hw & _). exists ls, l. split; [apply f_f2; eauto | auto].
      - intros (ls & l & Hf & Hk & ->). apply f_f2 in Hf as [ws Hw]. left. exists ls, (seq_of q ws []), l. split; [apply (run_seq TK); eauto | auto].
    Qed.
    Lemma seq_body q t j a u : (pbind (DE j t) (fun v => pbind (eat_comma L KBlockClose (chars ", or ]")) (fun _ => pret (seq_add q v a)))) u = body_of KBlockClose (chars ", or ]") (fun a => pmap (fun v => seq_add q v a) (DE j t)) a u.
    Proof. unfold body_of, pmap, pbind. destruct (DE j t u) as [u1 [v|e|p|]]; reflexivity. Qed.
    Lemma seq_item q t n a : both n (fun j => pmap (fun v => seq_add q v a) (DE j t)) (r_map (fun v => seq_add q v a) (fun nx xs v => TK (hstr nx) t xs v)).
    Proof. apply both_map. apply TK_both. Qed.
    Lemma seq_J q t a nx l a' : hstr nx = None -> (r_map (fun v => seq_add q v a) (fun nx xs v => TK (hstr nx) t xs v) nx l a' <-> J_seq q t a l a').
    Proof. intro Hn. unfold r_map. rewrite Hn. split; intros (v & H1 & H2); eauto. Qed.
    Lemma seq_open q t a l a' : J_seq q t a l a' -> exists x r, l = x :: r /\ not_close F KBlockClose (Some x) = true.
    Proof. intros (v & Hv & _). destruct (shape_open F l (TK_shape _ _ _ _ Hv)) as (x & r & -> & _ & _ & H & _). eauto. Qed.
    Lemma C_open t l k : C t l k -> exists x r, l = x :: r /\ not_close F KBlockClose (Some x) = true.
    Proof. intro H. destruct (opens_not_close l (HC _ _ _ H)) as (x & r & -> & _ & Hx & _). eauto. Qed.
    Lemma cinv_seq K n q t : ((1 <= K)%nat -> cinv (K - 1) (DE n t) (fun _ => C t)) -> (K < n)%nat -> cinv K (de_seq L (DE n) n q t) (seq_crash t).
    Proof.
      intros Ht HK. apply (cinv_weak F K _ (c_loop 91 93 (J_seq q t) (fun _ => C t) (fun _ _ => False) [])); [|intros nx xs k H; apply (seq_crash_iff q); exact H].
      apply (cinv_loop F 91 93 KBlockOpen KBlockClose (kd_lbr F) (kd_rbr F)) with (cnd := not_close F KBlockClose) (item := fun j a => pmap (fun v => seq_add q v a) (DE j t))
        (I := fun a => r_map (fun v => seq_add q v a) (fun nx xs v => TK (hstr nx) t xs v)) (fin := fun l => pret l) (w2 := chars ", or ]").
      - split; [reflexivity | discriminate].
      - split; [reflexivity | discriminate].
      - discriminate.
      - intros a nx l a'. apply seq_J.
      - intros a l a'. apply seq_open.
      - intros a l k. apply C_open.
      - reflexivity.
      - intros u xs b. apply not_close_cond.
      - intros a u _. apply (seq_body q t n).
      - intro a. apply seq_item.
      - intros a HK1. apply cinv_map. apply Ht. exact HK1.
      - intros a k. apply cinv_calm, calm_ret.
      - exact HK.
    Qed.
    Lemma cfwd_seq q t : cfwd (fun j => DE j t) (fun _ => C t) -> cfwd (fun j => de_seq L (DE j) j q t) (seq_crash t).
    Proof.
      intro Ht. apply (cfwd_weak F _ (c_loop 91 93 (J_seq q t) (fun _ => C t) (fun _ _ => False) [])); [|intros nx xs k H; apply seq_crash_iff; exact H].
      apply (cfwd_loop F 91 93 KBlockOpen KBlockClose (kd_lbr F) (kd_rbr F)) with (cnd := not_close F KBlockClose) (item := fun j a => pmap (fun v => seq_add q v a) (DE j t))
        (I := fun a => r_map (fun v => seq_add q v a) (fun nx xs v => TK (hstr nx) t xs v)) (fin := fun l => pret l) (w2 := chars ", or ]").
      - split; [reflexivity | discriminate].
      - split; [reflexivity | discriminate].
      - discriminate.
      - intros a nx l a'. apply seq_J.
      - intros a l a'. apply seq_open.
      - intros a l k. apply C_open.
      - reflexivity.
      - intros u xs b. apply not_close_cond.
      - intros j a u _. apply (seq_body q t j).
      - intros n a. apply seq_item.
      - intro a. apply cfwd_map. exact Ht.
      - intros a nx xs k [_ []].
      - intros a [].
    Qed.

    (** Maps *)
    Notation entry := (fun e : list lexeme * list lexeme => fst e ++ xcolon :: snd e).
    Definition map_crash (tk tv : ty) : crel := fun _ xs k => exists es, Forall (fun e => taken tk (fst e) /\ taken tv (snd e)) es /\
      ((exists l, C tk l k /\ xs = XP 123 :: with_commas (map entry es) ++ l) \/
       (exists x l, taken tk x /\ C tv l k /\ xs = XP 123 :: with_commas (map entry es) ++ x ++ xcolon :: l)).
    Notation J_map q tk tv := (fun a l a' => exists ek ev x y, l = ek ++ xcolon :: ev /\ TK None tk ek x /\ TK None tv ev y /\ a' = map_add q x y a).
    Definition C_map (tk tv : ty) (l : list lexeme) (k : crash) : Prop := C tk l k \/ exists x l', taken tk x /\ C tv l' k /\ l = x ++ xcolon :: l'.
    Lemma m_f2 tk tv es : Forall (fun e => taken tk (fst e) /\ taken tv (snd e)) es <-> exists ws, Forall2 (fun e w => TK None tk (fst e) (fst w) /\ TK None tv (snd e) (snd w)) es ws.
    Proof.
      split.
      - induction 1 as [|e es [H1 H2] _ (ws & IH)]; [exists []; constructor|]. apply taken_TK in H1 as [v H1]. apply taken_TK in H2 as [w H2]. exists ((v, w) :: ws). constructor; auto.
      - intros [ws H]. induction H as [|e w es ws [H1 H2] _ IH]; constructor; [split; apply taken_TK; eauto | exact IH].
    Qed.
    Lemma map_crash_iff q tk tv nx xs k : c_loop 123 125 (J_map q tk tv) (fun _ => C_map tk tv) (fun _ _ => False) [] nx xs k <-> map_crash tk tv nx xs k.
    Proof.
      split.
      - intros [(ls & a & l & Hr & Hk & ->)|(ls & ys & a & _ & _ & _ & [])]. apply (run_map TK) in Hr as (es & ws & -> & Hw & _). exists es. split; [apply m_f2; eauto|].
        destruct Hk as [Hk|(x & l' & Hx & Hk & ->)]; [left; eauto | right; exists x, l'; auto].
      - intros (es & Hf & H). apply m_f2 in Hf as [ws Hw].
        assert (Hr : run (J_map q tk tv) [] (map entry es) (map_of q ws [])) by (apply (run_map TK); eauto).
        left. destruct H as [(l & Hk & ->)|(x & l & Hx & Hk & ->)].
        + exists (map entry es), (map_of q ws []), l. split; [exact Hr|]. split; [left; exact Hk | reflexivity].
        + exists (map entry es), (map_of q ws []), (x ++ xcolon :: l). split; [exact Hr|]. split; [right; exists x, l; auto | reflexivity].
    Qed.
    Notation I_map q tk tv a := (r_bind (fun nx xs v => TK (hstr nx) tk xs v) (fun x => r_bind (fun _ xs (_ : unit) => xs = [xcolon]) (fun _ => r_map (fun y => map_add q x y a) (fun nx xs v => TK (hstr nx) tv xs v)))).
    Lemma map_body q tk tv j a u : pbind (DE j tk) (fun x => pbind (p_colon L) (fun _ => pbind (DE j tv) (fun y => pbind (eat_comma L KCurlyClose (chars ", or }")) (fun _ => pret (map_add q x y a))))) u =
      body_of KCurlyClose (chars ", or }") (map_item F c G q tk tv j) a u.
    Proof. unfold body_of, map_item, pmap, pbind. destruct (DE j tk u) as [u1 [v|e|p|]]; try reflexivity. destruct (p_colon L u1) as [u2 [[]|e|p|]]; try reflexivity. destruct (DE j tv u2) as [u3 [y|e|p|]]; reflexivity. Qed.
    Lemma map_item_both q tk tv n a : both n (fun j => map_item F c G q tk tv j a) (I_map q tk tv a).
    Proof.
      unfold map_item. apply (both_bind F Json n (fun j => DE j tk) (fun j x => pbind (p_colon L) (fun _ => pmap (fun y => map_add q x y a) (DE j tv)))); [apply TK_both|]. intro x.
      apply (both_bind F Json n (fun j => p_colon L) (fun j _ => pmap (fun y => map_add q x y a) (DE j tv))); [apply acc_colon|]. intros _. apply both_map. apply TK_both.
    Qed.
    Lemma map_J q tk tv a nx l a' : hstr nx = None -> (I_map q tk tv a nx l a' <-> J_map q tk tv a l a').
    Proof.
      intro Hn. split.
      - intros (x1 & x2 & x & -> & H1 & x3 & x4 & [] & -> & -> & y & -> & H2). rewrite Hn in H2. exists x1, x4, x, y. auto.
      - intros (ek & ev & x & y & -> & H1 & H2 & ->). exists ek, (xcolon :: ev), x. split; [reflexivity|]. split; [exact H1|]. exists [xcolon], ev, tt. split; [reflexivity|]. split; [reflexivity|]. exists y. rewrite Hn. auto.
    Qed.
    Lemma map_open q tk tv (a : list (val * val)) l a' : J_map q tk tv a l a' -> exists x r, l = x :: r /\ not_close F KCurlyClose (Some x) = true.
    Proof. intros (ek & ev & x & y & -> & Hv & _). destruct (shape_open F ek (TK_shape _ _ _ _ Hv)) as (z & r & -> & _ & _ & _ & H). exists z, (r ++ xcolon :: ev). auto. Qed.
    Lemma C_map_open tk tv l k : C_map tk tv l k -> exists x r, l = x :: r /\ not_close F KCurlyClose (Some x) = true.
    Proof.
      intros [H|(x & l' & Hx & _ & ->)].
      - destruct (opens_not_close l (HC _ _ _ H)) as (x & r & -> & _ & _ & Hx). eauto.
      - apply taken_TK in Hx as [v Hv]. destruct (shape_open F x (TK_shape _ _ _ _ Hv)) as (z & r & -> & _ & _ & _ & H). exists z, (r ++ xcolon :: l'). auto.
    Qed.
    Lemma colon_inv (n : nat) : inv F Json (p_colon L) (fun _ xs (_ : unit) => xs = [xcolon]). Proof. exact (proj1 (acc_colon F n)). Qed.
    Notation D_map tv := (fun _ : val => c_then (fun _ xs (_ : unit) => xs = [xcolon]) (fun _ _ => C tv)).
    Lemma D_map_iff tk tv nx l k : (C tk l k \/ c_then (fun nx xs v => TK (hstr nx) tk xs v) (D_map tv) nx l k) <-> C_map tk tv l k.
    Proof.
      split.
      - intros [H|(x1 & x2 & x & -> & H1 & x3 & x4 & [] & -> & -> & H2)]; [left; exact H|]. right. cbn [hd_of app hstr] in H1. exists x1, x4. split; [apply taken_TK; exists x; exact H1 | auto].
      - intros [H|(x & l' & Hx & Hk & ->)]; [left; exact H|]. right. apply taken_TK in Hx as [v Hv]. exists x, (xcolon :: l'), v. split; [reflexivity|]. split; [exact Hv|]. exists [xcolon], l', tt. auto.
    Qed.
    Lemma cinv_mapk K n q tk tv : ((1 <= K)%nat -> cinv (K - 1) (DE n tk) (fun _ => C tk)) -> ((1 <= K)%nat -> cinv (K - 1) (DE n tv) (fun _ => C tv)) -> (K < n)%nat ->
      cinv K (de_map L (DE n) n q tk tv) (map_crash tk tv).
    Proof.
      intros Hk Hv HK. apply (cinv_weak F K _ (c_loop 123 125 (J_map q tk tv) (fun _ => C_map tk tv) (fun _ _ => False) [])); [|intros nx xs k H; apply (map_crash_iff q); exact H].
      apply (cinv_loop F 123 125 KCurlyOpen KCurlyClose (kd_lcur F) (kd_rcur F)) with (cnd := not_close F KCurlyClose) (item := map_item F c G q tk tv)
          (I := fun a => I_map q tk tv a) (fin := fun l => pret l) (w2 := chars ", or }").
      - split; [reflexivity | discriminate].
      - split; [reflexivity | discriminate].
      - discriminate.
      - intros a nx l a'. apply map_J.
      - intros a l a'. apply map_open.
      - intros a l k. apply C_map_open.
      - reflexivity.
      - intros u xs b. apply not_close_cond.
      - intros a u _. apply map_body.
      - intro a. apply map_item_both.
      - intros a HK1. apply (cinv_weak F (K - 1) _ (fun nx l k => C tk l k \/ c_then (fun nx xs v => TK (hstr nx) tk xs v) (D_map tv) nx l k)); [|intros nx xs k H; apply (D_map_iff tk tv nx); exact H]. unfold map_item.
        apply (cinv_bind F (K - 1) 0 (DE n tk) _ (fun _ => C tk)); [apply (proj1 (TK_both n tk)) | intros; lia | apply Hk; exact HK1|].
        intros x _. apply (cinv_then F _ 0); [apply (colon_inv n) | intros; lia | apply calm_expect|]. intros _ _. apply cinv_map. apply (cinv_le F (K - 1)); [lia | apply Hv; exact HK1].
      - intros a k. apply cinv_calm, calm_ret.
      - exact HK.
    Qed.
    Lemma cfwd_mapk q tk tv : cfwd (fun j => DE j tk) (fun _ => C tk) -> cfwd (fun j => DE j tv) (fun _ => C tv) -> cfwd (fun j => de_map L (DE j) j q tk tv) (map_crash tk tv).
    Proof.
      intros Hk Hv. apply (cfwd_weak F _ (c_loop 123 125 (J_map q tk tv) (fun _ => C_map tk tv) (fun _ _ => False) [])); [|intros nx xs k H; apply map_crash_iff; exact H].
      apply (cfwd_loop F 123 125 KCurlyOpen KCurlyClose (kd_lcur F) (kd_rcur F)) with (cnd := not_close F KCurlyClose) (item := map_item F c G q tk tv)
          (I := fun a => I_map q tk tv a) (fin := fun l => pret l) (w2 := chars ", or }").
      - split; [reflexivity | discriminate].
      - split; [reflexivity | discriminate].
      - discriminate.
      - intros a nx l a'. apply map_J.
      - intros a l a'. apply map_open.
      - intros a l k. apply C_map_open.
      - reflexivity.
      - intros u xs b. apply not_close_cond.
      - intros j a u _. apply map_body.
      - intros n a. apply map_item_both.
      - intros a nx l k H. apply (D_map_iff tk tv nx) in H. destruct H as [H|H]; revert nx l k H; unfold map_item.
        + apply (cfwd_first F (fun j => DE j tk) (fun j x => pbind (p_colon L) (fun _ => pmap (fun y => map_add q x y a) (DE j tv)))). exact Hk.
        + apply (cfwd_then F (fun j => DE j tk) (fun j x => pbind (p_colon L) (fun _ => pmap (fun y => map_add q x y a) (DE j tv)))).
          * apply (proj2 (TK_both O tk)).
          * intro x. apply (cfwd_then F (fun _ => p_colon L) (fun j _ => pmap (fun y => map_add q x y a) (DE j tv))).
            -- exact (proj2 (acc_colon F O)).
            -- intros _. apply cfwd_map. exact Hv.
            -- intros _ nx H. destruct (HC _ _ _ H) as [r [Q|Q]]; discriminate Q.
          * intros _ nx (x1 & x2 & [] & E & -> & _). discriminate E.
      - intros a nx xs k [_ []].
      - intros a [].
    Qed.

    (** Tuples *)
    Definition items_crash (ts : list ty) : crel := fun _ xs k => exists ts1 t ts2 ls l, ts = ts1 ++ t :: ts2 /\ Forall2 taken ts1 ls /\ C t l k /\ xs = XP 91 :: with_commas ls ++ l.
    Lemma i_f2 ts ls : Forall2 taken ts ls <-> exists vs, each_item (TK None) ts ls vs.
    Proof.
      split.
      - induction 1 as [|t l ts ls H _ (vs & IH)]; [exists []; constructor|]. apply taken_TK in H as [v H]. exists (v :: vs). constructor; assumption.
      - intros [vs H]. induction H as [|t l v ts ls vs H _ IH]; constructor; [apply taken_TK; eauto | exact IH].
    Qed.
    Lemma items_crash_iff ts nx xs k : c_fixed 91 (TK None) C ts nx xs k <-> items_crash ts nx xs k.
    Proof.
      split.
      - intros (ts1 & t & ts2 & ls & l & vs & H1 & H2 & H3 & H4). exists ts1, t, ts2, ls, l. split; [exact H1|]. split; [apply i_f2; eauto | auto].
      - intros (ts1 & t & ts2 & ls & l & H1 & H2 & H3 & H4). apply i_f2 in H2 as [vs H2]. exists ts1, t, ts2, ls, l, vs. auto.
    Qed.
    Lemma TK_open t l v : TK None t l v -> exists x r, l = x :: r /\ x <> XP 93.
    Proof. intro H. destruct (shape_open F l (TK_shape _ _ _ _ H)) as (x & r & -> & N1 & _). eauto. Qed.
    Lemma C_open93 t l k : C t l k -> exists x r, l = x :: r /\ x <> XP 93.
    Proof. intro H. destruct (opens_not_close l (HC _ _ _ H)) as (x & r & -> & Hx & _). eauto. Qed.
    Lemma cinv_items K n (p : nat -> ty -> @pm tst val) ts : (forall t, In t ts -> both n (fun j => p j t) (one_rel 93 (TK None) t)) -> (forall t, In t ts -> (1 <= K)%nat -> cinv (K - 1) (p n t) (fun _ => C t)) ->
      cinv K (de_bracketed L Json (map (p n) ts)) (items_crash ts).
    Proof.
      intros Hp Hc. apply (cinv_weak F K _ (c_fixed 91 (TK None) C ts)); [|intros nx xs k H; apply items_crash_iff; exact H].
      apply (cinv_fixed F 91 93 KBlockOpen KBlockClose (kd_lbr F) (kd_rbr F)) with (J := TK None) (C := C) (p := p);
        [split; [reflexivity | discriminate] | exact TK_open | exact C_open93 | exact Hp | exact Hc].
    Qed.
    Lemma cfwd_items (p : nat -> ty -> @pm tst val) ts : (forall t, In t ts -> both O (fun j => p j t) (one_rel 93 (TK None) t)) -> (forall t, In t ts -> cfwd (fun j => p j t) (fun _ => C t)) ->
      cfwd (fun j => de_bracketed L Json (map (p j) ts)) (items_crash ts).
    Proof.
      intros Hp Hc. apply (cfwd_weak F _ (c_fixed 91 (TK None) C ts)); [|intros nx xs k H; apply items_crash_iff; exact H].
      apply (cfwd_fixed F 91 93 KBlockOpen KBlockClose (kd_lbr F)) with (J := TK None) (C := C) (p := p);
        [split; [reflexivity | discriminate] | exact TK_open | exact C_open93 | exact Hp | exact Hc].
    Qed.
    Lemma cinv_item K n t : cinv K (DE n t) (fun _ => C t) -> cinv K (de_item L Json (DE n) t) (fun _ => C t).
    Proof. intro H. apply cinv_first; [exact H|]. intro v. apply calm_bind; [apply calm_comma | intro; apply calm_ret]. Qed.
    Lemma cfwd_item t : cfwd (fun j => DE j t) (fun _ => C t) -> cfwd (fun j => de_item L Json (DE j) t) (fun _ => C t).
    Proof. intro H. apply (cfwd_first F (fun j => DE j t) (fun j v => pbind (eat_tcomma L Json) (fun _ => pret v))). exact H. Qed.
    Lemma block_snd j t u : match snd (DE j t u) with Panic _ | NoFuel => snd (comma_block L Json (DE j) t u) = snd (DE j t u) | _ => match snd (comma_block L Json (DE j) t u) with Ok _ | Err _ => True | _ => False end end.
    Proof.
      unfold comma_block. destruct (DE j t u) as [u1 [v|e|p|]]; cbn [snd]; try reflexivity; pose proof (calm_comma KBlockClose (chars ", or ]") u1) as H; unfold eat_tcomma in *;
        (match goal with |- context [eat_comma L ?a ?b u1] => pose proof (calm_comma a b u1) as H'; destruct (eat_comma L a b u1) as [u2 [x|e2|p|]] end); cbn [snd] in *; auto.
    Qed.
    Lemma cinv_block K n t : cinv K (DE n t) (fun _ => C t) -> cinv K (comma_block L Json (DE n) t) (fun _ => C t).
    Proof.
      intros H u xs0 b Ha Hg Hl. specialize (H u xs0 b Ha Hg Hl). pose proof (block_snd n t u) as Q. destruct (snd (DE n t u)) as [v|e|p|]; [| |rewrite Q; exact H | rewrite Q; exact H];
        destruct (snd (comma_block L Json (DE n) t u)); auto; contradiction.
    Qed.
    Lemma cfwd_block t : cfwd (fun j => DE j t) (fun _ => C t) -> cfwd (fun j => comma_block L Json (DE j) t) (fun _ => C t).
    Proof.
      intros H nx xs k Hk. destruct (H nx xs k Hk) as [N HN]. exists N. intros n Hn rest b u Hh Ht Ha. specialize (HN n Hn rest b u Hh Ht Ha). pose proof (block_snd n t u) as Q.
      rewrite HN in Q. unfold fate in *. destruct (panic_of k); rewrite Q; reflexivity.
    Qed.
    (** A struct with one unnamed field: a value in brackets. *)
    Lemma single_snd j t u : snd (de_bracketed L Json [DE j t] u) = snd (pbind (expect L KBlockOpen (chars "[")) (fun _ => pbind (DE j t) (fun w => pbind (expect L KBlockClose (chars "]")) (fun _ => pret [w]))) u).
    Proof.
      unfold de_bracketed, de_list, pbind. cbn [k_topen k_tclose w_topen w_tclose]. destruct (expect L KBlockOpen (chars "[") u) as [u1 [[]|e|p|]]; try reflexivity. destruct (DE j t u1) as [u2 [w|e|p|]]; reflexivity.
    Qed.
    Lemma single_iff t nx xs k : c_then (r_tok F Json KBlockOpen) (fun _ _ => C t) nx xs k <-> items_crash [t] nx xs k.
    Proof.
      split.
      - intros (x1 & x2 & [] & -> & H1 & H2). apply (r_tok_op F 91 KBlockOpen (kd_lbr F)) in H1. subst x1. exists [], t, [], [], x2. split; [reflexivity|]. split; [constructor|]. auto.
      - intros (ts1 & t' & ts2 & ls & l & E & Hf & Hk & ->). destruct ts1 as [|t1 ts1]; [|destruct ts1; discriminate E]. injection E as <- <-. inversion Hf; subst. cbn [with_commas app].
        exists [XP 91], l, tt. split; [reflexivity|]. split; [apply (r_tok_op F 91 KBlockOpen (kd_lbr F)); reflexivity | exact Hk].
    Qed.
    Lemma cinv_single K n t : ((1 <= K)%nat -> cinv (K - 1) (DE n t) (fun _ => C t)) -> cinv K (de_bracketed L Json [DE n t]) (items_crash [t]).
    Proof.
      intro H. apply (cinv_ext F K (pbind (expect L KBlockOpen (chars "[")) (fun _ => pbind (DE n t) (fun w => pbind (expect L KBlockClose (chars "]")) (fun _ => pret [w]))))); [intro u; symmetry; apply single_snd|]. apply (cinv_weak F K _ (c_then (r_tok F Json KBlockOpen) (fun _ _ => C t))); [|intros nx xs k Hk; apply single_iff; exact Hk].
      assert (Hs : simple KBlockOpen) by (split; [reflexivity | discriminate]).
      apply (cinv_then F K 1 (expect L KBlockOpen (chars "[")) (fun _ => pbind (DE n t) (fun w => pbind (expect L KBlockClose (chars "]")) (fun _ => pret [w]))) (r_tok F Json KBlockOpen) (fun _ _ => C t));
        [exact (proj1 (both_expect F Json n KBlockOpen (chars "[") Hs)) | intros nx xs u (x & -> & _); apply le_n | apply calm_expect|]. intros _ HK.
      apply cinv_first; [apply H; exact HK|]. intro w. apply calm_bind; [apply calm_expect | intro; apply calm_ret].
    Qed.
    Lemma cfwd_single t : cfwd (fun j => DE j t) (fun _ => C t) -> cfwd (fun j => de_bracketed L Json [DE j t]) (items_crash [t]).
    Proof.
      intro H. apply (cfwd_ext F (fun n => pbind (expect L KBlockOpen (chars "[")) (fun _ => pbind (DE n t) (fun w => pbind (expect L KBlockClose (chars "]")) (fun _ => pret [w]))))); [intros n u; symmetry; apply single_snd|]. apply (cfwd_weak F _ (c_then (r_tok F Json KBlockOpen) (fun _ _ => C t))); [|intros nx xs k Hk; apply single_iff; exact Hk].
      apply (cfwd_then F (fun _ => expect L KBlockOpen (chars "[")) (fun j _ => pbind (DE j t) (fun w => pbind (expect L KBlockClose (chars "]")) (fun _ => pret [w])))).
      - assert (Hs : simple KBlockOpen) by (split; [reflexivity | discriminate]). exact (proj2 (both_expect F Json O KBlockOpen (chars "[") Hs)).
      - intros _. apply (cfwd_first F (fun j => DE j t) (fun j w => pbind (expect L KBlockClose (chars "]")) (fun _ => pret [w]))). exact H.
      - intros _ nx Hk. destruct (HC _ _ _ Hk) as [r [Q|Q]]; discriminate Q.
    Qed.

    (** Structs *)
    Definition members_crash (fs : list field) : crel := fun _ xs k =>
      (exists ms ls b f l, Forall2 member_toks ms ls /\ Forall (passed fs) ms /\ In f fs /\ f_skip f = false /\ C (f_ty f) l k /\ xs = XP 123 :: with_commas ls ++ XS b (key_of_field f) :: xcolon :: l) \/
      (exists ms ls b name l, fs <> [] /\ Forall2 member_toks ms ls /\ Forall (passed fs) ms /\ (forall f, In f fs -> f_skip f = false -> key_of_field f <> name) /\
         fatal_value l k /\ xs = XP 123 :: with_commas ls ++ XS b name :: xcolon :: l).
    Section Members.
      Variable fs : list field.
      Hypothesis Hu : distinct_fields fs.
      Definition C_mem (l : list lexeme) (k : crash) : Prop := exists q name ys, l = XS q name :: xcolon :: ys /\
        match find_field name fs 0 with Some (_, f) => C (f_ty f) ys k | None => fatal_value ys k end.
      Lemma passed_ok m : passed fs m <-> mem_ok (TK None) fs m.
      Proof.
        assert (Hf : forall f xs, taken (f_ty f) xs <-> exists w, field_means (TK None) f xs w).
        { intros f xs. rewrite taken_TK. unfold field_means. destruct (f_isopt f && f_hasproxy f); [|reflexivity]. split.
          - intros [v H]. eexists. eexists. split; [reflexivity | exact H].
          - intros (w & v & _ & H). eauto. }
        unfold SpecCrash.passed, mem_ok. split; intros [H1 H2]; (split; [|exact H2]); intros f I1 I2 I3; apply Hf; exact (H1 f I1 I2 I3).
      Qed.
      Lemma run_members ls : (exists a, run (mem_step (TK None) fs) (map (fun _ => None) fs) ls a) <-> exists ms, Forall2 member_toks ms ls /\ Forall (passed fs) ms.
      Proof.
        split.
        - intros [a Hr]. destruct (run_ok (TK None) fs Hu ls _ _ Hr [] (start_ok (TK None) fs)) as (ms & H1 & _ & H3). exists ms. split; [exact H1|]. eapply Forall_impl; [|exact H3]. intros m Hm. apply passed_ok. exact Hm.
        - intros (ms & Hm & Hp). generalize (map (fun _ : field => @None val) fs) as acc. revert Hp. induction Hm as [|[k xs] l ms ls H1 _ IH]; intros Hp acc; [exists acc; constructor|].
          inversion Hp as [|? ? P1 P2]; subst. apply passed_ok in P1. destruct P1 as [O1 O2]. destruct H1 as [b ->]. cbn [fst snd] in *.
          assert (Hs : exists acc', mem_step (TK None) fs acc (XS b k :: xcolon :: xs) acc').
          { destruct (find_field k fs 0) as [[i f]|] eqn:Ef.
            - destruct (find_field_spec _ _ _ _ _ Ef) as (p & -> & Hp' & Hs & Hk). destruct (O1 f) as [w Hw]; [eapply nth_error_In; exact Hp' | exact Hs | exact Hk|].
              eexists. exists b, k, xs. split; [reflexivity|]. rewrite Ef. exists w. split; [exact Hw | reflexivity].
            - exists acc. exists b, k, xs. split; [reflexivity|]. rewrite Ef. split; [|reflexivity]. apply O2. intros g Hg Hs Hk. apply (find_field_none _ _ _ Ef). exists g. auto. }
          destruct Hs as [acc' Hs]. destruct (IH P2 acc') as [a Ha]. exists a. econstructor; eassumption.
      Qed.
      Lemma find_in f : In f fs -> f_skip f = false -> exists i, find_field (key_of_field f) fs 0 = Some (i, f).
      Proof.
        intros Hi Hs. destruct (find_field (key_of_field f) fs 0) as [[i g]|] eqn:Ef.
        - destruct (find_field_spec _ _ _ _ _ Ef) as (p & -> & Hp & Hs2 & Hk). apply In_nth_error in Hi as [q Hq]. assert (q = p) by (eapply (unique_pos fs Hu); [exact Hq | exact Hp | exact Hs | exact Hs2 | congruence]).
          subst q. replace f with g by congruence. eauto.
        - exfalso. apply (find_field_none _ _ _ Ef). exists f. auto.
      Qed.
      Lemma members_crash_iff nx xs k : fs <> [] -> (c_loop 123 125 (mem_step (TK None) fs) (fun _ => C_mem) (fun _ _ => False) (map (fun _ => None) fs) nx xs k <-> members_crash fs nx xs k).
      Proof.
        intro Hne. split.
        - intros [(ls & a & l & Hr & (q & name & ys & -> & Hk) & ->)|(ls & ys & a & _ & _ & _ & [])].
          destruct (proj1 (run_members ls) (ex_intro _ a Hr)) as (ms & Hm & Hp). destruct (find_field name fs 0) as [[i f]|] eqn:Ef.
          + destruct (find_field_spec _ _ _ _ _ Ef) as (p & _ & Hp' & Hs & Hkey). left. exists ms, ls, q, f, ys. split; [exact Hm|]. split; [exact Hp|]. split; [eapply nth_error_In; exact Hp'|].
            split; [exact Hs|]. split; [exact Hk|]. rewrite Hkey. reflexivity.
          + right. exists ms, ls, q, name, ys. split; [exact Hne|]. split; [exact Hm|]. split; [exact Hp|]. split; [|auto]. intros g Hg Hs Hkey. apply (find_field_none _ _ _ Ef). exists g. auto.
        - intros [(ms & ls & b & f & l & Hm & Hp & Hi & Hs & Hk & ->)|(ms & ls & b & name & l & _ & Hm & Hp & Hn & Hk & ->)];
            destruct (proj2 (run_members ls) (ex_intro _ ms (conj Hm Hp))) as [a Hr]; left; exists ls, a; eexists; (split; [exact Hr|]; split; [|reflexivity]).
          + exists b, (key_of_field f), l. split; [reflexivity|]. destruct (find_in f Hi Hs) as [i ->]. exact Hk.
          + exists b, name, l. split; [reflexivity|]. destruct (find_field name fs 0) as [[i f]|] eqn:Ef; [|exact Hk].
            destruct (find_field_spec _ _ _ _ _ Ef) as (p & _ & Hp' & Hs & Hkey). exfalso. exact (Hn f (nth_error_In _ _ Hp') Hs Hkey).
      Qed.
    End Members.
    Lemma calm_unwrap dflt fs : forall acc, calm (unwrap_fields L dflt fs acc).
    Proof.
      induction fs as [|f fs IH]; intros [|o acc]; try (intro u; exact I). cbn [unwrap_fields]. apply calm_bind; [|intro; apply calm_bind; [apply IH | intro; apply calm_ret]].
      unfold unwrap_field. destruct o; [destruct (f_skip f); apply calm_ret|]. repeat (match goal with |- calm (match ?x with _ => _ end) => destruct x | |- calm (if ?x then _ else _) => destruct x end); first [apply calm_ret | apply calm_err | intro; exact I].
    Qed.
    Lemma calm_name : calm g_name.
    Proof.
      intro u. unfold g_name, p_name, p_next_colon. destruct (tok_is (l_tok L u) KStr); [|exact I].
      apply (calm_bind (pbind (l_next L) (fun _ => p_colon L)) (fun _ => pret (l_str L u))); [apply calm_bind; [apply calm_next | intro; apply calm_expect] | intro; apply calm_ret].
    Qed.
    Lemma empty_calm n dflt : calm (de_named L Json (DE (S n)) (S n) dflt []).
    Proof.
      intro u. unfold de_named. unfold pbind at 1. pose proof (calm_expect (k_sopen Json) (w_sopen Json) u) as H1. destruct (expect L (k_sopen Json) (w_sopen Json) u) as [u1 [[]|e|p|]]; cbn [snd] in *; auto.
      unfold pbind at 1. cbn [while_ map]. cbn [k_key]. destruct (tok_is (l_tok L u1) KStr) eqn:Et.
      - apply tok_is_eq in Et. unfold named_body, pbind at 2. cbn [find_field]. unfold pbind, eat_scomma, eat_comma. rewrite Et. exact I.
      - apply (calm_bind (expect L (k_sclose Json) (w_sclose Json)) (fun _ => unwrap_fields L dflt [] [])); [apply calm_expect | intros _; apply calm_unwrap].
    Qed.
    Notation I_mem fs acc := (r_bind (fun _ xs k => exists q, xs = [XS q k; xcolon]) (fun k => match find_field k fs 0 with
               | Some (i, f) => r_map (fun v => set_nth i (Some v) acc) (fun nx xs v => field_means (TK (hstr nx)) f xs v)
               | None => r_map (fun _ : unit => acc) (fun _ xs _ => ignored xs) end)).
    Lemma mem_item_both fs n acc : both n (fun j => mem_item F c G fs j acc) (I_mem fs acc).
    Proof.
      apply (both_bind F Json n (fun _ => g_name) (fun j k => match find_field k fs 0 with
              | Some (i, f) => pmap (fun v => set_nth i (Some v) acc) (de_field (DE j) f)
              | None => pmap (fun _ => acc) (whole_field L j) end)); [apply acc_name|]. intro k. destruct (find_field k fs 0) as [[i f]|].
      - apply both_map. apply (acc_field F c G n TK). intro t. apply TK_both.
      - apply both_map. apply acc_whole.
    Qed.
    Lemma mem_J fs acc nx l acc' : hstr nx = None -> (I_mem fs acc nx l acc' <-> mem_step (TK None) fs acc l acc').
    Proof.
      intro Hn. split.
      - intros (x1 & x2 & k & -> & (q & ->) & H). exists q, k, x2. split; [reflexivity|]. destruct (find_field k fs 0) as [[i f]|]; [|destruct H as ([] & -> & H); auto].
        destruct H as (v & -> & H). rewrite Hn in H. eauto.
      - intros (q & k & ys & -> & H). exists [XS q k; xcolon], ys, k. split; [reflexivity|]. split; [eauto|]. destruct (find_field k fs 0) as [[i f]|]; [|destruct H as (H & ->); exists tt; auto].
        destruct H as (v & H & ->). exists v. rewrite Hn. auto.
    Qed.
    Lemma named_body_eq fs j acc u : fs <> [] -> tok_is (l_tok L u) KStr = true -> named_body L Json (DE j) j fs acc u = body_of KCurlyClose (chars ", or }") (mem_item F c G fs j) acc u.
    Proof.
      intros Hne Hc. unfold named_body, body_of, mem_item. apply pbind_ext; [|reflexivity]. unfold g_name, p_name, pbind, key_of. rewrite Hc.
      destruct (find_field (l_str L u) fs 0) as [[i f]|] eqn:Ef.
      - destruct (p_next_colon L u) as [u1 [[]|e|p|]]; try reflexivity. unfold pret at 2. rewrite Ef. reflexivity.
      - destruct fs as [|f1 fs1]; [congruence|]. destruct (p_next_colon L u) as [u1 [[]|e|p|]]; try reflexivity. unfold pret at 2. rewrite Ef. reflexivity.
    Qed.
    Lemma C_mem_iff fs nx l k : c_then (fun _ xs name => exists q, xs = [XS q name; xcolon]) (fun name _ ys k => match find_field name fs 0 with Some (_, f) => C (f_ty f) ys k | None => fatal_value ys k end) nx l k <-> C_mem fs l k.
    Proof.
      split.
      - intros (x1 & x2 & name & -> & (q & ->) & H). exists q, name, x2. auto.
      - intros (q & name & ys & -> & H). exists [XS q name; xcolon], ys, name. split; [reflexivity|]. split; [eauto | exact H].
    Qed.
    Lemma C_mem_open fs l k : C_mem fs l k -> exists x r, l = x :: r /\ str_next F (Some x) = true.
    Proof. intros (q & name & ys & -> & _). eexists. eexists. split; reflexivity. Qed.
    Lemma de_field_cinv K n f : cinv K (DE n (f_ty f)) (fun _ => C (f_ty f)) -> cinv K (de_field (DE n) f) (fun _ => C (f_ty f)).
    Proof. intro H. unfold de_field. destruct (f_isopt f && f_hasproxy f); [apply cinv_map|]; exact H. Qed.
    Lemma de_field_cfwd f : cfwd (fun j => DE j (f_ty f)) (fun _ => C (f_ty f)) -> cfwd (fun j => de_field (DE j) f) (fun _ => C (f_ty f)).
    Proof. intro H. unfold de_field. destruct (f_isopt f && f_hasproxy f); [apply cfwd_map|]; exact H. Qed.
    Lemma cinv_named K n dflt fs : distinct_fields fs -> (forall f, In f fs -> (1 <= K)%nat -> cinv (K - 1) (DE n (f_ty f)) (fun _ => C (f_ty f))) -> (K < n)%nat ->
      cinv K (de_named L Json (DE n) n dflt fs) (members_crash fs).
    Proof.
      intros Hu Hf HK. assert (Hc : fs = [] \/ fs <> []) by (destruct fs; [left; reflexivity | right; discriminate]). destruct Hc as [-> |Hne].
      { destruct n as [|n]; [lia|]. apply cinv_calm, empty_calm. }
      apply (cinv_weak F K _ (c_loop 123 125 (mem_step (TK None) fs) (fun _ => C_mem fs) (fun _ _ => False) (map (fun _ => None) fs))); [|intros nx xs k H; apply (members_crash_iff fs Hu nx xs k Hne); exact H].
      apply (cinv_loop F 123 125 KCurlyOpen KCurlyClose (kd_lcur F) (kd_rcur F)) with (cnd := str_next F) (item := mem_item F c G fs)
            (I := fun acc => I_mem fs acc) (fin := fun l => unwrap_fields L dflt fs l) (w2 := chars ", or }").
      - split; [reflexivity | discriminate].
      - split; [reflexivity | discriminate].
      - discriminate.
      - intros a nx l a'. apply mem_J.
      - intros acc l acc' (q & k & ys & -> & _). eexists. eexists. split; reflexivity.
      - intros a l k. apply C_mem_open.
      - reflexivity.
      - intros u xs b Ha. unfold k_key. rewrite (atx_tok F Json _ _ _ Ha). reflexivity.
      - intros a u Hc. apply named_body_eq; [exact Hne | exact Hc].
      - intro a. apply mem_item_both.
      - intros a HK1. eapply cinv_weak; [|intros nx xs k H; apply (C_mem_iff fs nx); exact H]. unfold mem_item.
        apply (cinv_then F (K - 1) 0); [apply (proj1 (acc_name F n)) | intros; lia | apply calm_name|]. intros name _. destruct (find_field name fs 0) as [[i f]|] eqn:Ef.
        + destruct (find_field_spec _ _ _ _ _ Ef) as (p & _ & Hp' & _). apply cinv_map. apply de_field_cinv. apply (cinv_le F (K - 1)); [lia|]. apply Hf; [eapply nth_error_In; exact Hp' | exact HK1].
        + apply cinv_map. apply cinv_whole. lia.
      - intros a k. apply cinv_calm, calm_unwrap.
      - exact HK.
    Qed.
    Lemma cfwd_named dflt fs : distinct_fields fs -> (forall f, In f fs -> cfwd (fun j => DE j (f_ty f)) (fun _ => C (f_ty f))) -> cfwd (fun j => de_named L Json (DE j) j dflt fs) (members_crash fs).
    Proof.
      intros Hu Hf. assert (Hc : fs = [] \/ fs <> []) by (destruct fs; [left; reflexivity | right; discriminate]). destruct Hc as [-> |Hne].
      { intros nx xs k [(ms & ls & b & f & l & _ & _ & [] & _)|(ms & ls & b & name & l & Q & _)]. congruence. }
      apply (cfwd_weak F _ (c_loop 123 125 (mem_step (TK None) fs) (fun _ => C_mem fs) (fun _ _ => False) (map (fun _ => None) fs))); [|intros nx xs k H; apply (members_crash_iff fs Hu nx xs k Hne); exact H].
      apply (cfwd_loop F 123 125 KCurlyOpen KCurlyClose (kd_lcur F) (kd_rcur F)) with (cnd := str_next F) (item := mem_item F c G fs)
            (I := fun acc => I_mem fs acc) (fin := fun l => unwrap_fields L dflt fs l) (w2 := chars ", or }").
      - split; [reflexivity | discriminate].
      - split; [reflexivity | discriminate].
      - discriminate.
      - intros a nx l a'. apply mem_J.
      - intros acc l acc' (q & k & ys & -> & _). eexists. eexists. split; reflexivity.
      - intros a l k. apply C_mem_open.
      - reflexivity.
      - intros u xs b Ha. unfold k_key. rewrite (atx_tok F Json _ _ _ Ha). reflexivity.
      - intros j a u Hc. apply named_body_eq; [exact Hne | exact Hc].
      - intros n a. apply mem_item_both.
      - intros a nx l k H. apply (C_mem_iff fs nx) in H. revert nx l k H. unfold mem_item.
        apply (cfwd_then F (fun _ => g_name) (fun j k => match find_field k fs 0 with
              | Some (i, f) => pmap (fun v => set_nth i (Some v) a) (de_field (DE j) f)
              | None => pmap (fun _ => a) (whole_field L j) end)).
        + apply (proj2 (acc_name F O)).
        + intro name. destruct (find_field name fs 0) as [[i f]|] eqn:Ef.
          * destruct (find_field_spec _ _ _ _ _ Ef) as (p & _ & Hp' & _). apply cfwd_map. apply de_field_cfwd. apply Hf. eapply nth_error_In; exact Hp'.
          * apply cfwd_map. apply cfwd_whole.
        + intros name nx H. destruct (find_field name fs 0) as [[i f]|].
          * destruct (HC _ _ _ H) as [r [Q|Q]]; discriminate Q.
          * destruct H as (p & Q & _). discriminate Q.
      - intros a nx xs k [_ []].
      - intros a [].
    Qed.
  End Parts.
End All.
