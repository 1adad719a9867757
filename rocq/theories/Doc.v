(** Reading a JSON text is reading the document it denotes. *)
From Verif Require Import Base Utf8 Types BinModel Text TextModel TextSim TextToks TextLex TextRead SpecText SpecGram SpecList TextRound TextGram TextFuel TextLocal TextRun SpecObj TextEmbed TextObj TextList PropsObj PropsList PropsTok SpecDoc.
Local Open Scope N_scope.

Lemma f2_impl {A B} (R S : A -> B -> Prop) l1 l2 : (forall a b, R a b -> S a b) -> Forall2 R l1 l2 -> Forall2 S l1 l2.
Proof. intros H. induction 1; constructor; auto. Qed.

(** ** Induction on documents *)
Section DocInd.
  Variable P : doc -> Prop.
  Hypotheses (H1 : P JNull) (H2 : forall b, P (JBool b)) (H3 : forall s, P (JNum s)) (H4 : forall s, P (JStr s))
    (H5 : forall l, Forall P l -> P (JArr l)) (H6 : forall ms, Forall (fun m => P (snd m)) ms -> P (JObj ms)).
  Fixpoint doc_induct (d : doc) : P d :=
    match d with
    | JNull => H1 | JBool b => H2 b | JNum s => H3 s | JStr s => H4 s
    | JArr l => H5 l ((fix go l := match l return Forall P l with [] => Forall_nil _ | x :: r => Forall_cons _ (doc_induct x) (go r) end) l)
    | JObj ms => H6 ms ((fix go l := match l return Forall (fun m => P (snd m)) l with [] => Forall_nil _ | x :: r => Forall_cons _ (doc_induct (snd x)) (go r) end) ms)
    end.
End DocInd.

(** ** More fuel *)
Lemma tuple_means_impl {dc} (m m' : ty -> dc -> val -> Prop) ts ds vs : (forall t d v, m t d v -> m' t d v) -> tuple_means m ts ds vs -> tuple_means m' ts ds vs.
Proof. intros H. induction 1; constructor; auto. Qed.
Lemma field_means_impl {dc} (m m' : ty -> dc -> val -> Prop) f d v : (forall t d v, m t d v -> m' t d v) -> field_means m f d v -> field_means m' f d v.
Proof. intro H. unfold field_means. destruct (f_isopt f && f_hasproxy f); [intros (w & -> & Hw); eauto | auto]. Qed.
Lemma fields_means_impl {dc} (m m' : ty -> dc -> val -> Prop) dflt fs ms vs : (forall t d v, m t d v -> m' t d v) -> fields_means m dflt fs ms vs -> fields_means m' dflt fs ms vs.
Proof.
  intros H (H1 & H2 & H3). split; [|split; [|exact H3]].
  - eapply f2_impl; [|exact H1]. intros f v. unfold field_from. destruct (f_skip f); [auto|]. intros [(d & Hd & Hv)|Hv]; [|auto].
    left. exists d. split; [exact Hd | eapply field_means_impl; eauto].
  - intros k d f A B C D. destruct (H2 k d f A B C D) as [w Hw]. exists w. eapply field_means_impl; eauto.
Qed.
Lemma means_S F c G : forall n t d v, means F c G n t d v -> means F c G (S n) t d v.
Proof.
  induction n as [|n IH]; intros t d v H; [contradiction|].
  assert (IT : forall ts ds vs, tuple_means (means F c G n) ts ds vs -> tuple_means (means F c G (S n)) ts ds vs) by (intros; eapply tuple_means_impl; [exact IH | eassumption]).
  assert (IF : forall dflt fs ms vs, fields_means (means F c G n) dflt fs ms vs -> fields_means (means F c G (S n)) dflt fs ms vs) by (intros; eapply fields_means_impl; [exact IH | eassumption]).
  remember (S n) as m eqn:Em. cbn [means]. rewrite Em in H. cbn [means] in H. destruct t; try exact H.
  - destruct H as [H|(H & w & H1 & H2)]; [auto|]. right. split; [exact H|]. exists w. auto.
  - destruct H as (ds & ws & H1 & H2 & H3). exists ds, ws. split; [exact H1|]. split; [|exact H3]. eapply f2_impl; [|exact H2]. auto.
  - destruct H as (ds & ws & H1 & H2 & H3). exists ds, ws. split; [exact H1|]. split; [|exact H3]. eapply f2_impl; [|exact H2]. intros a b [A B]; auto.
  - destruct H as (ds & ws & H1 & H2 & H3 & H4). exists ds, ws. split; [exact H1|]. split; [exact H2|]. split; [|exact H4]. eapply f2_impl; [|exact H3]. auto.
  - destruct H as (H0 & ds & ws & H1 & H2 & H3). split; [exact H0|]. exists ds, ws. auto.
  - apply IH. exact H.
  - destruct H as (w & H1 & H2). exists w. auto.
  - match goal with |- context [nth_error G ?j] => destruct (nth_error G j) as [[dflt cn fs|tr fs|vs|p t']|] end; try exact H.
    + destruct H as (ms & vs & H1 & H2 & H3). exists ms, vs. auto.
    + destruct H as [H0 H]. split; [exact H0|]. destruct fs as [|f [|f2 fs]]; [exact H | |].
      * destruct tr; [destruct H as (w & H1 & H2); exists w; auto | destruct H as (ds & ws & H1 & H2 & H3); exists ds, ws; auto].
      * destruct H as (ds & ws & H1 & H2 & H3). exists ds, ws. auto.
    + destruct H as (tag & vr & H1 & H2). exists tag, vr. split; [exact H1|]. destruct (v_body vr); [exact H2 | |];
        destruct H2 as (ds & ws & A & B & C); exists ds, ws; auto.
    + destruct H as (w & H1 & H2). exists w. auto.
Qed.
Lemma means_le F c G n m t d v : (n <= m)%nat -> means F c G n t d v -> means F c G m t d v.
Proof. induction 1; [auto | intro H2; apply means_S; auto]. Qed.

(** ** The tokens of a document *)
Section Toks.
  Variable F : flt.
  Notation lexs := (lexs F Json).
  Notation lexes := (lexes F Json).
  Notation lexes_any := (lexes_any F Json).
  Notation vtext := (vtext F Json).
  Notation mtok := (mtok F Json).

  Fixpoint dtoks (d : doc) : list ltok :=
    match d with
    | JNull => [LP KNull] | JBool b => [LP (KBool b)] | JNum s => fst (lexs s) | JStr s => [LStr s]
    | JArr l => LP KBlockOpen :: jt (map dtoks l) false ++ [LP KBlockClose]
    | JObj ms => LP KCurlyOpen :: jt (map (fun m => LStr (fst m) :: LP KColon :: dtoks (snd m)) ms) false ++ [LP KCurlyClose]
    end.
  Definition mtoks (m : str * doc) : list ltok := LStr (fst m) :: LP KColon :: dtoks (snd m).

  Lemma num_dtoks s : number_ok F s -> exists t, num_value F s t /\ dtoks (JNum s) = [LP t] /\ lexes s [LP t] /\ scalar_tok Json (LP t) = true.
  Proof.
    intro H. destruct (number_tok F s H) as [t Ht]. destruct (lexes_number F Json s t Ht) as [L S]. exists t. split; [exact Ht|].
    split; [|auto]. cbn [dtoks]. rewrite (lexes_end F Json _ _ L). reflexivity.
  Qed.

  Lemma jt_map_cons {A} (f : A -> list ltok) a l : l <> [] -> jt (map f (a :: l)) false = f a ++ [LP KComma] ++ jt (map f l) false.
  Proof. destruct l as [|b l]; [congruence|]. reflexivity. Qed.
  Lemma around a x b l : gap a -> gap b -> lexes x l -> lexes (a ++ x ++ b) l.
  Proof.
    intros Ha Hb Hx. rewrite <- (app_nil_l l). apply lexes_app_r; [apply gap_lexes; exact Ha|].
    rewrite <- (app_nil_r l). apply lexes_app; [exact Hx | apply lexes_weak, gap_lexes; exact Hb | apply gap_bound; exact Hb].
  Qed.
  Lemma member_lex a kb k b c x e l : gap a -> chars_of kb k -> gap b -> gap c -> gap e -> lexes x l ->
    lexes (a ++ quoted kb ++ b ++ [58] ++ c ++ x ++ e) (LStr k :: LP KColon :: l).
  Proof.
    intros Ha Hk Hb Hc He Hx. apply (lexes_app_r F Json a _ [] _); [apply gap_lexes; exact Ha|].
    apply (lexes_app_r F Json (quoted kb) _ [LStr k] _); [apply lexes_quoted; exact Hk|].
    apply (lexes_app_r F Json b _ [] _); [apply gap_lexes; exact Hb|].
    apply (lexes_app_r F Json [58] _ [LP KColon] _); [apply lexes_punct; reflexivity|]. apply around; assumption.
  Qed.

  Lemma denotes_lexes :
    (forall d x, denotes F d x -> lexes x (dtoks d) /\ vtoks Json (dtoks d)) /\
    (forall l s, elements_of F l s -> l <> [] /\ lexes s (jt (map dtoks l) false) /\ Forall (fun d => vtoks Json (dtoks d)) l /\
       exists xs, Forall2 (denotes F) l xs) /\
    (forall ms s, members_of F ms s -> ms <> [] /\ lexes s (jt (map mtoks ms) false) /\ Forall (fun m => vtoks Json (dtoks (snd m))) ms /\
       exists xs, Forall2 (fun m x => denotes F (snd m) x) ms xs).
  Proof.
    apply denotes_mutind.
    - split; [apply lexes_word; try reflexivity; discriminate | apply vt_scalar; reflexivity].
    - split; [apply lexes_word; try reflexivity; discriminate | apply vt_scalar; reflexivity].
    - split; [apply lexes_word; try reflexivity; discriminate | apply vt_scalar; reflexivity].
    - intros s H. destruct (num_dtoks s H) as (t & _ & -> & L & S). split; [exact L | apply vt_scalar; exact S].
    - intros b s H. split; [apply lexes_weak, lexes_quoted; exact H | apply vt_scalar; reflexivity].
    - intros g H. split; [|apply (vt_group Json KBlockOpen KBlockClose []); [left; auto | constructor]].
      apply lexes_weak. apply (lexes_wrap F Json 91 93 KBlockOpen KBlockClose g []); try reflexivity. apply lexes_weak, gap_lexes; exact H.
    - intros l s _ (_ & L & V & _). split.
      + apply lexes_weak. apply (lexes_wrap F Json 91 93 KBlockOpen KBlockClose s); try reflexivity. exact L.
      + apply (vt_group Json KBlockOpen KBlockClose); [left; auto|]. apply jt_bal. rewrite Forall_map. eapply Forall_impl; [|exact V].
        intros d. apply vtoks_bal.
    - intros g H. split; [|apply (vt_group Json KCurlyOpen KCurlyClose []); [right; left; auto | constructor]].
      apply lexes_weak. apply (lexes_wrap F Json 123 125 KCurlyOpen KCurlyClose g []); try reflexivity. apply lexes_weak, gap_lexes; exact H.
    - intros ms s _ (_ & L & V & _). split.
      + apply lexes_weak. apply (lexes_wrap F Json 123 125 KCurlyOpen KCurlyClose s); try reflexivity. exact L.
      + apply (vt_group Json KCurlyOpen KCurlyClose); [right; left; auto|]. apply jt_bal. rewrite Forall_map. eapply Forall_impl; [|exact V].
        intros m Hm. apply bal_cons; [reflexivity|]. apply bal_cons; [reflexivity|]. eapply vtoks_bal; exact Hm.
    - intros a d x b Ha Hd [L V] Hb. split; [discriminate|]. split; [|split; [auto | exists [x]; auto]].
      cbn [map jt]. rewrite app_nil_r. apply around; assumption.
    - intros a d x b l s Ha Hd [L V] Hb Hl (Hne & L2 & V2 & xs & X2). split; [discriminate|]. split; [|split; [auto | exists (x :: xs); auto]].
      rewrite jt_map_cons by exact Hne. rewrite !app_assoc. rewrite <- (app_assoc _ _ s). rewrite <- (app_assoc a x b).
      rewrite <- (app_assoc (dtoks d)).
      apply lexes_app; [apply around; assumption | | right; reflexivity]. apply lexes_app_r; [apply lexes_punct; reflexivity | exact L2].
    - intros a k kb b c d x e Ha Hk Hb Hc Hd [L V] He. split; [discriminate|]. split; [|split; [auto | exists [x]; auto]].
      cbn [map jt]. rewrite app_nil_r. apply member_lex; assumption.
    - intros a k kb b c d x e ms s Ha Hk Hb Hc Hd [L V] He Hm (Hne & L2 & V2 & xs & X2). split; [discriminate|].
      split; [|split; [auto | exists (x :: xs); auto]].
      rewrite jt_map_cons by exact Hne.
      replace (a ++ quoted kb ++ b ++ [58] ++ c ++ x ++ e ++ [44] ++ s) with ((a ++ quoted kb ++ b ++ [58] ++ c ++ x ++ e) ++ [44] ++ s)
        by (rewrite <- !app_assoc; reflexivity).
      apply lexes_app; [apply member_lex; assumption | | right; reflexivity]. apply lexes_app_r; [apply lexes_punct; reflexivity | exact L2].
  Qed.

  (** What is used below of a document: it has a text. *)
  Definition has_text (d : doc) : Prop := exists x, denotes F d x.
  Lemma text_tokens d text : document F d text -> lexs text = (dtoks d, false) /\ has_text d.
  Proof.
    intros (g1 & x & g2 & -> & Hg1 & Hg2 & Hd). split; [|exists x; exact Hd]. apply lexes_end, around; try assumption.
    apply denotes_lexes. exact Hd.
  Qed.
  Lemma denotes_vtext d x : denotes F d x -> vtext x (dtoks d).
  Proof.
    intro H. apply denotes_lexes in H as [L V]. split; [exact L|]. split; [exact V|]. split; [|discriminate].
    intros s o r E. rewrite E in V. inversion V; try discriminate.
  Qed.
  Lemma arr_text l : has_text (JArr l) -> exists xs, Forall2 (denotes F) l xs.
  Proof.
    intros [x H]. inversion H; subst; [exists []; constructor|]. match goal with H : elements_of _ _ _ |- _ => apply denotes_lexes in H as (_ & _ & _ & H) end. assumption.
  Qed.
  Lemma obj_text ms : has_text (JObj ms) -> exists xs, Forall2 (fun m x => denotes F (snd m) x) ms xs.
  Proof.
    intros [x H]. inversion H; subst; [exists []; constructor|]. match goal with H : members_of _ _ _ |- _ => apply denotes_lexes in H as (_ & _ & _ & H) end. assumption.
  Qed.
  Lemma num_text s : has_text (JNum s) -> number_ok F s.
  Proof. intros [x H]. inversion H; subst. assumption. Qed.
End Toks.

(** ** Numbers *)
Definition ik_eq_dec (a b : ik) : {a = b} + {a <> b}. Proof. decide equality. Defined.
Section Nums.
  Variables (F : flt) (c : cfg).
  Lemma num_value_fun s t t' : num_value F s t -> num_value F s t' -> t = t'.
  Proof.
    intros H H'. destruct (lexes_number F Json s t H) as [L _]. destruct (lexes_number F Json s t' H') as [L' _].
    apply lexes_end in L, L'. rewrite L in L'. congruence.
  Qed.
  Lemma literal_tok s sg d t : num_value F s t -> int_literal s sg d ->
    match sg with [] => t = KU64 (decimal d) /\ decimal d < 2 ^ 64 | _ => t = KI64 (- Z.of_N (decimal d)) /\ decimal d <= 2 ^ 63 end.
  Proof.
    intros H (-> & Hsg & Hd). destruct (lexes_number F Json _ t H) as [L _]. apply lexes_end in L.
    assert (Ht : int_text sg d (sg ++ d)).
    { exists [], []. cbn [app]. rewrite app_nil_r. split; [reflexivity|]. split; [constructor|]. split; [constructor|]. auto. }
    rewrite (int_lexs F Json sg d _ Ht) in L. destruct sg as [|x sg].
    - destruct (decimal d <? 2 ^ 64) eqn:E; [|discriminate]. apply N.ltb_lt in E. split; [congruence | exact E].
    - destruct (decimal d <=? 2 ^ 63) eqn:E; [|discriminate]. apply N.leb_le in E. split; [congruence | exact E].
  Qed.
  Lemma tok_literal s t : num_value F s t -> match t with KU64 _ | KI64 _ => exists sg d, int_literal s sg d | KF64 _ => forall sg d, ~ int_literal s sg d | _ => False end.
  Proof.
    intro Hv. destruct (Hv) as (sg & ip & fr & ex & E & (Hsg & Hip & _) & _ & H).
    assert (Hk : forall b, t = KF64 b -> forall sg d, ~ int_literal s sg d).
    { intros b Et sg' d' Hl. pose proof (literal_tok s sg' d' t Hv Hl) as Q. destruct sg'; destruct Q as [Q _]; congruence. }
    destruct fr as [|x fr]; [destruct ex as [|y ex]|].
    - rewrite !app_nil_r in E. destruct sg as [|z sg]; destruct H as [_ ->]; eexists _, ip; (split; [exact E | auto]).
    - destruct H as (b & _ & ->). exact (Hk b eq_refl).
    - destruct H as (b & _ & ->). exact (Hk b eq_refl).
  Qed.

  Definition int_of_tok (k : ik) (t : tok) : option Z :=
    if ik_signed k then
      match t with
      | KI64 v => if (v <? - i_bound k)%Z then None else Some (cast c k v)
      | KU64 v => if (i_bound k - 1 <? u64_as_i64 v)%Z then None else Some (cast c k (u64_as_i64 v))
      | _ => None
      end
    else match t with KU64 v => if u_max k <? v then None else Some (cast c k (Z.of_N v)) | _ => None end.

  Lemma cast_spec k z : k <> U128 -> k <> I128 -> k <> Usize ->
    int_ok c k (cast c k z) /\ exists q, (z = cast c k z + q * 2 ^ (8 * Z.of_nat (ik_bytes k)))%Z.
  Proof.
    intros K1 K2 K3. assert (Hm : forall m, (0 < m)%Z -> (0 <= z mod m < m)%Z /\ (z = z mod m + z / m * m)%Z).
    { intros m Hm. split; [apply Z.mod_pos_bound; exact Hm|]. rewrite (Z.div_mod z m) at 1 by lia. lia. }
    unfold int_ok, cast, ik_min, ik_sup, of_bits, to_bits.
    destruct k; try congruence; cbn [ik_signed ik_bytes andb];
      match goal with |- context [(z mod ?m)%Z] => let v := eval vm_compute in m in change m with v; destruct (Hm v ltac:(reflexivity)) as [B D]; set (q := (z / v)%Z) in *; set (r := (z mod v)%Z) in * end.
    all: match goal with
         | |- context [if ?b then _ else _] => destruct b eqn:E; [apply Z.leb_le in E | apply Z.leb_gt in E]; (rewrite Z2N.id in E by lia);
             (rewrite Z2N.id by lia)
         | _ => rewrite Z2N.id by lia
         end.
    all: cbn -[Z.mul Z.add] in *.
    all: (split; [lia|]).
    all: first [ exists q; lia | exists (q + 1)%Z; lia ].
  Qed.
  Lemma same_class k z1 z2 q : k <> Usize -> int_ok c k z1 -> int_ok c k z2 -> (z1 = z2 + q * 2 ^ (8 * Z.of_nat (ik_bytes k)))%Z -> z1 = z2.
  Proof. unfold int_ok, ik_min, ik_sup. destruct k; cbn -[Z.mul Z.add]; try congruence; lia. Qed.
  Lemma usize_class z q r : (0 <= z < Z.of_N (usize_mod c))%Z -> r = (z + q * 2 ^ Z.of_N (usize_bits c))%Z -> (r mod Z.of_N (usize_mod c))%Z = z.
  Proof.
    intros Hz ->. unfold usize_mod in *. rewrite N2Z.inj_pow in *. change (Z.of_N 2) with 2%Z in *. rewrite Z.mod_add by (apply Z.pow_nonzero; lia).
    apply Z.mod_small. exact Hz.
  Qed.
  Lemma cast_ok k z : k <> U128 -> k <> I128 -> int_ok c k z -> cast c k z = z.
  Proof.
    intros K1 K2 Hz. destruct (ik_eq_dec k Usize) as [->|K3].
    - unfold cast. apply (usize_class z 0); [exact Hz | lia].
    - destruct (cast_spec k z K1 K2 K3) as [H1 [q Hq]]. symmetry. eapply same_class; eassumption.
  Qed.
  Lemma ibound_range k : ik_signed k = true -> k <> I128 -> (ik_min k = - i_bound k /\ ik_sup c k = i_bound k /\ i_bound k <= 2 ^ 63)%Z.
  Proof. destruct k; try discriminate; try congruence; intros _ _; cbn; lia. Qed.
  Lemma u_range k : ik_signed k = false -> k <> U128 -> k <> Usize -> (ik_min k = 0 /\ ik_sup c k = Z.of_N (u_max k) + 1)%Z.
  Proof. destruct k; try discriminate; try congruence; intros _ _ _; cbn; lia. Qed.

  Lemma int_of_tok_means k s t z : k <> U128 -> k <> I128 -> num_value F s t -> (int_of_tok k t = Some z <-> int_means c k s z).
  Proof.
    intros K1 K2 Hv. pose proof (tok_literal s t Hv) as Hl. unfold int_means, int_of_tok. split.
    - intro H. split; [exact K1|]. split; [exact K2|].
      assert (Hex : exists sg d, int_literal s sg d).
      { destruct t; try contradiction; try exact Hl. destruct (ik_signed k); discriminate. }
      destruct Hex as (sg & d & Hd). pose proof (literal_tok s sg d t Hv Hd) as Ht. destruct (ik_signed k) eqn:Es.
      + destruct (ibound_range k Es K2) as (R1 & R2 & R3). assert (K3 : k <> Usize) by (intros ->; discriminate).
        destruct sg as [|x sg]; destruct Ht as [-> Hb].
        * destruct (_ <? _)%Z eqn:El; [discriminate|]. apply Z.ltb_ge in El. injection H as <-.
          destruct (cast_spec k (u64_as_i64 (decimal d)) K1 K2 K3) as [Hc [q Hq]].
          split; [exact Hc|]. exists [], d. split; [exact Hd|]. cbn [signed_value]. unfold u64_as_i64 in *.
          destruct (decimal d <? 2 ^ 63) eqn:E63; [apply N.ltb_lt in E63 | apply N.ltb_ge in E63].
          -- left. symmetry. apply cast_ok; try assumption. unfold int_ok. lia.
          -- right. split; [lia|]. set (m := cast c k (Z.of_N (decimal d) - 2 ^ 64)) in *. clearbody m. clear Hc.
             assert (Hdv : exists j, (2 ^ 64 = j * 2 ^ (8 * Z.of_nat (ik_bytes k)))%Z).
             { destruct k; try discriminate; try congruence; cbn -[Z.mul]; [exists (2 ^ 56)%Z | exists (2 ^ 48)%Z | exists (2 ^ 32)%Z | exists 1%Z]; reflexivity. }
             destruct Hdv as [j Hj]. exists (q + j)%Z. lia.
        * destruct (_ <? _)%Z eqn:El; [discriminate|]. apply Z.ltb_ge in El. injection H as <-.
          assert (Ho : int_ok c k (- Z.of_N (decimal d))).
          { unfold int_ok. split; [lia|]. assert (0 < i_bound k)%Z by (destruct k; cbn; lia). lia. }
          rewrite cast_ok by assumption. split; [exact Ho|]. exists (x :: sg), d. split; [exact Hd|]. left. reflexivity.
      + destruct t; try discriminate H. destruct (_ <? _) eqn:El; [discriminate|]. apply N.ltb_ge in El. injection H as <-.
        destruct sg as [|x sg]; destruct Ht as [Ht Hb]; [|discriminate]. injection Ht as ->.
        destruct (ik_eq_dec k Usize) as [->|K3].
        * unfold cast. assert (Hp : (0 < Z.of_N (usize_mod c))%Z) by (unfold usize_mod; rewrite N2Z.inj_pow; apply Z.pow_pos_nonneg; lia).
          split; [unfold int_ok; cbn [ik_min ik_signed ik_sup]; apply Z.mod_pos_bound; exact Hp|].
          exists [], d. split; [exact Hd|]. split; [reflexivity|]. right. split; [reflexivity|]. exists (Z.of_N (decimal d) / Z.of_N (usize_mod c))%Z.
          cbn [signed_value]. rewrite (Z.div_mod (Z.of_N (decimal d)) (Z.of_N (usize_mod c))) at 1 by lia.
          replace (2 ^ Z.of_N (usize_bits c))%Z with (Z.of_N (usize_mod c)) by (unfold usize_mod; rewrite N2Z.inj_pow; reflexivity). lia.
        * destruct (u_range k Es K1 K3) as [R1 R2].
          assert (Ho : int_ok c k (Z.of_N (decimal d))) by (unfold int_ok; lia). rewrite cast_ok by assumption.
          split; [exact Ho|]. exists [], d. split; [exact Hd|]. split; [reflexivity|]. left. reflexivity.
    - intros (_ & _ & Ho & sg & d & Hd & H). pose proof (literal_tok s sg d t Hv Hd) as Ht. destruct (ik_signed k) eqn:Es.
      + destruct (ibound_range k Es K2) as (R1 & R2 & R3). assert (K3 : k <> Usize) by (intros ->; discriminate). unfold int_ok in Ho.
        destruct sg as [|x sg]; destruct Ht as [-> Hb]; cbn [signed_value] in H.
        * unfold u64_as_i64. destruct H as [H|[H1 [q H2]]].
          -- assert (E63 : decimal d <? 2 ^ 63 = true) by (apply N.ltb_lt; lia). rewrite E63.
             replace (_ <? _)%Z with false by (symmetry; apply Z.ltb_ge; lia). f_equal. rewrite H. apply cast_ok; assumption.
          -- assert (E63 : decimal d <? 2 ^ 63 = false) by (apply N.ltb_ge; lia). rewrite E63.
             assert (0 < i_bound k)%Z by (destruct k; cbn; lia).
             replace (_ <? _)%Z with false by (symmetry; apply Z.ltb_ge; lia). f_equal.
             destruct (cast_spec k (Z.of_N (decimal d) - 2 ^ 64) K1 K2 K3) as [Hc [q' Hq']].
             assert (Hdv : exists j, (2 ^ 64 = j * 2 ^ (8 * Z.of_nat (ik_bytes k)))%Z).
             { destruct k; try discriminate; try congruence; cbn -[Z.mul]; [exists (2 ^ 56)%Z | exists (2 ^ 48)%Z | exists (2 ^ 32)%Z | exists 1%Z]; reflexivity. }
             destruct Hdv as [j Hj]. apply (same_class k _ z (q - j - q')%Z); try assumption. lia.
        * destruct H as [H|[H1 _]]; [|lia]. replace (_ <? _)%Z with false by (symmetry; apply Z.ltb_ge; lia). f_equal. rewrite H. apply cast_ok; assumption.
      + destruct H as [-> H]. destruct Ht as [-> Hb]. cbn [signed_value] in H. destruct (ik_eq_dec k Usize) as [->|K3].
        * replace (_ <? _) with false by (symmetry; apply N.ltb_ge; cbn; lia). f_equal. unfold cast.
          destruct H as [H|[_ [q H]]]; [apply (usize_class z 0); [exact Ho | lia] | apply (usize_class z q); [exact Ho | exact H]].
        * destruct (u_range k Es K1 K3) as [R1 R2]. unfold int_ok in Ho. destruct H as [H|[-> _]]; [|congruence].
          replace (_ <? _) with false by (symmetry; apply N.ltb_ge; lia). f_equal. rewrite H. apply cast_ok; assumption.
  Qed.

  (** Doubles. *)
  Lemma number_no_plus s : number_ok F s -> ~ In 43 s.
  Proof.
    intros (sg & ip & fr & ex & -> & (Hsg & Hip & Hfr & Hex) & Hn & _) Hin.
    assert (Hd : forall d, all_digits d -> ~ In 43 d) by (intros d [_ H] Hi; rewrite Forall_forall in H; specialize (H _ Hi); lia).
    rewrite !in_app_iff in Hin. destruct Hin as [Hin|[Hin|[Hin|Hin]]].
    - destruct Hsg as [-> | ->]; [contradiction|]. destruct Hin as [Hin|[]]. discriminate.
    - exact (Hd _ Hip Hin).
    - destruct Hfr as [->|(d & -> & H)]; [contradiction|]. destruct Hin as [Hin|Hin]; [discriminate | exact (Hd _ H Hin)].
    - exact (Hn Hin).
  Qed.
  Definition double_of_tok (t : tok) : option N :=
    match t with KI64 v => Some (f64_of_z F v) | KU64 v => Some (f64_of_z F (Z.of_N v)) | KF64 b => Some b | _ => None end.
  Lemma double_of_tok_means s t b : number_ok F s -> num_value F s t -> (double_of_tok t = Some b <-> double_means F s b).
  Proof.
    intros Ho Hv. split.
    - intro H. destruct Hv as (sg & ip & fr & ex & E & Hp & _ & Ht). exists sg, ip, fr, ex. split; [exact E|]. split; [exact Hp|].
      destruct fr as [|x fr]; [destruct ex as [|y ex]|].
      + split; [|intros [Q|Q]; congruence]. intros _ _. destruct sg; destruct Ht as [_ ->]; cbn in H; injection H as <-; reflexivity.
      + split; [discriminate|]. intros _. destruct Ht as (b' & Hb & ->). cbn in H. congruence.
      + split; [discriminate|]. intros _. destruct Ht as (b' & Hb & ->). cbn in H. congruence.
    - intros (sg & ip & fr & ex & E & Hp & H1 & H2).
      destruct fr as [|x fr]; [destruct ex as [|y ex]|].
      + rewrite !app_nil_r in E. assert (Hd : int_literal s sg ip) by (split; [exact E | split; [exact (proj1 Hp) | exact (proj1 (proj2 Hp))]]).
        pose proof (literal_tok s sg ip t Hv Hd) as Q. rewrite (H1 eq_refl eq_refl). destruct sg; destruct Q as [-> _]; reflexivity.
      + assert (Hpar : f64_parse F s = Some b) by (apply H2; right; discriminate). assert (Hk : num_value F s (KF64 b)).
        { exists sg, ip, [], (y :: ex). split; [exact E|]. split; [exact Hp|]. split; [|exists b; auto]. intro Hin. apply (number_no_plus s Ho). rewrite E. rewrite !in_app_iff. auto. }
        rewrite (num_value_fun s t _ Hv Hk). reflexivity.
      + assert (Hpar : f64_parse F s = Some b) by (apply H2; left; discriminate). assert (Hk : num_value F s (KF64 b)).
        { exists sg, ip, (x :: fr), ex. split; [exact E|]. split; [exact Hp|]. split; [|exists b; auto]. intro Hin. apply (number_no_plus s Ho). rewrite E. rewrite !in_app_iff. auto. }
        rewrite (num_value_fun s t _ Hv Hk). reflexivity.
  Qed.
  Lemma nat_of_tok s t v : num_value F s t -> (t = KU64 v <-> nat_means s v).
  Proof.
    intro Hv. split.
    - intros ->. pose proof (tok_literal _ _ Hv) as (sg & d & Hd). pose proof (literal_tok _ _ _ _ Hv Hd) as Q. destruct sg; destruct Q as [Q _]; [|discriminate].
      injection Q as ->. destruct Hd as (-> & _ & Hd). split; [exact Hd | reflexivity].
    - intros [Hd ->]. assert (Hl : int_literal s [] s) by (split; [reflexivity | auto]). exact (proj1 (literal_tok _ _ _ _ Hv Hl)).
  Qed.
End Nums.

(** ** Runs on a document *)
Lemma denotes_json F : (forall d x, denotes F d x -> json gap (number_ok F) any_body x) /\
  (forall l s, elements_of F l s -> elements gap (number_ok F) any_body s) /\
  (forall ms s, members_of F ms s -> members gap (number_ok F) any_body s).
Proof.
  apply denotes_mutind; intros.
  - apply js_word. left. reflexivity.
  - apply js_word. right. left. reflexivity.
  - apply js_word. right. right. reflexivity.
  - apply js_num. assumption.
  - apply js_str. eexists. eassumption.
  - apply js_arr0. assumption.
  - apply js_arr. assumption.
  - apply js_obj0. assumption.
  - apply js_obj. assumption.
  - apply el_one; assumption.
  - apply el_more; assumption.
  - apply me_one; try assumption. eexists. eassumption.
  - apply me_more; try assumption. eexists. eassumption.
Qed.
Lemma denotes_value F d x : denotes F d x -> value_text F Json x.
Proof. intro H. apply denotes_json in H. apply json_inside in H as [H _]. exact H. Qed.
Lemma denotes_document F d x : denotes F d x -> document F d x.
Proof. intro H. exists [], x, []. rewrite app_nil_r. repeat split; try constructor. exact H. Qed.

(** The parts of arrays and objects as texts. *)
Lemma elements_items F l s : elements_of F l s -> exists xs, items_text F Json xs s /\ Forall2 (denotes F) l xs.
Proof.
  induction 1 as [a d x b Ha Hd Hb|a d x b l s Ha Hd Hb Hl (xs & Hx & H2)].
  - exists [x]. split; [apply its_one; eauto using denotes_value | auto].
  - exists (x :: xs). split; [apply its_more; eauto using denotes_value | auto].
Qed.
Definition mden (F : flt) (m : str * doc) (e : str * str) : Prop := fst e = fst m /\ denotes F (snd m) (snd e).
Definition eden (F : flt) (m : str * doc) (e : str * str) : Prop := denotes F (JStr (fst m)) (fst e) /\ denotes F (snd m) (snd e).
Lemma members_members F ms s : members_of F ms s -> exists es, members_text F Json es s /\ Forall2 (mden F) ms es.
Proof.
  induction 1 as [a k kb b c d x e Ha Hk Hb Hc Hd He|a k kb b c d x e ms s Ha Hk Hb Hc Hd He Hm (es & E1 & E2)].
  - exists [(k, x)]. split; [|constructor; [split; [reflexivity | exact Hd] | constructor]]. apply mt_one. exists a, (quoted kb), b, c, e. cbn [fst snd].
    split; [reflexivity|]. split; [exists kb; auto|]. repeat (split; [assumption|]). eapply denotes_value; exact Hd.
  - exists ((k, x) :: es). split; [|constructor; [split; [reflexivity | exact Hd] | exact E2]].
    replace (a ++ quoted kb ++ b ++ [58] ++ c ++ x ++ e ++ [44] ++ s) with ((a ++ quoted kb ++ b ++ [58] ++ c ++ x ++ e) ++ [44] ++ s) by (rewrite <- !app_assoc; reflexivity).
    apply mt_more; [|exact E1]. exists a, (quoted kb), b, c, e. cbn [fst snd].
    split; [reflexivity|]. split; [exists kb; auto|]. repeat (split; [assumption|]). eapply denotes_value; exact Hd.
Qed.
Lemma members_entries F ms s : members_of F ms s -> exists es, entries_text F Json es s /\ Forall2 (eden F) ms es.
Proof.
  assert (Hq : forall kb k, chars_of kb k -> denotes F (JStr k) (quoted kb)) by (intros; apply dn_str; assumption).
  induction 1 as [a k kb b c d x e Ha Hk Hb Hc Hd He|a k kb b c d x e ms s Ha Hk Hb Hc Hd He Hm (es & E1 & E2)].
  - exists [(quoted kb, x)]. split; [|constructor; [split; [apply Hq; exact Hk | exact Hd] | constructor]]. apply en_one. exists a, b, c, e. cbn [fst snd].
    split; [reflexivity|]. repeat (split; [assumption|]). split; eapply denotes_value; [apply Hq; exact Hk | exact Hd].
  - exists ((quoted kb, x) :: es). split; [|constructor; [split; [apply Hq; exact Hk | exact Hd] | exact E2]].
    replace (a ++ quoted kb ++ b ++ [58] ++ c ++ x ++ e ++ [44] ++ s) with ((a ++ quoted kb ++ b ++ [58] ++ c ++ x ++ e) ++ [44] ++ s) by (rewrite <- !app_assoc; reflexivity).
    apply en_more; [|exact E1]. exists a, b, c, e. cbn [fst snd].
    split; [reflexivity|]. repeat (split; [assumption|]). split; eapply denotes_value; [apply Hq; exact Hk | exact Hd].
Qed.
Lemma arr_parts F ds : has_text F (JArr ds) -> exists text xs, denotes F (JArr ds) text /\ list_text F Json 91 93 xs text /\ Forall2 (denotes F) ds xs.
Proof.
  intros [x H]. exists x. inversion H; subst.
  - exists []. split; [exact H|]. split; [|constructor]. exists [], [], g. split; [cbn [app]; rewrite ?app_nil_r; reflexivity|]. split; [constructor|]. split; [constructor|]. auto.
  - match goal with Q : elements_of _ _ _ |- _ => destruct (elements_items F _ _ Q) as (xs & Hx & H2) end. exists xs. split; [exact H|]. split; [|exact H2].
    exists [], [], s. split; [cbn [app]; rewrite ?app_nil_r; reflexivity|]. split; [constructor|]. split; [constructor|]. left. exact Hx.
Qed.
Lemma obj_parts F ms : has_text F (JObj ms) -> exists text es, denotes F (JObj ms) text /\ object_text F Json es text /\ Forall2 (mden F) ms es.
Proof.
  intros [x H]. exists x. inversion H; subst.
  - exists []. split; [exact H|]. split; [|constructor]. exists [], [], g. split; [cbn [app obj_open obj_close]; rewrite ?app_nil_r; reflexivity|]. split; [constructor|]. split; [constructor|]. auto.
  - match goal with Q : members_of _ _ _ |- _ => destruct (members_members F _ _ Q) as (xs & Hx & H2) end. exists xs. split; [exact H|]. split; [|exact H2].
    exists [], [], s. split; [cbn [app obj_open obj_close]; rewrite ?app_nil_r; reflexivity|]. split; [constructor|]. split; [constructor|]. left. exact Hx.
Qed.
Lemma obj_entries F ms : has_text F (JObj ms) -> exists text es, denotes F (JObj ms) text /\ map_text F Json es text /\ Forall2 (eden F) ms es.
Proof.
  intros [x H]. exists x. inversion H; subst.
  - exists []. split; [exact H|]. split; [|constructor]. exists [], [], g. split; [cbn [app]; rewrite ?app_nil_r; reflexivity|]. split; [constructor|]. split; [constructor|]. auto.
  - match goal with Q : members_of _ _ _ |- _ => destruct (members_entries F _ _ Q) as (xs & Hx & H2) end. exists xs. split; [exact H|]. split; [|exact H2].
    exists [], [], s. split; [cbn [app]; rewrite ?app_nil_r; reflexivity|]. split; [constructor|]. split; [constructor|]. left. exact Hx.
Qed.

Section Runs.
  Variables (F : flt) (c : cfg) (G : env).
  Notation de := (de_text tok_lexer F c G Json).
  Notation parses := (parses F c G Json).
  Notation entire := (entire F c G Json).
  Notation has_text := (has_text F).
  Notation dtoks := (dtoks F).

  Definition runs (n : nat) (t : ty) (d : doc) (v : val) : Prop := exists u', de n t (st0 (dtoks d) false) = (u', Ok v).
  Definition R (t : ty) (d : doc) (v : val) : Prop := exists n, runs n t d v.
  Lemma runs_le n m t d v : (n <= m)%nat -> runs n t d v -> runs m t d v.
  Proof. intros Hn [u' H]. exists u'. rewrite <- H. apply de_mono; [exact Hn|]. rewrite H. discriminate. Qed.
  Lemma R_parses t d text v : document F d text -> (parses t text (Ok v) <-> R t d v).
  Proof.
    intro Hd. destruct (text_tokens F d text Hd) as [Hl _]. split.
    - intro H. destruct (parses_inv_ok F c G Json _ _ _ _ _ Hl (or_intror eq_refl) H) as (N & u' & HN). exists N, u'. apply HN. lia.
    - intros (n & Hn). apply (parses_ok F c G Json _ _ _ _ _ Hl (or_intror eq_refl)). exists n. intros m Hm. destruct (runs_le _ _ _ _ _ Hm Hn) as [u' ->]. reflexivity.
  Qed.
  Lemma R_entire t d x v : denotes F d x -> (entire t x v <-> R t d v).
  Proof.
    intro Hd. rewrite <- (R_parses t d x v) by (apply denotes_document; exact Hd). unfold SpecObj.entire. split; [tauto|]. intro H. split; [exact H | discriminate].
  Qed.
  Lemma R_fun t d v w : has_text d -> R t d v -> R t d w -> v = w.
  Proof.
    intros _ [n H1] [m H2]. assert (Q1 : runs (n + m) t d v) by (apply (runs_le n); [lia | exact H1]). assert (Q2 : runs (n + m) t d w) by (apply (runs_le m); [lia | exact H2]).
    destruct Q1 as [u1 Q1], Q2 as [u2 Q2]. congruence.
  Qed.
  Lemma entire_all t ds xs ws : Forall2 (denotes F) ds xs -> (Forall2 (entire t) xs ws <-> Forall2 (R t) ds ws).
  Proof.
    intro H. split.
    - revert ws. induction H as [|d x ds xs Hd H IH]; intros ws Hw; inversion Hw; subst; constructor; [apply (R_entire t d x _ Hd); assumption | auto].
    - revert ws. induction H as [|d x ds xs Hd H IH]; intros ws Hw; inversion Hw; subst; constructor; [apply (R_entire t d x _ Hd); assumption | auto].
  Qed.
  Lemma tuple_all ts ds xs ws : Forall2 (denotes F) ds xs -> (tuple_value F c G Json ts xs ws <-> tuple_means R ts ds ws).
  Proof.
    intro H. unfold tuple_value. split.
    - intros [Hl Hw]. revert ds xs ws H Hl Hw. induction ts as [|t ts IH]; intros ds xs ws H Hl Hw; inversion H as [|d x ds' xs' Hd Hx]; subst; try discriminate.
      + inversion Hw; subst. constructor.
      + cbn [combine] in Hw. inversion Hw as [|? w ? ws' H1 H2]; subst. constructor; [apply (R_entire t d x _ Hd); exact H1|]. eapply IH; [exact Hx | cbn in Hl; congruence | exact H2].
    - intro Hw. revert xs H. induction Hw as [|t d v ts ds vs Hv Hw IH]; intros xs H; inversion H as [|d' x ds' xs' Hd Hx]; subst; [split; [reflexivity | constructor]|].
      destruct (IH _ Hx) as [I1 I2]. split; [cbn; congruence|]. cbn [combine]. constructor; [apply (R_entire t d x _ Hd); exact Hv | exact I2].
  Qed.

  (** *** Sequences, arrays, tuples, maps *)
  Lemma R_seq k t ds v : has_text (JArr ds) -> (R (TSeq k t) (JArr ds) v <-> exists ws, Forall2 (R t) ds ws /\ v = VSeq (seq_of k ws [])).
  Proof.
    intro Ht. destruct (arr_parts F ds Ht) as (text & xs & Hd & Hl & Hx). rewrite <- (R_parses _ _ text) by (apply denotes_document; exact Hd).
    rewrite (C12_text_seq F c G Json k t xs text v Hl). split; intros (ws & H & E); exists ws; (split; [|exact E]); apply (entire_all t ds xs ws Hx); exact H.
  Qed.
  Lemma R_arr m t ds v : has_text (JArr ds) -> (R (TArr m t) (JArr ds) v <-> exists ws, length ds = m /\ Forall2 (R t) ds ws /\ v = VSeq ws).
  Proof.
    intro Ht. destruct (arr_parts F ds Ht) as (text & xs & Hd & Hl & Hx). rewrite <- (R_parses _ _ text) by (apply denotes_document; exact Hd).
    rewrite (C28_array F c G Json m t xs text v Hl). assert (El : length ds = length xs) by (clear - Hx; induction Hx; cbn; congruence). split.
    - intros (ws & E & L & H). exists ws. split; [congruence|]. split; [apply (entire_all t ds xs ws Hx); exact H | exact E].
    - intros (ws & L & H & E). exists ws. split; [exact E|]. split; [congruence | apply (entire_all t ds xs ws Hx); exact H].
  Qed.
  Lemma R_tup ts ds v : has_text (JArr ds) -> tuple_arity (length ts) = true -> (R (TTup ts) (JArr ds) v <-> exists ws, tuple_means R ts ds ws /\ v = VSeq ws).
  Proof.
    intros Ht Ha. destruct (arr_parts F ds Ht) as (text & xs & Hd & Hl & Hx). rewrite <- (R_parses _ _ text) by (apply denotes_document; exact Hd).
    rewrite (C28_tuple F c G Json ts xs text v Ha Hl). split.
    - intros (ws & E & H). exists ws. split; [apply (tuple_all ts ds xs ws Hx); exact H | exact E].
    - intros (ws & H & E). exists ws. split; [exact E | apply (tuple_all ts ds xs ws Hx); exact H].
  Qed.
  Lemma R_map k tk tv ms v : has_text (JObj ms) -> (R (TMap k tk tv) (JObj ms) v <->
    exists ws, Forall2 (fun m w => R tk (JStr (fst m)) (fst w) /\ R tv (snd m) (snd w)) ms ws /\ v = VMap (map_of k ws [])).
  Proof.
    intro Ht. destruct (obj_entries F ms Ht) as (text & es & Hd & Hl & Hx). rewrite <- (R_parses _ _ text) by (apply denotes_document; exact Hd).
    rewrite (C12_text_map F c G Json k tk tv es text v Hl).
    assert (Hall : forall ws, Forall2 (fun e w => entire tk (fst e) (fst w) /\ entire tv (snd e) (snd w)) es ws <-> Forall2 (fun m w => R tk (JStr (fst m)) (fst w) /\ R tv (snd m) (snd w)) ms ws).
    { clear - Hx. induction Hx as [|m e ms es [H1 H2] Hx IH]; intro ws; split; intro H; inversion H as [|? ? ? ? [A B] C]; subst; constructor; try (apply IH; assumption).
      - split; [apply (R_entire tk _ _ _ H1); exact A | apply (R_entire tv _ _ _ H2); exact B].
      - split; [apply (R_entire tk _ _ _ H1); exact A | apply (R_entire tv _ _ _ H2); exact B]. }
    split; intros (ws & H & E); exists ws; (split; [apply Hall; exact H | exact E]).
  Qed.

  (** *** Structs *)
  Lemma field_all f m e v : mden F m e -> (field_entire F c G Json f (snd e) v <-> field_means R f (snd m) v).
  Proof.
    intros [_ H]. unfold field_entire, field_means. destruct (f_isopt f && f_hasproxy f).
    - split; intros (w & E & Q); exists w; (split; [exact E | apply (R_entire _ _ _ _ H); exact Q]).
    - apply (R_entire _ _ _ _ H).
  Qed.
  Lemma keys_same ms es : Forall2 (mden F) ms es -> map fst es = map fst ms.
  Proof. induction 1 as [|m e ms es [E _] H IH]; cbn; congruence. Qed.
  Lemma last_there k d ms es : Forall2 (mden F) ms es -> last_named k d ms -> exists x, last_member k x es /\ denotes F d x.
  Proof.
    intros H (pre & post & -> & Hn). apply Forall2_app_inv_l in H as (e1 & e2 & H1 & H2 & ->). inversion H2 as [|? [k' x] ? post' [E Hd] H3]; subst. cbn in E, Hd. subst k'.
    exists x. split; [|exact Hd]. exists e1, post'. split; [reflexivity|]. rewrite (keys_same _ _ H3). exact Hn.
  Qed.
  Lemma last_back k x ms es : Forall2 (mden F) ms es -> last_member k x es -> exists d, last_named k d ms /\ denotes F d x.
  Proof.
    intros H (pre & post & -> & Hn). apply Forall2_app_inv_r in H as (e1 & e2 & H1 & H2 & ->). inversion H2 as [|[k' d] ? post' ? [E Hd] H3]; subst. cbn in E, Hd. subst k'.
    exists d. split; [|exact Hd]. exists e1, post'. split; [reflexivity|]. rewrite <- (keys_same _ _ H3). exact Hn.
  Qed.
  Lemma in_there k d ms es : Forall2 (mden F) ms es -> In (k, d) ms -> exists x, In (k, x) es /\ denotes F d x.
  Proof.
    induction 1 as [|m e ms es [E Hd] H IH]; [contradiction|]. intros [Hi|Hi].
    - subst m. destruct e as [k' x]. cbn in E, Hd. subst k'. exists x. split; [left; reflexivity | exact Hd].
    - destruct (IH Hi) as (x & H1 & H2). exists x. split; [right; exact H1 | exact H2].
  Qed.
  Lemma in_back k x ms es : Forall2 (mden F) ms es -> In (k, x) es -> exists d, In (k, d) ms /\ denotes F d x.
  Proof.
    induction 1 as [|m e ms es [E Hd] H IH]; [contradiction|]. intros [Hi|Hi].
    - subst e. destruct m as [k' d]. cbn in E, Hd. subst k'. exists d. split; [left; reflexivity | exact Hd].
    - destruct (IH Hi) as (d & H1 & H2). exists d. split; [right; exact H1 | exact H2].
  Qed.
  Lemma field_all' f d x v : denotes F d x -> (field_entire F c G Json f x v <-> field_means R f d v).
  Proof. intro H. apply (field_all f ([], d) ([], x)). split; [reflexivity | exact H]. Qed.
  Lemma fields_all dflt fs ms es vs : Forall2 (mden F) ms es -> (named_value F c G Json dflt fs es vs <-> fields_means R dflt fs ms vs).
  Proof.
    intro H. unfold named_value, fields_means. split; intros (H1 & H2 & H3).
    - split; [|split].
      + eapply f2_impl; [|exact H1]. intros f v. unfold field_of, field_from. destruct (f_skip f); [auto|]. rewrite (keys_same _ _ H). intros [(x & Hx & He)|Hx]; [|right; exact Hx].
        left. destruct (last_back _ _ _ _ H Hx) as (d & A & B). exists d. split; [exact A | apply (field_all' f d x v B); exact He].
      + intros k d f Hk Hf Hs Ek. destruct (in_there _ _ _ _ H Hk) as (x & A & B). destruct (H2 k x f A Hf Hs Ek) as [w Hw]. exists w. apply (field_all' f d x w B). exact Hw.
      + intro E. specialize (H3 E). subst es. inversion H. reflexivity.
    - split; [|split].
      + eapply f2_impl; [|exact H1]. intros f v. unfold field_of, field_from. destruct (f_skip f); [auto|]. rewrite (keys_same _ _ H). intros [(d & Hx & He)|Hx]; [|right; exact Hx].
        left. destruct (last_there _ _ _ _ H Hx) as (x & A & B). exists x. split; [exact A | apply (field_all' f d x v B); exact He].
      + intros k x f Hk Hf Hs Ek. destruct (in_back _ _ _ _ H Hk) as (d & A & B). destruct (H2 k d f A Hf Hs Ek) as [w Hw]. exists w. apply (field_all' f d x w B). exact Hw.
      + intro E. specialize (H3 E). subst ms. inversion H. reflexivity.
  Qed.
  Lemma R_struct i dflt cn fs ms v : nth_error G i = Some (DStruct dflt cn fs) -> distinct_fields fs -> has_text (JObj ms) ->
    (R (TNamed i) (JObj ms) v <-> exists vs, v = VSeq vs /\ fields_means R dflt fs ms vs).
  Proof.
    intros HG Hu Ht. destruct (obj_parts F ms Ht) as (text & es & Hd & Hl & Hx). rewrite <- (R_parses _ _ text) by (apply denotes_document; exact Hd).
    rewrite (C24_object_value F c G Json i dflt cn fs es text v HG Hu Hl). split; intros (ws & E & H); exists ws; (split; [exact E | apply (fields_all dflt fs ms es ws Hx); exact H]).
  Qed.

  (** *** Enums *)
  Lemma find_variant_some p vs : forall j i vr, find_variant p vs j = Some (i, vr) -> exists tag, i = j + N.of_nat tag /\ nth_error vs tag = Some vr /\ p vr = true.
  Proof.
    induction vs as [|w vs IH]; intros j i vr H; [discriminate|]. cbn [find_variant] in H. destruct (p w) eqn:E.
    - injection H as <- <-. exists O. split; [lia|]. auto.
    - destruct (IH _ _ _ H) as (tag & A & B & D). exists (S tag). split; [lia|]. auto.
  Qed.
  Lemma member_variant k d : has_text (JObj [(k, d)]) -> exists text p x, denotes F (JObj [(k, d)]) text /\ variant_text Json k p text /\
    denotes F d x /\ exists g1 g2, gap g1 /\ gap g2 /\ p = g1 ++ x ++ g2.
  Proof.
    intros [text H]. inversion H as [| | | | | | | |ms s Hm]; subst. inversion Hm as [a k' kb b g1 d' x g2 Ha Hk Hb Hc Hd He|]; subst; [|match goal with Q : members_of _ [] _ |- _ => inversion Q end].
    exists (123 :: (a ++ quoted kb ++ b ++ [58] ++ g1 ++ x ++ g2) ++ [125]), (g1 ++ x ++ g2), x. split; [exact H|]. split; [|split; [exact Hd | exists g1, g2; auto]].
    exists [], a, (quoted kb), b, []. split; [cbn [app]; rewrite <- !app_assoc; cbn [app]; rewrite <- ?app_assoc; reflexivity|]. split; [exists kb; auto|]. split; [constructor|]. split; [exact Ha|]. split; [exact Hb | constructor].
  Qed.
  Lemma arr_around ds x g1 g2 : denotes F (JArr ds) x -> gap g1 -> gap g2 -> exists xs, list_text F Json 91 93 xs (g1 ++ x ++ g2) /\ Forall2 (denotes F) ds xs.
  Proof.
    intros H G1 G2. inversion H as [| | | | |g Hg|l s Hs| |]; subst.
    - exists []. split; [|constructor]. exists g1, g2, g. split; [cbn [app]; rewrite <- ?app_assoc; reflexivity|]. auto 8.
    - destruct (elements_items F _ _ Hs) as (xs & Hx & H2). exists xs. split; [|exact H2].
      exists g1, g2, s. split; [cbn [app]; rewrite <- ?app_assoc; reflexivity|]. auto 8.
  Qed.
  Lemma obj_around ms x g1 g2 : denotes F (JObj ms) x -> gap g1 -> gap g2 -> exists es, object_text F Json es (g1 ++ x ++ g2) /\ Forall2 (mden F) ms es.
  Proof.
    intros H G1 G2. inversion H as [| | | | | | |g Hg|l s Hs]; subst.
    - exists []. split; [|constructor]. exists g1, g2, g. split; [cbn [app obj_open obj_close]; rewrite <- ?app_assoc; reflexivity|]. auto 8.
    - destruct (members_members F _ _ Hs) as (xs & Hx & H2). exists xs. split; [|exact H2].
      exists g1, g2, s. split; [cbn [app obj_open obj_close]; rewrite <- ?app_assoc; reflexivity|]. auto 8.
  Qed.

  Section Enum.
    Variables (i : nat) (vs : list variant).
    Hypothesis HG : nth_error G i = Some (DEnum vs).
    Hypothesis Hnd : NoDup (map (key_of_variant Json) vs).
    Lemma R_tvariant tag vr ts ds v : nth_error vs tag = Some vr -> v_body vr = BTuple ts -> has_text (JObj [(key_of_variant Json vr, JArr ds)]) ->
      (R (TNamed i) (JObj [(key_of_variant Json vr, JArr ds)]) v <-> exists ws, v = VEnum (N.of_nat tag) ws /\ tuple_means R ts ds ws).
    Proof.
      intros Hv Hb Ht. destruct (member_variant _ _ Ht) as (text & p & x & Hd & Hvt & Hx & g1 & g2 & G1 & G2 & ->).
      destruct (arr_around ds x g1 g2 Hx G1 G2) as (xs & Hl & Hxs). rewrite <- (R_parses _ _ text) by (apply denotes_document; exact Hd).
      rewrite (C32_tuple_variant F c G Json i vs tag vr (key_of_variant Json vr) HG Hnd Hv eq_refl ts xs _ text v Hb Hvt Hl).
      split; intros (ws & E & H); exists ws; (split; [exact E | apply (tuple_all ts ds xs ws Hxs); exact H]).
    Qed.
    Lemma R_svariant tag vr fs ms v : nth_error vs tag = Some vr -> v_body vr = BStruct fs -> distinct_fields fs -> has_text (JObj [(key_of_variant Json vr, JObj ms)]) ->
      (R (TNamed i) (JObj [(key_of_variant Json vr, JObj ms)]) v <-> exists ws, v = VEnum (N.of_nat tag) ws /\ fields_means R false fs ms ws).
    Proof.
      intros Hv Hb Hu Ht. destruct (member_variant _ _ Ht) as (text & p & x & Hd & Hvt & Hx & g1 & g2 & G1 & G2 & ->).
      destruct (obj_around ms x g1 g2 Hx G1 G2) as (es & Hl & Hes). rewrite <- (R_parses _ _ text) by (apply denotes_document; exact Hd).
      rewrite (C32_struct_variant F c G Json i vs tag vr (key_of_variant Json vr) HG Hnd Hv eq_refl fs es _ text v Hb Hu Hvt Hl).
      split; intros (ws & E & H); exists ws; (split; [exact E | apply (fields_all false fs ms es ws Hes); exact H]).
    Qed.
    Lemma R_uvariant tag vr : nth_error vs tag = Some vr -> v_body vr = BUnit -> has_text (JStr (key_of_variant Json vr)) ->
      R (TNamed i) (JStr (key_of_variant Json vr)) (VEnum (N.of_nat tag) []).
    Proof.
      intros Hv Hb [x Hx]. rewrite <- (R_parses _ _ x) by (apply denotes_document; exact Hx).
      apply (C32_unit_variant F c G Json i vs tag vr (key_of_variant Json vr) HG Hnd Hv eq_refl x Hb).
      inversion Hx as [| | | |b s Hs| | | |]; subst. exists [], (quoted b), []. rewrite app_nil_r. split; [reflexivity|]. split; [exists b; auto|]. split; constructor.
    Qed.
  End Enum.

  Lemma obj_members ms : has_text (JObj ms) -> exists es, Forall2 (mden F) ms es /\ Forall2 (mtok F Json) es (map (mtoks F) ms).
  Proof.
    intro Ht. destruct (obj_parts F ms Ht) as (_ & es & _ & _ & He). exists es. split; [exact He|].
    clear Ht. induction He as [|[k d] [k' x] ms es [E Hd] He IH]; [constructor|]. cbn in E, Hd. subst k'. cbn [map]. constructor; [|exact IH].
    exists (dtoks d). split; [apply denotes_vtext; exact Hd | reflexivity].
  Qed.
  Lemma arr_elements ds : has_text (JArr ds) -> exists xs, Forall2 (denotes F) ds xs /\ Forall2 (vtext F Json) xs (map dtoks ds).
  Proof.
    intro Ht. destruct (arr_parts F ds Ht) as (_ & xs & _ & _ & Hx). exists xs. split; [exact Hx|].
    clear Ht. induction Hx as [|d x ds xs Hd Hx IH]; [constructor|]. cbn [map]. constructor; [apply denotes_vtext; exact Hd | exact IH].
  Qed.
  Lemma member_text k d ms : has_text (JObj ms) -> In (k, d) ms -> has_text d.
  Proof. intros Ht Hi. destruct (obj_members ms Ht) as (es & He & _). destruct (in_there _ _ _ _ He Hi) as (x & _ & Hx). exists x. exact Hx. Qed.
  Lemma element_text d ds : has_text (JArr ds) -> In d ds -> has_text d.
  Proof. intros Ht Hi. destruct (arr_elements ds Ht) as (xs & Hx & _). clear Ht. induction Hx as [|d' x ds xs Hd Hx IH]; [contradiction|]. destruct Hi as [->|Hi]; [exists x; exact Hd | auto]. Qed.
  Lemma real_dtoks d : has_text d -> forallb (real Json) (dtoks d) = true.
  Proof. intros [x Hx]. apply denotes_document in Hx. destruct (text_tokens F d x Hx) as [Hl _]. eapply lexs_real'; exact Hl. Qed.
  Lemma st0_d d : has_text d -> at2 Json (st0 (dtoks d) false) (dtoks d) false.
  Proof. intro H. split; [apply st0_at | apply real_dtoks; exact H]. Qed.
  Lemma num_head s : has_text (JNum s) -> exists t, num_value F s t /\ dtoks (JNum s) = [LP t] /\ match t with KU64 _ | KI64 _ | KF64 _ => True | _ => False end.
  Proof.
    intro H. apply num_text in H. destruct (num_dtoks F s H) as (t & Hv & E & _). exists t. split; [exact Hv|]. split; [exact E|].
    pose proof (tok_literal F s t Hv) as Q. destruct t; try contradiction; exact I.
  Qed.

  Lemma R_enum_inv i vs d v : nth_error G i = Some (DEnum vs) -> distinct_names (DEnum vs) -> has_text d -> R (TNamed i) d v ->
    exists tag vr, nth_error vs tag = Some vr /\
      match v_body vr with
      | BUnit => d = JStr (key_of_variant Json vr) /\ v = VEnum (N.of_nat tag) []
      | BTuple _ => exists ds, d = JObj [(key_of_variant Json vr, JArr ds)]
      | BStruct _ => exists ms, d = JObj [(key_of_variant Json vr, JObj ms)]
      end.
  Proof.
    intros HG [_ Hdn] Ht [n [u' H]]. destruct n as [|n]; [discriminate|]. cbn [de_text] in H. rewrite HG in H. unfold de_enum_json in H.
    destruct d as [|b|s|s|ds|ms].
    - discriminate.
    - discriminate.
    - destruct (num_head s Ht) as (t & _ & E & Q). rewrite E in H. destruct t; try contradiction; discriminate.
    - cbn [dtoks st0 l_tok tok_lexer t_toks tok_kind ltok_kind tok_is andb] in H. destruct (existsb is_unit vs); [|discriminate].
      unfold expect, pbind in H. cbn [st0 l_tok tok_lexer t_toks tok_kind ltok_kind tok_is l_next tok_next t_bad ltok_str ltok_id t_sb t_ib l_str] in H.
      destruct (find_variant _ vs 0) as [[tg vr]|] eqn:E; [|discriminate]. injection H as _ <-.
      destruct (find_variant_some _ _ _ _ _ E) as (tag & -> & Hv & Hp). apply andb_prop in Hp as [Hu Hk]. apply str_eqb_eq in Hk.
      exists tag, vr. split; [exact Hv|]. unfold is_unit in Hu. destruct (v_body vr); try discriminate. split; [|rewrite N.add_0_l; reflexivity]. f_equal. symmetry. exact Hk.
    - discriminate.
    - cbn [dtoks st0 l_tok tok_lexer t_toks tok_kind ltok_kind tok_is andb] in H. destruct (existsb _ vs); [|discriminate].
      destruct ms as [|[k d] ms]; [discriminate|]. assert (Ht1 : has_text d) by (eapply member_text; [exact Ht | left; reflexivity]).
      set (rest := match ms with [] => [LP KCurlyClose] | _ => LP KComma :: jt (map (mtoks F) ms) false ++ [LP KCurlyClose] end).
      assert (Ek : st0 (LP KCurlyOpen :: jt (map (fun m => LStr (fst m) :: LP KColon :: Doc.dtoks F (snd m)) ((k, d) :: ms)) false ++ [LP KCurlyClose]) false
                   = st0 (LP KCurlyOpen :: LStr k :: LP KColon :: dtoks d ++ rest) false).
      { f_equal. unfold rest. destruct ms as [|m2 ms]; cbn [map jt fst snd app]; [rewrite app_nil_r; reflexivity|]. rewrite <- ?app_assoc. cbn [app]. reflexivity. }
      rewrite Ek in H. clear Ek.
      assert (Hr : forallb (real Json) (dtoks d ++ rest) = true).
      { pose proof (real_dtoks _ Ht) as Q. cbn [Doc.dtoks forallb] in Q. unfold rest. destruct ms as [|m2 ms]; cbn [map jt fst snd app] in Q |- *.
        - rewrite app_nil_r in Q. cbn [forallb app real andb] in Q. exact Q.
        - change (Doc.dtoks F d) with (dtoks d) in Q. cbn [forallb app real andb] in Q. rewrite <- !app_assoc in Q. cbn [app] in Q. exact Q. }
      assert (Hg : go_on rest false) by (right; reflexivity).
      assert (Hlast : forall u2 w u3 (x : val), at2 Json u2 rest false -> pbind (expect tok_lexer KCurlyClose w) (fun _ => pret x) u2 = (u3, Ok v) -> ms = []).
      { intros u2 w u3 x A2 E. destruct ms as [|m2 ms]; [reflexivity|]. exfalso. unfold pbind, expect in E. unfold rest in A2. rewrite (at2_tok Json _ _ _ _ A2) in E. discriminate. }
      unfold expect at 1 2, p_colon, pbind at 1 2 3 in H. cbn [st0 l_tok tok_lexer t_toks tok_kind ltok_kind tok_is l_next tok_next t_bad ltok_str ltok_id t_sb t_ib l_str app] in H.
      unfold expect at 1 in H. cbn [st0 l_tok tok_lexer t_toks tok_kind ltok_kind tok_is l_next tok_next t_bad ltok_str ltok_id t_sb t_ib l_str app] in H.
      destruct d as [|b|s|s|ds|ms2].
      + cbn [dtoks Doc.dtoks app tok_next t_toks t_bad ltok_str ltok_id t_sb t_ib l_str] in H.
        destruct (find_variant _ vs 0) as [[tg vr]|] eqn:E; [|discriminate]. destruct (find_variant_some _ _ _ _ _ E) as (tag & -> & Hv & Hp). apply andb_prop in Hp as [Hu Hk].
        unfold is_unit in Hu. destruct (v_body vr); discriminate.
      + cbn [dtoks Doc.dtoks app tok_next t_toks t_bad ltok_str ltok_id t_sb t_ib l_str] in H.
        destruct (find_variant _ vs 0) as [[tg vr]|] eqn:E; [|discriminate]. destruct (find_variant_some _ _ _ _ _ E) as (tag & -> & Hv & Hp). apply andb_prop in Hp as [Hu Hk].
        unfold is_unit in Hu. destruct (v_body vr); discriminate.
      + destruct (num_head s Ht1) as (t & _ & Et & Q). rewrite Et in H.
        cbn [app tok_next t_toks t_bad ltok_str ltok_id t_sb t_ib l_str] in H.
        destruct t; try contradiction; cbn [app tok_next t_toks t_bad ltok_str ltok_id t_sb t_ib l_str] in H;
        (destruct (find_variant _ vs 0) as [[tg vr]|] eqn:E; [|discriminate]; destruct (find_variant_some _ _ _ _ _ E) as (tag & -> & Hv & Hp); apply andb_prop in Hp as [Hu Hk];
        unfold is_unit in Hu; destruct (v_body vr); discriminate).
      + cbn [dtoks Doc.dtoks app tok_next t_toks t_bad ltok_str ltok_id t_sb t_ib l_str] in H.
        destruct (find_variant _ vs 0) as [[tg vr]|] eqn:E; [|discriminate]. destruct (find_variant_some _ _ _ _ _ E) as (tag & -> & Hv & Hp). apply andb_prop in Hp as [Hu Hk].
        unfold is_unit in Hu. destruct (v_body vr); discriminate.
      + set (u3 := {| t_toks := dtoks (JArr ds) ++ rest; t_bad := false; t_sb := k; t_ib := [] |}).
        assert (A3 : at2 Json u3 (dtoks (JArr ds) ++ rest) false) by (split; [split; [reflexivity | split; [reflexivity | exact I]] | exact Hr]).
        change (match find_variant (fun v => negb (is_unit v) && str_eqb (variant_key Json v) k) vs 0 with
                | Some (i0, v0) => pbind (de_body tok_lexer Json (de n) n i0 (v_body v0)) (fun r => pbind (expect tok_lexer KCurlyClose (chars "}")) (fun _ => pret r)) u3
                | None => perr tok_lexer (NoSuchEnum k) u3 end = (u', Ok v)) in H.
        destruct (find_variant _ vs 0) as [[tg vr]|] eqn:E; [|discriminate]. destruct (find_variant_some _ _ _ _ _ E) as (tag & -> & Hv & Hp). apply andb_prop in Hp as [Hu Hk].
        apply str_eqb_eq in Hk. exists tag, vr. split; [exact Hv|]. unfold is_unit in Hu. destruct (v_body vr) as [|ts|fs]; try discriminate.
        cbn [de_body] in H. unfold pmap, pbind at 1 2 in H.
        destruct (de_bracketed tok_lexer Json (map (de_item tok_lexer Json (de n)) ts) u3) as [u4 [ws|e|p|]] eqn:Eb; try discriminate.
        destruct (arr_elements ds Ht1) as (xs & _ & Hxs).
        set (ps := map (fun t n => de_item tok_lexer Json (de n) t) ts).
        assert (Hps : Forall2 (good_item F c G Json) ps ts) by (unfold ps; clear; induction ts; cbn; constructor; auto using item_good).
        assert (Emap : map (fun p => p n) ps = map (de_item tok_lexer Json (de n)) ts) by (unfold ps; rewrite map_map; reflexivity).
        rewrite <- Emap in Eb. destruct (brk_inv F c G Json n ps ts xs (map dtoks ds) false ws rest false u3 u4 Hps Hxs A3 Hg Eb) as [_ A4].
        rewrite (Hlast u4 (chars "}") u' _ A4 H). exists ds. f_equal. f_equal. f_equal. symmetry. exact Hk.
      + set (u3 := {| t_toks := dtoks (JObj ms2) ++ rest; t_bad := false; t_sb := k; t_ib := [] |}).
        assert (A3 : at2 Json u3 (dtoks (JObj ms2) ++ rest) false) by (split; [split; [reflexivity | split; [reflexivity | exact I]] | exact Hr]).
        change (match find_variant (fun v => negb (is_unit v) && str_eqb (variant_key Json v) k) vs 0 with
                | Some (i0, v0) => pbind (de_body tok_lexer Json (de n) n i0 (v_body v0)) (fun r => pbind (expect tok_lexer KCurlyClose (chars "}")) (fun _ => pret r)) u3
                | None => perr tok_lexer (NoSuchEnum k) u3 end = (u', Ok v)) in H.
        destruct (find_variant _ vs 0) as [[tg vr]|] eqn:E; [|discriminate]. destruct (find_variant_some _ _ _ _ _ E) as (tag & -> & Hv & Hp). apply andb_prop in Hp as [Hu Hk].
        apply str_eqb_eq in Hk. exists tag, vr. split; [exact Hv|]. unfold is_unit in Hu. destruct (v_body vr) as [|ts|fs] eqn:Evb; try discriminate.
        cbn [de_body] in H. unfold pmap, pbind at 1 2 in H.
        destruct (de_named tok_lexer Json (de n) n false fs u3) as [u4 [ws|e|p|]] eqn:Eb; try discriminate.
        destruct (obj_members ms2 Ht1) as (es & _ & Hes).
        assert (A4 : at2 Json u4 rest false).
        { rewrite Forall_forall in Hdn. specialize (Hdn vr (nth_error_In _ _ Hv)). rewrite Evb in Hdn.
          eapply (named_inv F c G Json false fs Hdn n es (map (mtoks F) ms2) false ws rest false u3 u4 Hes A3 Hg Eb). }
        rewrite (Hlast u4 (chars "}") u' _ A4 H). exists ms2. f_equal. f_equal. f_equal. symmetry. exact Hk.
  Qed.

  (** *** Scalars *)
  Ltac stc := cbn [dtoks Doc.dtoks st0 l_tok tok_lexer t_toks tok_kind ltok_kind tok_is l_next tok_next t_bad ltok_str ltok_id t_sb t_ib l_str l_take].
  Ltac stc_in H := cbn [dtoks Doc.dtoks st0 l_tok tok_lexer t_toks tok_kind ltok_kind tok_is l_next tok_next t_bad ltok_str ltok_id t_sb t_ib l_str l_take] in H.
  Lemma R_int k d v : has_text d -> (R (TInt k) d v <-> exists s z, d = JNum s /\ v = VZ z /\ int_means c k s z).
  Proof.
    intro Ht. split.
    - intros [[|n] [u' H]]; [discriminate|]. cbn [de_text] in H. unfold de_int in H.
      assert (K1 : k <> U128) by (intros ->; discriminate). assert (K2 : k <> I128) by (intros ->; discriminate).
      assert (Hd : exists s, d = JNum s).
      { destruct d as [| |s| | |]; try (exists s; reflexivity); exfalso; destruct k; try congruence; cbn [ik_signed] in H; discriminate. }
      destruct Hd as [s ->]. destruct (num_head s Ht) as (t & Hv & E & _). rewrite E in H. clear E.
      assert (Hz : exists z, v = VZ z /\ int_of_tok c k t = Some z).
      { unfold int_of_tok.
        assert (Hs : (if ik_signed k then pbind (i64_range tok_lexer (- i_bound k) (i_bound k - 1)) (fun v => pbind (l_next tok_lexer) (fun _ => pret (VZ (cast c k v))))
           else pbind (u64_range tok_lexer (u_max k)) (fun v => pbind (l_next tok_lexer) (fun _ => pret (VZ (cast c k (Z.of_N v)))))) (st0 [LP t] false) = (u', Ok v)) by (destruct k; try congruence; exact H).
        clear H. destruct (ik_signed k); unfold pbind, i64_range, u64_range in Hs; stc_in Hs; destruct t; try discriminate Hs.
        - destruct (_ <? _)%Z; [discriminate|]. stc_in Hs. injection Hs as _ <-. eauto.
        - destruct (_ <? _)%Z; [discriminate|]. stc_in Hs. injection Hs as _ <-. eauto.
        - destruct (_ <? _); [discriminate|]. stc_in Hs. injection Hs as _ <-. eauto. }
      destruct Hz as (z & -> & Hz). exists s, z. split; [reflexivity|]. split; [reflexivity|]. apply (int_of_tok_means F c k s t z K1 K2 Hv). exact Hz.
    - intros (s & z & -> & -> & Hm). pose proof Hm as (K1 & K2 & _). destruct (num_head s Ht) as (t & Hv & E & _).
      apply (int_of_tok_means F c k s t z K1 K2 Hv) in Hm. exists 1%nat. unfold runs. rewrite E. cbn [de_text]. unfold de_int, int_of_tok in *.
      assert (Hs : exists u', (if ik_signed k then pbind (i64_range tok_lexer (- i_bound k) (i_bound k - 1)) (fun v => pbind (l_next tok_lexer) (fun _ => pret (VZ (cast c k v))))
           else pbind (u64_range tok_lexer (u_max k)) (fun v => pbind (l_next tok_lexer) (fun _ => pret (VZ (cast c k (Z.of_N v)))))) (st0 [LP t] false) = (u', Ok (VZ z))).
      { destruct (ik_signed k); unfold pbind, i64_range, u64_range; stc; destruct t; try discriminate.
        - destruct (_ <? _)%Z; [discriminate|]. injection Hm as <-. stc. eexists. reflexivity.
        - destruct (_ <? _)%Z; [discriminate|]. injection Hm as <-. stc. eexists. reflexivity.
        - destruct (_ <? _); [discriminate|]. injection Hm as <-. stc. eexists. reflexivity. }
      destruct k; try congruence; exact Hs.
  Qed.
  Lemma f64_runs d (f : N -> val) v : has_text d ->
    ((exists u', pmap f (de_f64 tok_lexer F) (st0 (dtoks d) false) = (u', Ok v)) <-> exists s b, d = JNum s /\ v = f b /\ double_means F s b).
  Proof.
    intro Ht. split.
    - intros [u' H]. unfold pmap, de_f64, pbind, as_f64 in H. destruct d as [|b|s|s|ds|ms]; try discriminate H.
      pose proof (num_text F s Ht) as Ho. destruct (num_head s Ht) as (t & Hv & E & Q). rewrite E in H. stc_in H. exists s.
      destruct t; try contradiction; stc_in H; injection H as _ <-; eexists; (split; [reflexivity|]; split; [reflexivity|]); apply (double_of_tok_means F s _ _ Ho Hv); reflexivity.
    - intros (s & b & -> & -> & Hm). pose proof (num_text F s Ht) as Ho. destruct (num_head s Ht) as (t & Hv & E & Q). apply (double_of_tok_means F s t b Ho Hv) in Hm.
      rewrite E. unfold pmap, de_f64, pbind, as_f64. stc. destruct t; try contradiction; cbn in Hm; injection Hm as <-; stc; eexists; reflexivity.
  Qed.
  Lemma R_f64 d v : has_text d -> (R TF64 d v <-> exists s b, d = JNum s /\ v = VF b /\ double_means F s b).
  Proof. intro Ht. rewrite <- (f64_runs d VF v Ht). split; [intros [[|n] H]; [destruct H; discriminate | exact H] | intro H; exists 1%nat; exact H]. Qed.
  Lemma R_f32 d v : has_text d -> (R TF32 d v <-> exists s b, d = JNum s /\ v = VF (f32_of_f64 F b) /\ double_means F s b).
  Proof. intro Ht. rewrite <- (f64_runs d (fun b => VF (f32_of_f64 F b)) v Ht). split; [intros [[|n] H]; [destruct H; discriminate | exact H] | intro H; exists 1%nat; exact H]. Qed.
  Lemma R_bool d v : has_text d -> (R TBool d v <-> exists b, d = JBool b /\ v = VBool b).
  Proof.
    intro Ht. split.
    - intros [[|n] [u' H]]; [discriminate|]. cbn [de_text] in H. unfold de_bool, pbind, as_bool in H. destruct d as [|b|s|s|ds|ms]; try discriminate H.
      + stc_in H. injection H as _ <-. eauto.
      + destruct (num_head s Ht) as (t & Hv & E & Q). rewrite E in H. destruct t; try contradiction; discriminate.
    - intros (b & -> & ->). exists 1%nat. eexists. reflexivity.
  Qed.
  Lemma R_str d v : has_text d -> (R TStr d v <-> exists s, d = JStr s /\ v = VStr s).
  Proof.
    intro Ht. split.
    - intros [[|n] [u' H]]; [discriminate|]. cbn [de_text] in H. unfold pmap, de_str, pbind, as_string in H. destruct d as [|b|s|s|ds|ms]; try discriminate H.
      + destruct (num_head s Ht) as (t & Hv & E & Q). rewrite E in H. destruct t; try contradiction; discriminate.
      + stc_in H. injection H as _ <-. eauto.
    - intros (s & -> & ->). exists 1%nat. eexists. reflexivity.
  Qed.
  Lemma R_unit d v : has_text d -> (R TUnit d v <-> d = JNull /\ v = VUnit).
  Proof.
    intro Ht. split.
    - intros [[|n] [u' H]]; [discriminate|]. cbn [de_text] in H. unfold pbind, expect in H. destruct d as [|b|s|s|ds|ms]; try discriminate H.
      + stc_in H. injection H as _ <-. auto.
      + destruct (num_head s Ht) as (t & Hv & E & Q). rewrite E in H. destruct t; try contradiction; discriminate.
    - intros (-> & ->). exists 1%nat. eexists. reflexivity.
  Qed.
  Lemma at_none_doc d : has_text d -> at_none tok_lexer Json (st0 (dtoks d) false) = true <-> d = JNull.
  Proof.
    intro Ht. unfold at_none. destruct d as [|b|s|s|ds|ms]; try (split; [discriminate | congruence]).
    - split; reflexivity.
    - destruct (num_head s Ht) as (t & Hv & E & Q). rewrite E. split; [|discriminate]. destruct t; try contradiction; discriminate.
  Qed.

  (** *** The first token *)
  Lemma first_open w u' d : has_text d -> expect tok_lexer KBlockOpen w (st0 (dtoks d) false) = (u', Ok tt) -> exists ds, d = JArr ds.
  Proof.
    intros Ht H. unfold expect in H. destruct d as [|b|s|s|ds|ms]; try discriminate H; [|eauto].
    destruct (num_head s Ht) as (t & Hv & E & Q). rewrite E in H. destruct t; try contradiction; discriminate.
  Qed.
  Lemma first_curly w u' d : has_text d -> expect tok_lexer KCurlyOpen w (st0 (dtoks d) false) = (u', Ok tt) -> exists ms, d = JObj ms.
  Proof.
    intros Ht H. unfold expect in H. destruct d as [|b|s|s|ds|ms]; try discriminate H; [|eauto].
    destruct (num_head s Ht) as (t & Hv & E & Q). rewrite E in H. destruct t; try contradiction; discriminate.
  Qed.
  Lemma bind_first {A} (m : @pm tst unit) (f : unit -> @pm tst A) u u' a : pbind m f u = (u', Ok a) -> exists u1, m u = (u1, Ok tt) /\ f tt u1 = (u', Ok a).
  Proof. unfold pbind. destruct (m u) as [u1 [[]|e|p|]]; try discriminate. eauto. Qed.
  Lemma map_inv_ok {A B} (f : A -> B) (m : @pm tst A) u u' b : pmap f m u = (u', Ok b) -> exists a, m u = (u', Ok a) /\ b = f a.
  Proof. unfold pmap, pbind, pret. destruct (m u) as [u1 [a|e|p|]]; try discriminate. intro H. injection H as <- <-. eauto. Qed.
  Lemma seq_is_arr k t d v : has_text d -> R (TSeq k t) d v -> exists ds, d = JArr ds.
  Proof. intros Ht [[|n] [u' H]]; [discriminate|]. cbn [de_text] in H. apply map_inv_ok in H as (a & H & _). apply bind_first in H as (u1 & H & _). eapply first_open; eassumption. Qed.
  Lemma map_is_obj k tk tv d v : has_text d -> R (TMap k tk tv) d v -> exists ms, d = JObj ms.
  Proof. intros Ht [[|n] [u' H]]; [discriminate|]. cbn [de_text] in H. apply map_inv_ok in H as (a & H & _). apply bind_first in H as (u1 & H & _). eapply first_curly; eassumption. Qed.
  Lemma bracketed_is_arr ps d u' vs : has_text d -> de_bracketed tok_lexer Json ps (st0 (dtoks d) false) = (u', Ok vs) -> exists ds, d = JArr ds.
  Proof. intros Ht H. apply bind_first in H as (u1 & H & _). eapply first_open; eassumption. Qed.
  Lemma arr_is_arr m t d v : has_text d -> R (TArr m t) d v -> exists ds, d = JArr ds.
  Proof. intros Ht [[|n] [u' H]]; [discriminate|]. cbn [de_text] in H. apply map_inv_ok in H as (a & H & _). eapply bracketed_is_arr; eassumption. Qed.
  Lemma tup_is_arr ts d v : has_text d -> R (TTup ts) d v -> tuple_arity (length ts) = true /\ exists ds, d = JArr ds.
  Proof.
    intros Ht [[|n] [u' H]]; [discriminate|]. cbn [de_text] in H. destruct (tuple_arity (length ts)); [|discriminate]. split; [reflexivity|].
    apply map_inv_ok in H as (a & H & _). eapply bracketed_is_arr; eassumption.
  Qed.
  Lemma struct_is_obj i dflt cn fs d v : nth_error G i = Some (DStruct dflt cn fs) -> has_text d -> R (TNamed i) d v -> exists ms, d = JObj ms.
  Proof. intros HG Ht [[|n] [u' H]]; [discriminate|]. cbn [de_text] in H. rewrite HG in H. apply map_inv_ok in H as (a & H & _). apply bind_first in H as (u1 & H & _). eapply first_curly; eassumption. Qed.

  (** *** Tuple structs *)
  Lemma items_brk ts : Forall2 (good_item F c G Json) (map (fun t n => de_item tok_lexer Json (de n) t) ts) ts.
  Proof. induction ts; cbn; constructor; auto using item_good. Qed.
  Lemma R_items i tr fs d v : nth_error G i = Some (DTuple tr fs) -> existsb f_hasproxy fs = false -> (2 <= length fs)%nat -> has_text d ->
    (R (TNamed i) d v <-> exists ds ws, d = JArr ds /\ tuple_means R (map f_ty fs) ds ws /\ v = VSeq ws).
  Proof.
    intros HG Hp Hl Ht. set (ts := map f_ty fs). set (ps := map (fun t n => de_item tok_lexer Json (de n) t) ts).
    assert (Hstep : forall n u, de (S n) (TNamed i) u = pmap VSeq (de_bracketed tok_lexer Json (map (fun p => p n) ps)) u).
    { intros n u. cbn [de_text]. rewrite HG, Hp. unfold ps, ts. rewrite !map_map. destruct fs as [|f [|f2 fs]]; cbn in Hl; try lia. reflexivity. }
    split.
    - intros [[|n] [u' H]]; [discriminate|]. rewrite Hstep in H. apply map_inv_ok in H as (ws & H & ->).
      destruct (bracketed_is_arr _ d u' ws Ht H) as [ds ->]. exists ds, ws. split; [reflexivity|]. split; [|reflexivity].
      destruct (arr_elements ds Ht) as (xs & Hx & Hxs).
      destruct (brk_inv F c G Json n ps ts xs (map dtoks ds) false ws [] false (st0 (dtoks (JArr ds)) false) u' (items_brk ts) Hxs) as [Hv _]; [rewrite app_nil_r; apply (st0_d _ Ht) | right; reflexivity | exact H|].
      apply (tuple_all ts ds xs ws Hx). exact Hv.
    - intros (ds & ws & -> & Hm & ->). destruct (arr_elements ds Ht) as (xs & Hx & Hxs). apply (tuple_all ts ds xs ws Hx) in Hm.
      destruct (brk_fwd F c G Json ps ts xs (map dtoks ds) false ws (items_brk ts) Hxs Hm) as [N HN]. exists (S N).
      destruct (HN N (le_n N) [] false (st0 (dtoks (JArr ds)) false) eq_refl) as (u' & E & _); [rewrite app_nil_r; apply (st0_d _ Ht)|].
      exists u'. rewrite Hstep. unfold pmap, pbind. rewrite E. reflexivity.
  Qed.
  Lemma R_single i f d v : nth_error G i = Some (DTuple false [f]) -> f_hasproxy f = false -> has_text d ->
    (R (TNamed i) d v <-> exists ds ws, d = JArr ds /\ tuple_means R [f_ty f] ds ws /\ v = VSeq ws).
  Proof.
    intros HG Hp Ht.
    assert (Hstep : forall n u, de (S n) (TNamed i) u = pmap VSeq (de_bracketed tok_lexer Json [de n (f_ty f)]) u).
    { intros n u. cbn [de_text]. rewrite HG. cbn [existsb]. rewrite Hp. reflexivity. }
    split.
    - intros [[|n] [u' H]]; [discriminate|]. rewrite Hstep in H. apply map_inv_ok in H as (ws & H & ->).
      destruct (bracketed_is_arr _ d u' ws Ht H) as [ds ->]. exists ds, ws. split; [reflexivity|]. split; [|reflexivity].
      pose proof (st0_d _ Ht) as A0. destruct (arr_elements ds Ht) as (xs & Hx & Hxs).
      apply bind_first in H as (u1 & E1 & H).
      assert (A1 : at2 Json u1 (jt (map dtoks ds) false ++ [LP KBlockClose]) false).
      { cbn [dtoks Doc.dtoks] in A0. destruct (expect2 Json (k_topen Json) (w_topen Json) _ _ _ false A0 eq_refl (or_intror eq_refl)) as (u1' & E1' & A1). cbn [dtoks Doc.dtoks] in E1. congruence. }
      clear E1 A0. cbn [de_list] in H. unfold pbind in H. destruct (de n (f_ty f) u1) as [u2 [w|e|p|]] eqn:E2; try discriminate.
      cbn [pret] in H. destruct (expect tok_lexer (k_tclose Json) (w_tclose Json) u2) as [u3 [[]|e|p|]] eqn:E3; try discriminate. cbn [pret] in H. injection H as _ <-.
      destruct ds as [|d ds]; [exfalso; cbn [map jt app] in A1; eapply (no_close F c G Json); [exact A1 | reflexivity | exact E2]|].
      inversion Hx as [|? x ? xs' Hd Hx']; subst.
      destruct (jt_cons KBlockClose (dtoks d) (map dtoks ds) false []) as (tl & Et & Htl). cbn [map] in A1. rewrite Et in A1.
      assert (Hdl : delim tl false) by (destruct Htl as [(_ & _ & ->)| ->]; reflexivity).
      destruct (embed_entire F c G Json n (f_ty f) x (dtoks d) tl false u1 u2 w (denotes_vtext F d x Hd) Hdl A1 E2) as [[He A2]|[Q _]]; [|discriminate].
      destruct Htl as [(El & _ & ->)| ->].
      + destruct ds; [|discriminate]. constructor; [apply (R_entire _ _ _ _ Hd); exact He | constructor].
      + exfalso. unfold expect in E3. rewrite (at2_tok Json _ _ _ _ A2) in E3. discriminate.
    - intros (ds & ws & -> & Hm & ->). inversion Hm as [|t d w ts ds' ws' Hw Hr]; subst. inversion Hr; subst.
      pose proof (st0_d _ Ht) as A0. destruct (arr_elements [d] Ht) as (xs & Hx & Hxs). inversion Hx as [|? x ? xs' Hd Hx']; subst.
      apply (R_entire _ _ _ _ Hd) in Hw. destruct (entire_reads F c G Json (f_ty f) x (dtoks d) w (denotes_vtext F d x Hd) Hw) as [N HN].
      cbn [dtoks Doc.dtoks] in A0. cbn [map jt] in A0. rewrite app_nil_r in A0.
      destruct (expect2 Json (k_topen Json) (w_topen Json) _ _ _ false A0 eq_refl (or_intror eq_refl)) as (u1 & E1 & A1).
      destruct (HN N (le_n N) [LP KBlockClose] false u1 eq_refl A1) as (u2 & E2 & A2).
      destruct (expect2 Json (k_tclose Json) (w_tclose Json) _ _ _ false A2 eq_refl (or_intror eq_refl)) as (u3 & E3 & A3).
      exists (S N), u3. rewrite Hstep. cbn [dtoks Doc.dtoks map jt]. rewrite app_nil_r. unfold pmap, de_bracketed, pbind. rewrite E1. cbn [de_list]. unfold pbind. rewrite E2. cbn [pret]. rewrite E3. reflexivity.
  Qed.
  Lemma R_empty i tr d v : nth_error G i = Some (DTuple tr []) -> has_text d -> (R (TNamed i) d v <-> d = JObj [] /\ v = VSeq []).
  Proof.
    intros HG Ht. split.
    - intros [[|n] [u' H]]; [discriminate|]. cbn [de_text] in H. rewrite HG in H. cbn [existsb de_unnamed] in H. apply map_inv_ok in H as (vs & H & ->).
      apply bind_first in H as (u1 & H1 & H2). destruct (first_curly _ _ _ Ht H1) as [ms ->]. pose proof (st0_d _ Ht) as A0.
      cbn [dtoks Doc.dtoks] in A0. destruct (expect2 Json KCurlyOpen (chars "{") _ _ _ false A0 eq_refl (or_intror eq_refl)) as (u1' & E1' & A1).
      cbn [dtoks Doc.dtoks] in H1. rewrite E1' in H1. injection H1 as <-. apply bind_first in H2 as (u2 & H2 & H3). injection H3 as _ <-.
      destruct ms as [|[k d] ms]; [auto|]. exfalso. unfold expect in H2. cbn [map jt fst snd] in A1. destruct ms; cbn [app map] in A1; rewrite (at2_tok Json _ _ _ _ A1) in H2; discriminate.
    - intros [-> ->]. exists 1%nat. eexists. cbn [de_text]. rewrite HG. reflexivity.
  Qed.

  (** *** Durations *)
  Notation dacc := (option N * option N)%type.
  Definition dstep (a : dacc) (m : str * doc) (a' : dacc) : Prop :=
    fst m = chars "secs" /\ fst a = None /\ (exists s v, snd m = JNum s /\ nat_means s v /\ v < 2 ^ 64 /\ a' = (Some v, snd a)) \/
    fst m = chars "nanos" /\ snd a = None /\ (exists s v, snd m = JNum s /\ nat_means s v /\ v <= u_max U32 /\ a' = (fst a, Some v)).
  Definition ditem (n : nat) (a : dacc) : @pm tst dacc :=
    pbind (de_str tok_lexer) (fun key =>
      if str_eqb key (chars "secs") then
        match fst a with
        | Some _ => perr tok_lexer (CannotParse (chars "Duration can only have one secs field"))
        | None => pbind (p_colon tok_lexer) (fun _ => pbind (de_u64 tok_lexer U64) (fun v => pret (Some v, snd a)))
        end
      else if str_eqb key (chars "nanos") then
        match snd a with
        | Some _ => perr tok_lexer (CannotParse (chars "Duration can only have one nanos field"))
        | None => pbind (p_colon tok_lexer) (fun _ => pbind (de_u64 tok_lexer U32) (fun v => pret (fst a, Some v)))
        end
      else perr tok_lexer (CannotParse (chars "Duration can only have secs or nanos fields, got " ++ key))).
  Lemma dbody (n : nat) a u : dur_body tok_lexer a u = pbind (ditem n a) (fun a' => pbind (eat_comma tok_lexer KCurlyClose (chars ", or }")) (fun _ => pret a')) u.
  Proof.
    unfold dur_body, ditem, pbind. destruct (de_str tok_lexer u) as [u1 [key|e|p|]]; reflexivity.
  Qed.
  Definition dT (m : str * doc) (l : list ltok) : Prop := has_text (snd m) /\ l = mtoks F m.
  Lemma u64_read k u t tail b u' v : at2 Json u (LP t :: tail) b -> delim tail b -> (de_u64 tok_lexer k u = (u', Ok v) -> t = KU64 v /\ v <= u_max k /\ at2 Json u' tail b) /\
    (t = KU64 v -> v <= u_max k -> exists u2, de_u64 tok_lexer k u = (u2, Ok v) /\ at2 Json u2 tail b).
  Proof.
    intros Ha Hd. pose proof (at2_tok Json _ _ _ _ Ha) as Et. cbn [ltok_kind] in Et.
    destruct (next_at u (LP t) tail b (proj1 Ha) (delim_go _ _ Hd)) as (u2 & E2 & A2 & _).
    assert (A3 : at2 Json u2 tail b) by (split; [exact A2 | destruct Ha as [_ Hr]; apply real_cons in Hr; tauto]).
    unfold de_u64, u64_range, pbind. rewrite Et. split.
    - destruct t; try discriminate. destruct (u_max k <? n) eqn:El; [discriminate|]. apply N.ltb_ge in El. cbn [l_next tok_lexer]. rewrite E2.
      intro H. injection H as <- <-. auto.
    - intros -> Hv. apply N.ltb_ge in Hv. rewrite Hv. cbn [l_next tok_lexer]. rewrite E2. exists u2. auto.
  Qed.
  Lemma str_read2 u s tail b : at2 Json u (LStr s :: tail) b -> delim tail b -> exists u', de_str tok_lexer u = (u', Ok s) /\ at2 Json u' tail b.
  Proof.
    intros [Ha Hr] Hd. destruct (str_read s tail b u Hd Ha) as (u' & E & A). exists u'. split; [exact E|]. split; [exact A|]. apply real_cons in Hr. tauto.
  Qed.
  Lemma no_u64 k d u tail b u' v : has_text d -> at2 Json u (dtoks d ++ tail) b -> de_u64 tok_lexer k u = (u', Ok v) -> exists s, d = JNum s.
  Proof.
    intros Ht Ha H. unfold de_u64, u64_range, pbind in H. destruct d as [|x|s|s|ds|ms]; try (exists s; reflexivity); exfalso; cbn [dtoks Doc.dtoks app] in Ha; rewrite (at2_tok Json _ _ _ _ Ha) in H; discriminate.
  Qed.
  Lemma ditem_colon k d tail b u : at2 Json u (mtoks F (k, d) ++ tail) b -> has_text d -> exists u1 u2, de_str tok_lexer u = (u1, Ok k) /\ p_colon tok_lexer u1 = (u2, Ok tt) /\ at2 Json u2 (dtoks d ++ tail) b.
  Proof.
    intros Ha [x Hx]. cbn [mtoks fst snd app] in Ha. destruct (str_read2 u k _ b Ha eq_refl) as (u1 & E1 & A1).
    destruct (expect2 Json KColon (chars ":") u1 _ _ b A1 eq_refl) as (u2 & E2 & A2); [left; apply denotes_lexes in Hx as [_ V]; destruct (vtoks_head _ _ V) as (y & r & -> & _); discriminate|].
    exists u1, u2. auto.
  Qed.
  Lemma ditem_inv (n : nat) a m l tail b u u' a' : dT m l -> delim tail b -> at2 Json u (l ++ tail) b -> ditem n a u = (u', Ok a') ->
    (dstep a m a' /\ at2 Json u' tail b) \/ (forall u2, eat_comma tok_lexer KCurlyClose (chars ", or }") u' <> (u2, Ok tt)).
  Proof.
    intros [Ht ->] Hd Ha H. left. destruct m as [k d]. cbn [snd] in Ht. destruct (ditem_colon k d tail b u Ha Ht) as (u1 & u2 & E1 & E2 & A2).
    unfold ditem, pbind at 1 in H. rewrite E1 in H. destruct (str_eqb k (chars "secs")) eqn:Ek.
    - apply str_eqb_eq in Ek. destruct (fst a) eqn:Ea; [discriminate|]. unfold pbind at 1 in H. rewrite E2 in H. unfold pbind in H.
      destruct (de_u64 tok_lexer U64 u2) as [u3 [v|e|p|]] eqn:E3; try discriminate. injection H as <- <-.
      destruct (no_u64 U64 d u2 tail b u3 v Ht A2 E3) as [s ->]. destruct (num_head s Ht) as (t & Hv & Et & _). rewrite Et in A2.
      destruct (proj1 (u64_read U64 u2 t tail b u3 v A2 Hd) E3) as (-> & Hm & A3). split; [|exact A3]. left. split; [exact Ek|]. split; [exact Ea|]. exists s, v.
      split; [reflexivity|]. split; [apply (nat_of_tok F s (KU64 v) v Hv); reflexivity|]. split; [cbn in Hm; lia | reflexivity].
    - destruct (str_eqb k (chars "nanos")) eqn:Ek2; [|discriminate]. apply str_eqb_eq in Ek2. destruct (snd a) eqn:Ea; [discriminate|]. unfold pbind at 1 in H. rewrite E2 in H. unfold pbind in H.
      destruct (de_u64 tok_lexer U32 u2) as [u3 [v|e|p|]] eqn:E3; try discriminate. injection H as <- <-.
      destruct (no_u64 U32 d u2 tail b u3 v Ht A2 E3) as [s ->]. destruct (num_head s Ht) as (t & Hv & Et & _). rewrite Et in A2.
      destruct (proj1 (u64_read U32 u2 t tail b u3 v A2 Hd) E3) as (-> & Hm & A3). split; [|exact A3]. right. split; [exact Ek2|]. split; [exact Ea|]. exists s, v.
      split; [reflexivity|]. split; [apply (nat_of_tok F s (KU64 v) v Hv); reflexivity|]. split; [exact Hm | reflexivity].
  Qed.
  Lemma ditem_fwd a m l a' : dT m l -> dstep a m a' -> exists N, forall n, (N <= n)%nat -> reads2 Json (ditem n a) l a'.
  Proof.
    intros [Ht ->] Hs. exists O. intros n _ tail b u Hd Ha. destruct m as [k d]. cbn [fst snd] in *. destruct (ditem_colon k d tail b u Ha Ht) as (u1 & u2 & E1 & E2 & A2).
    unfold ditem, pbind at 1. rewrite E1. destruct Hs as [(Ek & Ea & s & v & Es & Hm & Hv & ->)|(Ek & Ea & s & v & Es & Hm & Hv & ->)]; cbn [fst snd] in Ek, Es; subst k d.
    - replace (str_eqb (chars "secs") (chars "secs")) with true by reflexivity. rewrite Ea. unfold pbind at 1. rewrite E2. unfold pbind.
      destruct (num_head s Ht) as (t & Hn & Et & _). rewrite Et in A2. apply (nat_of_tok F s t v Hn) in Hm. subst t.
      destruct (proj2 (u64_read U64 u2 (KU64 v) tail b u2 v A2 Hd) eq_refl) as (u3 & E3 & A3); [cbn; lia|]. rewrite E3. exists u3. auto.
    - replace (str_eqb (chars "nanos") (chars "secs")) with false by reflexivity. replace (str_eqb (chars "nanos") (chars "nanos")) with true by reflexivity.
      rewrite Ea. unfold pbind at 1. rewrite E2. unfold pbind.
      destruct (num_head s Ht) as (t & Hn & Et & _). rewrite Et in A2. apply (nat_of_tok F s t v Hn) in Hm. subst t.
      destruct (proj2 (u64_read U32 u2 (KU64 v) tail b u2 v A2 Hd) eq_refl Hv) as (u3 & E3 & A3). rewrite E3. exists u3. auto.
  Qed.
  Lemma dur_cond_close u tail b : at2 Json u (LP KCurlyClose :: tail) b -> negb (tok_is (l_tok tok_lexer u) KCurlyClose) = false.
  Proof. intro H. rewrite (at2_tok Json _ _ _ _ H). reflexivity. Qed.
  Lemma dur_cond (m : str * doc) l tail b u : dT m l -> at2 Json u (l ++ tail) b -> negb (tok_is (l_tok tok_lexer u) KCurlyClose) = true.
  Proof. intros [_ ->] H. cbn [mtoks app] in H. rewrite (at2_tok Json _ _ _ _ H). reflexivity. Qed.
  Lemma curly_closing : closing KCurlyClose. Proof. right. left. reflexivity. Qed.
  Lemma dT_all ms : has_text (JObj ms) -> Forall2 dT ms (map (mtoks F) ms).
  Proof.
    intro Ht. assert (H : Forall (fun m => has_text (snd m)) ms) by (apply Forall_forall; intros [k d] Hi; eapply member_text; eassumption).
    clear Ht. induction H as [|m ms Hm H IH]; cbn [map]; constructor; [split; [exact Hm | reflexivity] | exact IH].
  Qed.

  (** What the members come to. *)
  Lemma dchain_inv ms s o : chain dstep (None, None) ms (Some s, o) ->
    dur_members ms s (match o with Some x => x | None => 0 end) /\ s < 2 ^ 64.
  Proof.
    intro C. inversion C as [|a m1 a1 r1 a2 S1 C1]; subst. destruct m1 as [k1 d1]. unfold dstep in S1. cbn [fst snd] in S1.
    destruct S1 as [(-> & _ & s1 & v1 & -> & M1 & B1 & ->)|(-> & _ & s1 & v1 & -> & M1 & B1 & ->)].
    - inversion C1 as [|a m2 a3 r2 a4 S2 C2]; subst.
      + split; [|exact B1]. exists s1, []. split; [exact M1|]. left. auto.
      + destruct m2 as [k2 d2]. unfold dstep in S2. cbn [fst snd] in S2. destruct S2 as [(_ & Q & _)|(-> & _ & s2 & v2 & -> & M2 & B2 & ->)]; [discriminate|].
        inversion C2 as [|a m3 a5 r3 a6 S3 C3]; subst.
        * split; [|exact B1]. exists s1, s2. split; [exact M1|]. right. split; [exact M2|]. left. reflexivity.
        * unfold dstep in S3. cbn [fst snd] in S3. destruct S3 as [(_ & Q & _)|(_ & Q & _)]; discriminate.
    - inversion C1 as [|a m2 a3 r2 a4 S2 C2]; subst.
      destruct m2 as [k2 d2]. unfold dstep in S2. cbn [fst snd] in S2. destruct S2 as [(-> & _ & s2 & v2 & -> & M2 & B2 & ->)|(_ & Q & _)]; [|discriminate].
      inversion C2 as [|a m3 a5 r3 a6 S3 C3]; subst.
      + split; [|exact B2]. exists s2, s1. split; [exact M2|]. right. split; [exact M1|]. right. reflexivity.
      + unfold dstep in S3. cbn [fst snd] in S3. destruct S3 as [(_ & Q & _)|(_ & Q & _)]; discriminate.
  Qed.
  Lemma dchain_fwd ms s b : dur_members ms s b -> s < 2 ^ 64 -> b <= 1000000000 -> exists o, chain dstep (None, None) ms (Some s, o) /\ b = match o with Some x => x | None => 0 end.
  Proof.
    intros (sa & sb & Ma & H) Hs Hb. destruct H as [[-> ->]|[Mb [-> | ->]]].
    - exists None. split; [|reflexivity]. econstructor; [|constructor]. left. split; [reflexivity|]. split; [reflexivity|]. exists sa, s. auto.
    - exists (Some b). split; [|reflexivity]. econstructor; [|econstructor; [|constructor]].
      + left. split; [reflexivity|]. split; [reflexivity|]. exists sa, s. cbn [snd]. auto.
      + right. split; [reflexivity|]. split; [reflexivity|]. exists sb, b. cbn [snd fst]. split; [reflexivity|]. split; [exact Mb|]. split; [|reflexivity]. change (u_max U32) with 4294967295. lia.
    - exists (Some b). split; [|reflexivity]. econstructor; [|econstructor; [|constructor]].
      + right. split; [reflexivity|]. split; [reflexivity|]. exists sb, b. cbn [snd fst]. split; [reflexivity|]. split; [exact Mb|]. split; [|reflexivity]. change (u_max U32) with 4294967295. lia.
      + left. split; [reflexivity|]. split; [reflexivity|]. exists sa, s. cbn [snd fst]. auto.
  Qed.
  Lemma dur_inv n d u' v : has_text d -> de_dur tok_lexer n (st0 (dtoks d) false) = (u', Ok v) -> exists s ns, dur_means d s ns /\ v = VDur s ns.
  Proof.
    intros Ht H. apply bind_first in H as (u1 & E1 & H). destruct (first_curly _ _ _ Ht E1) as [ms ->].
    pose proof (st0_d _ Ht) as A0. cbn [dtoks Doc.dtoks] in A0.
    destruct (expect2 Json KCurlyOpen (chars "{") _ _ _ false A0 eq_refl (or_intror eq_refl)) as (u1' & E1' & A1). cbn [dtoks Doc.dtoks] in E1. rewrite E1' in E1. injection E1 as <-.
    unfold pbind at 1 in H. destruct (while_ n _ _ _ u1') as [u2 [acc|e|p|]] eqn:E2; try discriminate.
    destruct (loop_inv Json _ ditem (fun _ => dur_body tok_lexer) KCurlyClose (chars ", or }") dbody curly_closing dur_cond_close dT dstep dur_cond ditem_inv n n false ms (map (mtoks F) ms) (dT_all ms Ht) _ _ _ _ [] false A1 E2) as [C A2].
    destruct (expect2 Json KCurlyClose (chars "}") u2 _ _ false A2 eq_refl (or_intror eq_refl)) as (u3 & E3 & A3).
    unfold pbind at 1 in H. rewrite E3 in H. destruct acc as [[s|] o]; cbn [fst snd] in H; [|discriminate].
    destruct (dchain_inv ms s o C) as [Hm Hs]. set (b := match o with Some x => x | None => 0 end) in *.
    destruct (1000000000 <? b) eqn:Eb; [discriminate|]. apply N.ltb_ge in Eb. destruct (b <? 1000000000) eqn:Eb2.
    - apply N.ltb_lt in Eb2. injection H as _ <-. exists s, b. split; [|reflexivity]. exists ms, s, b. auto 8.
    - apply N.ltb_ge in Eb2. destruct (s + 1 <? 2 ^ 64) eqn:Es; [|discriminate]. apply N.ltb_lt in Es. injection H as _ <-. exists (s + 1), 0. split; [|reflexivity].
      exists ms, s, b. split; [reflexivity|]. split; [exact Hm|]. split; [exact Hs|]. right. split; [lia|]. auto.
  Qed.
  Lemma dur_fwd d s ns : has_text d -> dur_means d s ns -> exists n u', de_dur tok_lexer n (st0 (dtoks d) false) = (u', Ok (VDur s ns)).
  Proof.
    intros Ht (ms & a & b & -> & Hm & Ha & Hb). pose proof (st0_d _ Ht) as A0. cbn [dtoks Doc.dtoks] in A0.
    destruct (expect2 Json KCurlyOpen (chars "{") _ _ _ false A0 eq_refl (or_intror eq_refl)) as (u1 & E1 & A1).
    destruct (dchain_fwd ms a b Hm Ha ltac:(destruct Hb; lia)) as (o & C & Eo).
    destruct (loop_fwd Json (fun s => negb (tok_is (l_tok tok_lexer s) KCurlyClose)) ditem (fun _ => dur_body tok_lexer) KCurlyClose (chars ", or }") dbody curly_closing dur_cond_close dT dstep dur_cond ditem_inv ditem_fwd false ms (map (mtoks F) ms) _ _ C (dT_all ms Ht)) as [N HN].
    set (n := Nat.max N (S (length (map (mtoks F) ms)))).
    destruct (HN n n ltac:(lia) ltac:(lia) [] false u1 A1) as (u2 & E2 & A2).
    destruct (expect2 Json KCurlyClose (chars "}") u2 _ _ false A2 eq_refl (or_intror eq_refl)) as (u3 & E3 & A3).
    exists n, u3. unfold de_dur. cbn [dtoks Doc.dtoks]. unfold pbind at 1. rewrite E1. unfold pbind at 1. rewrite E2. unfold pbind at 1. rewrite E3. cbn [fst snd]. rewrite <- Eo.
    destruct Hb as [(Hb & -> & ->)|(-> & -> & Hb & ->)].
    - replace (1000000000 <? b) with false by (symmetry; apply N.ltb_ge; lia). replace (b <? 1000000000) with true by (symmetry; apply N.ltb_lt; lia). reflexivity.
    - replace (1000000000 <? 1000000000) with false by reflexivity. replace (a + 1 <? 2 ^ 64) with true by (symmetry; apply N.ltb_lt; lia). reflexivity.
  Qed.
  Lemma R_dur d v : has_text d -> (R TDur d v <-> exists s ns, dur_means d s ns /\ v = VDur s ns).
  Proof.
    intro Ht. split.
    - intros [[|n] [u' H]]; [discriminate|]. cbn [de_text] in H. eapply dur_inv; eassumption.
    - intros (s & ns & Hm & ->). destruct (dur_fwd d s ns Ht Hm) as (n & u' & H). exists (S n), u'. exact H.
  Qed.
  Lemma R_time d v : has_text d -> (R TTime d v <-> d = JNull /\ v = VTime 0 0 \/ exists s ns, dur_means d s ns /\ s <= time_max c /\ v = VTime (Z.of_N s) ns).
  Proof.
    intro Ht. split.
    - intros [[|n] [u' H]]; [discriminate|]. cbn [de_text] in H. unfold de_time, pbind at 1, de_opt in H.
      destruct (at_none tok_lexer Json (st0 (dtoks d) false)) eqn:E.
      + apply (at_none_doc d Ht) in E. subst d. left. split; [reflexivity|]. unfold pbind in H. stc_in H. injection H as _ <-. reflexivity.
      + right. unfold pmap, pbind in H. destruct (de_dur tok_lexer n (st0 (dtoks d) false)) as [u1 [w|e|p|]] eqn:E2; try discriminate.
        destruct (dur_inv n d u1 w Ht E2) as (s & ns & Hm & ->). cbn [pret] in H. destruct (s <=? time_max c) eqn:Es; [|discriminate]. apply N.leb_le in Es.
        injection H as _ <-. exists s, ns. auto.
    - intros [[-> ->]|(s & ns & Hm & Hs & ->)].
      + exists 1%nat. eexists. reflexivity.
      + destruct (dur_fwd d s ns Ht Hm) as (n & u' & H). exists (S n), u'. cbn [de_text]. unfold de_time, pbind at 1, de_opt.
        destruct (at_none tok_lexer Json (st0 (dtoks d) false)) eqn:E.
        * apply (at_none_doc d Ht) in E. subst d. destruct Hm as (ms & _ & _ & Q & _). discriminate.
        * unfold pmap, pbind. rewrite H. cbn [pret]. apply N.leb_le in Hs. rewrite Hs. reflexivity.
  Qed.
  Lemma R_opt t d v : has_text d -> (R (TOpt t) d v <-> d = JNull /\ v = VNone \/ d <> JNull /\ exists w, v = VSome w /\ R t d w).
  Proof.
    intro Ht. split.
    - intros [[|n] [u' H]]; [discriminate|]. cbn [de_text] in H. unfold de_opt in H. destruct (at_none tok_lexer Json (st0 (dtoks d) false)) eqn:E.
      + apply (at_none_doc d Ht) in E. subst d. left. split; [reflexivity|]. unfold pbind in H. stc_in H. injection H as _ <-. reflexivity.
      + right. split; [intros ->; discriminate|]. apply map_inv_ok in H as (w & H & ->). exists w. split; [reflexivity|]. exists n, u'. exact H.
    - intros [[-> ->]|(Hd & w & -> & n & u' & H)].
      + exists 1%nat. eexists. reflexivity.
      + exists (S n), u'. cbn [de_text]. unfold de_opt. destruct (at_none tok_lexer Json (st0 (dtoks d) false)) eqn:E; [apply (at_none_doc d Ht) in E; contradiction|].
        unfold pmap, pbind. rewrite H. reflexivity.
  Qed.
End Runs.

(** ** The main result *)
Lemma f2_in {A B} (P Q : A -> B -> Prop) l1 l2 : (forall a b, In a l1 -> P a b -> Q a b) -> Forall2 P l1 l2 -> Forall2 Q l1 l2.
Proof. intros H H2. induction H2 as [|a b l1 l2 Ha H2 IH]; constructor; [apply H; [left; reflexivity | exact Ha] | apply IH; intros; apply H; [right|]; assumption]. Qed.
Lemma tuple_in {dc} (m m' : ty -> dc -> val -> Prop) ts ds vs : (forall t d v, In d ds -> m t d v -> m' t d v) -> tuple_means m ts ds vs -> tuple_means m' ts ds vs.
Proof. intros H H2. induction H2 as [|t d v ts ds vs Hd H2 IH]; constructor; [apply H; [left; reflexivity | exact Hd] | apply IH; intros; apply H; [right|]; assumption]. Qed.
Lemma last_named_in {dc} k (d : dc) ms : last_named k d ms -> In (k, d) ms.
Proof. intros (pre & post & -> & _). apply in_or_app. right. left. reflexivity. Qed.
Lemma field_in {dc} (m m' : ty -> dc -> val -> Prop) f d v : (forall t w, m t d w -> m' t d w) -> field_means m f d v -> field_means m' f d v.
Proof. intro H. unfold field_means. destruct (f_isopt f && f_hasproxy f); [intros (w & -> & Hw); eauto | auto]. Qed.
Lemma fields_in {dc} (m m' : ty -> dc -> val -> Prop) dflt fs ms vs : (forall k d t v, In (k, d) ms -> m t d v -> m' t d v) -> fields_means m dflt fs ms vs -> fields_means m' dflt fs ms vs.
Proof.
  intros H (H1 & H2 & H3). split; [|split; [|exact H3]].
  - eapply f2_impl; [|exact H1]. intros f v. unfold field_from. destruct (f_skip f); [auto|]. intros [(d & Hd & Hv)|Hv]; [|auto].
    left. exists d. split; [exact Hd|]. eapply field_in; [|exact Hv]. intros t w. eapply H. eapply last_named_in. exact Hd.
  - intros k d f A B C D. destruct (H2 k d f A B C D) as [w Hw]. exists w. eapply field_in; [|exact Hw]. intros t x. eapply H. exact A.
Qed.
  Lemma fuel_all {A} (P : nat -> A -> Prop) l : (forall j k x, (j <= k)%nat -> P j x -> P k x) -> Forall (fun x => exists k, P k x) l -> exists k, Forall (P k) l.
  Proof.
    intros Hle H. induction H as [|x l [k1 Hx] H [k2 IH]]; [exists O; constructor|]. exists (Nat.max k1 k2). constructor; [eapply Hle; [|exact Hx]; lia|].
    eapply Forall_impl; [|exact IH]. intros y. apply Hle. lia.
  Qed.
  Lemma fuel_f2 {A B} (P : nat -> A -> B -> Prop) l1 l2 : (forall j k x y, (j <= k)%nat -> P j x y -> P k x y) -> Forall2 (fun x y => exists k, P k x y) l1 l2 -> exists k, Forall2 (P k) l1 l2.
  Proof.
    intros Hle H. induction H as [|x y l1 l2 [k1 Hx] H [k2 IH]]; [exists O; constructor|]. exists (Nat.max k1 k2). constructor; [eapply Hle; [|exact Hx]; lia|].
    eapply f2_impl; [|exact IH]. intros a b. apply Hle. lia.
  Qed.
Section Fuel.
  Context {doc : Type}.
  Variable m : nat -> ty -> doc -> val -> Prop.
  Hypothesis means_le : forall n n' t d v, (n <= n')%nat -> m n t d v -> m n' t d v.
  Definition fuel_ex (t : ty) (d : doc) (v : val) : Prop := exists k, m k t d v.
  Lemma fuel_tuple ts ds vs : tuple_means fuel_ex ts ds vs -> exists k, tuple_means (m k) ts ds vs.
  Proof.
    induction 1 as [|t d v ts ds vs [k1 Hx] H [k2 IH]]; [exists O; constructor|]. exists (Nat.max k1 k2). constructor; [eapply means_le; [|exact Hx]; lia|].
    eapply tuple_means_impl; [|exact IH]. intros t' d' v'. apply means_le. lia.
  Qed.
  Lemma fuel_field f d v : field_means fuel_ex f d v -> exists k, field_means (m k) f d v.
  Proof. unfold field_means. destruct (f_isopt f && f_hasproxy f); [intros (w & -> & k & Hw); exists k, w; auto | intros [k H]; exists k; exact H]. Qed.
  Lemma field_le j k f d v : (j <= k)%nat -> field_means (m j) f d v -> field_means (m k) f d v.
  Proof. intro H. apply field_means_impl. intros t d' v'. apply means_le. exact H. Qed.
  Lemma fuel_fields dflt fs ms vs : fields_means fuel_ex dflt fs ms vs -> exists k, fields_means (m k) dflt fs ms vs.
  Proof.
    intros (H1 & H2 & H3).
    assert (X1 : exists k, Forall2 (field_from (m k) dflt ms) fs vs).
    { apply (fuel_f2 (fun k => field_from (m k) dflt ms)).
      - intros j k f v Hjk. unfold field_from. destruct (f_skip f); [auto|]. intros [(d & Hd & Hv)|Hv]; [|auto]. left. exists d. split; [exact Hd | eapply field_le; eassumption].
      - eapply f2_impl; [|exact H1]. intros f v. unfold field_from. destruct (f_skip f); [exists O; assumption|]. intros [(d & Hd & Hv)|Hv]; [|exists O; auto].
        apply fuel_field in Hv as [k Hv]. exists k. eauto. }
    assert (X2 : exists k, Forall (fun p => In (fst p) ms -> In (snd p) fs -> f_skip (snd p) = false -> key_of_field (snd p) = fst (fst p) -> exists w, field_means (m k) (snd p) (snd (fst p)) w) (list_prod ms fs)).
    { apply (fuel_all (fun k p => In (fst p) ms -> In (snd p) fs -> f_skip (snd p) = false -> key_of_field (snd p) = fst (fst p) -> exists w, field_means (m k) (snd p) (snd (fst p)) w)).
      - intros j k p Hjk H A B C D. destruct (H A B C D) as [w Hw]. exists w. eapply field_le; eassumption.
      - apply Forall_forall. intros [[k d] f] Hp. cbn [fst snd]. apply in_prod_iff in Hp as [A B]. destruct (f_skip f) eqn:Es; [exists O; intros; congruence|].
        destruct (list_eq_dec N.eq_dec (key_of_field f) k) as [E|E]; [|exists O; intros; congruence].
        destruct (H2 k d f A B Es E) as [w Hw]. apply fuel_field in Hw as [j Hw]. exists j. intros. exists w. exact Hw. }
    destruct X1 as [k1 X1], X2 as [k2 X2]. exists (Nat.max k1 k2). split; [|split; [|exact H3]].
    - eapply f2_impl; [|exact X1]. intros f v. unfold field_from. destruct (f_skip f); [auto|]. intros [(d & Hd & Hv)|Hv]; [|auto]. left. exists d. split; [exact Hd|]. eapply field_le; [|exact Hv]. lia.
    - intros k d f A B C D. rewrite Forall_forall in X2. destruct (X2 ((k, d), f)) as [w Hw]; try assumption; [apply in_prod_iff; auto|]. exists w. eapply field_le; [|exact Hw]. lia.
  Qed.
End Fuel.
Definition means_ex (F : flt) (c : cfg) (G : env) (t : ty) (d : doc) (v : val) : Prop := exists k, means F c G k t d v.

Section MainDoc.
  Variables (F : flt) (c : cfg) (G : env).
  Hypothesis HD : Forall distinct_names G.
  Notation de := (de_text tok_lexer F c G Json).
  Notation m := (means F c G).
  Notation mx := (means_ex F c G).
  Notation R := (R F c G).
  Notation runs := (runs F c G).
  Notation has_text := (has_text F).
  Lemma names_of i d : nth_error G i = Some d -> distinct_names d.
  Proof. intro H. rewrite Forall_forall in HD. apply HD. eapply nth_error_In. exact H. Qed.
  Lemma key_text k d ms : has_text (JObj ms) -> In (k, d) ms -> has_text (JStr k).
  Proof.
    intros Ht Hi. destruct (obj_entries F ms Ht) as (_ & es & _ & _ & He). clear Ht. induction He as [|m0 e ms es [H1 _] He IH]; [contradiction|].
    destruct Hi as [->|Hi]; [exists (fst e); exact H1 | auto].
  Qed.
  Lemma one_text k d : has_text (JObj [(k, d)]) -> has_text d.
  Proof. intro H. eapply member_text; [exact H | left; reflexivity]. Qed.

  Theorem means_runs : forall k t d v, has_text d -> m k t d v -> R t d v.
  Proof.
    induction k as [|k IH]; intros t d v Ht H; [contradiction|]. cbn [means] in H.
    assert (IHa : forall ds, has_text (JArr ds) -> forall t v d, In d ds -> m k t d v -> R t d v) by (intros ds Hds t' v' d' Hin; apply IH; eapply element_text; eassumption).
    assert (IHo : forall ms, has_text (JObj ms) -> forall k' d' t' v', In (k', d') ms -> m k t' d' v' -> R t' d' v') by (intros ms Hms k' d' t' v' Hin; apply IH; eapply member_text; eassumption).
    destruct t as [k0| | | | | |t'|k0 t'|k0 tk tv|n t'|ts|t'| | |p t'|i].
    - apply (R_int F c G k0 d v Ht). exact H.
    - apply (R_f32 F c G d v Ht). exact H.
    - apply (R_f64 F c G d v Ht). exact H.
    - apply (R_bool F c G d v Ht). exact H.
    - apply (R_str F c G d v Ht). exact H.
    - apply (R_unit F c G d v Ht). exact H.
    - apply (R_opt F c G t' d v Ht). destruct H as [H|(Hd & w & E & H)]; [left; exact H | right; split; [exact Hd|]; exists w; auto].
    - destruct H as (ds & ws & -> & H & E). apply (R_seq F c G k0 t' ds v Ht). exists ws. split; [|exact E]. eapply f2_in; [|exact H]. intros; eapply IHa; eassumption.
    - destruct H as (ms & ws & -> & H & E). apply (R_map F c G k0 tk tv ms v Ht). exists ws. split; [|exact E]. eapply f2_in; [|exact H]. intros [a b] w Hin [A B]. cbn [fst snd] in *.
      split; [apply IH; [eapply key_text; eassumption | exact A] | eapply IHo; eassumption].
    - destruct H as (ds & ws & -> & El & H & E). apply (R_arr F c G n t' ds v Ht). exists ws. split; [exact El|]. split; [|exact E]. eapply f2_in; [|exact H]. intros; eapply IHa; eassumption.
    - destruct H as (Ha & ds & ws & -> & H & E). apply (R_tup F c G ts ds v Ht).
      + unfold tuple_arity. apply andb_true_intro. split; apply Nat.leb_le; lia.
      + exists ws. split; [|exact E]. eapply tuple_in; [|exact H]. intros; eapply IHa; eassumption.
    - destruct (IH _ _ _ Ht H) as [n Hn]. exists (S n). exact Hn.
    - apply (R_dur F c G d v Ht). exact H.
    - apply (R_time F c G d v Ht). exact H.
    - destruct H as (w & H & ->). destruct (IH _ _ _ Ht H) as [n [u' Hn]]. exists (S n), u'. cbn [de_text]. unfold pmap, pbind. rewrite Hn. reflexivity.
    - destruct (nth_error G i) as [[dflt cn fs|tr fs|vs|p t']|] eqn:EG; [| | | |contradiction].
      + destruct H as (ms & vs & -> & -> & H). apply (R_struct F c G i dflt cn fs ms _ EG (names_of i _ EG) Ht). exists vs. split; [reflexivity|].
        eapply fields_in; [|exact H]. intros; eapply IHo; eassumption.
      + destruct H as [Hp H]. destruct fs as [|f [|f2 fs]].
        * apply (R_empty F c G i tr d v EG Ht). exact H.
        * destruct tr.
          -- destruct H as (w & H & ->). destruct (IH _ _ _ Ht H) as [n [u' Hn]]. exists (S n), u'. cbn [de_text]. rewrite EG, Hp. cbn [de_unnamed]. unfold pmap, pbind. rewrite Hn. reflexivity.
          -- destruct H as (ds & ws & -> & H & E). cbn [existsb] in Hp. rewrite orb_false_r in Hp. apply (R_single F c G i f _ v EG Hp Ht). exists ds, ws. split; [reflexivity|]. split; [|exact E].
             eapply tuple_in; [|exact H]. intros; eapply IHa; eassumption.
        * destruct H as (ds & ws & -> & H & E). apply (R_items F c G i tr _ _ v EG Hp ltac:(cbn; lia) Ht). exists ds, ws. split; [reflexivity|]. split; [|exact E].
          eapply tuple_in; [|exact H]. intros; eapply IHa; eassumption.
      + destruct (names_of i _ EG) as [Hnd Hfs]. destruct H as (tag & vr & Hv & H). destruct (v_body vr) as [|ts|fs] eqn:Eb.
        * destruct H as [-> ->]. apply (R_uvariant F c G i vs EG Hnd tag vr Hv Eb Ht).
        * destruct H as (ds & ws & -> & H & ->). apply (R_tvariant F c G i vs EG Hnd tag vr ts ds _ Hv Eb Ht). exists ws. split; [reflexivity|].
          eapply tuple_in; [|exact H]. pose proof (one_text _ _ Ht) as Ht1. intros; eapply IHa; eassumption.
        * destruct H as (ms & ws & -> & H & ->). assert (Hdf : distinct_fields fs) by (pose proof (proj1 (Forall_forall _ _) Hfs vr (nth_error_In _ _ Hv)) as Q; cbv beta in Q; rewrite Eb in Q; exact Q).
          apply (R_svariant F c G i vs EG Hnd tag vr fs ms _ Hv Eb Hdf Ht). exists ws. split; [reflexivity|].
          eapply fields_in; [|exact H]. pose proof (one_text _ _ Ht) as Ht1. intros; eapply IHo; eassumption.
      + destruct H as (w & H & ->). destruct (IH _ _ _ Ht H) as [n [u' Hn]]. exists (S n), u'. cbn [de_text]. rewrite EG. unfold pmap, pbind. rewrite Hn. reflexivity.
  Qed.

  Definition inverts (d : doc) : Prop := has_text d -> forall n t v, runs n t d v -> mx t d v.
  Lemma inverts_R d t v : inverts d -> has_text d -> R t d v -> mx t d v.
  Proof. intros H Ht [n Hn]. eapply H; eassumption. Qed.
  Lemma invert_step d : (forall ds, d = JArr ds -> Forall inverts ds) -> (forall ms, d = JObj ms -> Forall (fun x => inverts (JStr (fst x)) /\ inverts (snd x)) ms) ->
    (forall k ms, d = JObj [(k, JObj ms)] -> Forall (fun x => inverts (snd x)) ms) -> (forall k ds, d = JObj [(k, JArr ds)] -> Forall inverts ds) -> inverts d.
  Proof.
    intros HA HO HOO HOA Ht. induction n as [|n IH]; intros t v H; [destruct H; discriminate|].
    assert (Hlift : forall (P : nat -> Prop), (exists k, P k) -> exists k, P k) by auto.
    assert (IA : forall ds, d = JArr ds -> forall t v x, In x ds -> R t x v -> mx t x v).
    { intros ds -> t' v' x Hin. apply inverts_R; [|eapply element_text; eassumption]. specialize (HA ds eq_refl). rewrite Forall_forall in HA. auto. }
    assert (IO : forall ms, d = JObj ms -> forall k x t v, In (k, x) ms -> R t x v -> mx t x v).
    { intros ms -> k x t' v' Hin. apply inverts_R; [|eapply member_text; eassumption]. specialize (HO ms eq_refl). rewrite Forall_forall in HO. apply (HO (k, x) Hin). }
    assert (IK : forall ms, d = JObj ms -> forall k x t v, In (k, x) ms -> R t (JStr k) v -> mx t (JStr k) v).
    { intros ms -> k x t' v' Hin. apply inverts_R; [|eapply key_text; eassumption]. specialize (HO ms eq_refl). rewrite Forall_forall in HO. apply (HO (k, x) Hin). }
    assert (HR : R t d v) by (exists (S n); exact H). unfold means_ex.
    destruct t as [k0| | | | | |t'|k0 t'|k0 tk tv|n0 t'|ts|t'| | |p t'|i].
    - exists 1%nat. apply (R_int F c G k0 d v Ht). exact HR.
    - exists 1%nat. apply (R_f32 F c G d v Ht). exact HR.
    - exists 1%nat. apply (R_f64 F c G d v Ht). exact HR.
    - exists 1%nat. apply (R_bool F c G d v Ht). exact HR.
    - exists 1%nat. apply (R_str F c G d v Ht). exact HR.
    - exists 1%nat. apply (R_unit F c G d v Ht). exact HR.
    - destruct H as [u' H]. cbn [de_text] in H. unfold de_opt in H. destruct (at_none tok_lexer Json (st0 (Doc.dtoks F d) false)) eqn:E.
      + apply (at_none_doc F d Ht) in E. subst d. exists 1%nat. left. split; [reflexivity|]. apply (R_opt F c G t' JNull v Ht) in HR as [[_ ->]|[Q _]]; [reflexivity | congruence].
      + apply (map_inv_ok VSome) in H as (w & H & ->). destruct (IH t' w (ex_intro _ u' H)) as [k Hk]. exists (S k). right. split; [intros ->; discriminate | eauto].
    - destruct (seq_is_arr F c G _ _ _ _ Ht HR) as [ds ->]. apply (R_seq F c G k0 t' ds v Ht) in HR as (ws & HR & E).
      assert (X : Forall2 (mx t') ds ws) by (eapply f2_in; [|exact HR]; intros a b Hin; eapply IA; [reflexivity | exact Hin]).
      apply (fuel_f2 (fun k => m k t')) in X as [k X]; [|intros j k a b Hjk; apply means_le; exact Hjk]. exists (S k). exists ds, ws. auto.
    - destruct (map_is_obj F c G _ _ _ _ _ Ht HR) as [ms ->]. apply (R_map F c G k0 tk tv ms v Ht) in HR as (ws & HR & E).
      assert (X : Forall2 (fun x w => exists k, m k tk (JStr (fst x)) (fst w) /\ m k tv (snd x) (snd w)) ms ws).
      { eapply f2_in; [|exact HR]. intros [a b] w Hin [A B]. cbn [fst snd] in *. destruct (IK ms eq_refl a b tk _ Hin A) as [k1 K1]. destruct (IO ms eq_refl a b tv _ Hin B) as [k2 K2].
        exists (Nat.max k1 k2). split; [eapply means_le; [|exact K1]; lia | eapply means_le; [|exact K2]; lia]. }
      apply (fuel_f2 (fun k x w => m k tk (JStr (fst x)) (fst w) /\ m k tv (snd x) (snd w))) in X as [k X].
      + exists (S k). exists ms, ws. auto.
      + intros j k a b Hjk [A B]. split; eapply means_le; eassumption.
    - destruct (arr_is_arr F c G _ _ _ _ Ht HR) as [ds ->]. apply (R_arr F c G n0 t' ds v Ht) in HR as (ws & El & HR & E).
      assert (X : Forall2 (mx t') ds ws) by (eapply f2_in; [|exact HR]; intros a b Hin; eapply IA; [reflexivity | exact Hin]).
      apply (fuel_f2 (fun k => m k t')) in X as [k X]; [|intros j k a b Hjk; apply means_le; exact Hjk]. exists (S k). exists ds, ws. auto.
    - destruct (tup_is_arr F c G _ _ _ Ht HR) as [Ha [ds ->]]. apply (R_tup F c G ts ds v Ht Ha) in HR as (ws & HR & E).
      assert (X : tuple_means mx ts ds ws) by (eapply tuple_in; [|exact HR]; intros t d0 b Hin; eapply IA; [reflexivity | exact Hin]).
      apply (fuel_tuple (means F c G) (means_le F c G)) in X as [k X]. exists (S k). unfold tuple_arity in Ha. apply andb_prop in Ha as [A B]. apply Nat.leb_le in A, B. split; [lia|]. exists ds, ws. auto.
    - destruct (IH t' v H) as [k Hk]. exists (S k). exact Hk.
    - exists 1%nat. apply (R_dur F c G d v Ht). exact HR.
    - exists 1%nat. apply (R_time F c G d v Ht). exact HR.
    - destruct H as [u' H]. cbn [de_text] in H. apply (map_inv_ok (p_from p)) in H as (w & H & ->). destruct (IH t' w (ex_intro _ u' H)) as [k Hk]. exists (S k). exists w. auto.
    - destruct (nth_error G i) as [[dflt cn fs|tr fs|vs|p t']|] eqn:EG.
      + destruct (struct_is_obj F c G i dflt cn fs d v EG Ht HR) as [ms ->].
        apply (R_struct F c G i dflt cn fs ms _ EG (names_of i _ EG) Ht) in HR as (vs & -> & HR).
        assert (X : fields_means mx dflt fs ms vs) by (eapply fields_in; [|exact HR]; intros k d0 t v Hin; eapply IO; [reflexivity | exact Hin]).
        apply (fuel_fields (means F c G) (means_le F c G)) in X as [k X]. exists (S k). cbn [means]. rewrite EG. exists ms, vs. auto.
      + assert (Hp : existsb f_hasproxy fs = false) by (destruct H as [u' H]; cbn [de_text] in H; rewrite EG in H; destruct (existsb f_hasproxy fs); [discriminate | reflexivity]).
        destruct fs as [|f [|f2 fs]].
        * exists 1%nat. cbn [means]. rewrite EG. split; [reflexivity|]. apply (R_empty F c G i tr d v EG Ht). exact HR.
        * destruct tr.
          -- destruct H as [u' H]. cbn [de_text] in H. rewrite EG, Hp in H. cbn [de_unnamed] in H. apply (map_inv_ok VSeq) in H as (w & H & ->). apply (map_inv_ok (fun v => [v])) in H as (x & H & ->).
             destruct (IH _ x (ex_intro _ u' H)) as [k Hk]. exists (S k). cbn [means]. rewrite EG. split; [exact Hp|]. exists x. auto.
          -- pose proof Hp as Hp1. cbn [existsb] in Hp1. rewrite orb_false_r in Hp1. pose proof (proj1 (R_single F c G i f d v EG Hp1 Ht) HR) as (ds & ws & Ed & HR2 & E). clear HR. rename HR2 into HR. clear IH H. subst d.
             assert (X : tuple_means mx [f_ty f] ds ws) by (eapply tuple_in; [|exact HR]; intros t d0 b Hin; eapply IA; [reflexivity | exact Hin]).
             apply (fuel_tuple (means F c G) (means_le F c G)) in X as [k X]. exists (S k). cbn [means]. rewrite EG. split; [exact Hp|]. exists ds, ws. auto.
        * pose proof (proj1 (R_items F c G i tr _ d v EG Hp ltac:(cbn; lia) Ht) HR) as (ds & ws & Ed & HR2 & E). clear HR. rename HR2 into HR. clear IH H. subst d.
          assert (X : tuple_means mx (map f_ty (f :: f2 :: fs)) ds ws) by (eapply tuple_in; [|exact HR]; intros t d0 b Hin; eapply IA; [reflexivity | exact Hin]).
          apply (fuel_tuple (means F c G) (means_le F c G)) in X as [k X]. exists (S k). cbn [means]. rewrite EG. split; [exact Hp|]. exists ds, ws. auto.
      + pose proof (names_of i _ EG) as Hn. pose proof Hn as [Hnd Hfs]. destruct (R_enum_inv F c G i vs d v EG Hn Ht HR) as (tag & vr & Hv & Hk). destruct (v_body vr) as [|ts|fs] eqn:Eb.
        * exists 1%nat. cbn [means]. rewrite EG. exists tag, vr. split; [exact Hv|]. rewrite Eb. exact Hk.
        * destruct Hk as [ds ->]. pose proof (one_text _ _ Ht) as Ht1. apply (R_tvariant F c G i vs EG Hnd tag vr ts ds _ Hv Eb Ht) in HR as (ws & -> & HR).
          specialize (HOA _ _ eq_refl). rewrite Forall_forall in HOA.
          assert (X : tuple_means mx ts ds ws) by (eapply tuple_in; [|exact HR]; intros t d0 b Hin; apply inverts_R; [apply HOA; exact Hin | eapply element_text; eassumption]).
          apply (fuel_tuple (means F c G) (means_le F c G)) in X as [k X]. exists (S k). cbn [means]. rewrite EG. exists tag, vr. split; [exact Hv|]. rewrite Eb. exists ds, ws. auto.
        * destruct Hk as [ms ->]. pose proof (one_text _ _ Ht) as Ht1. assert (Hdf : distinct_fields fs) by (pose proof (proj1 (Forall_forall _ _) Hfs vr (nth_error_In _ _ Hv)) as Q; cbv beta in Q; rewrite Eb in Q; exact Q).
          apply (R_svariant F c G i vs EG Hnd tag vr fs ms _ Hv Eb Hdf Ht) in HR as (ws & -> & HR).
          specialize (HOO _ _ eq_refl). rewrite Forall_forall in HOO.
          assert (X : fields_means mx false fs ms ws) by (eapply fields_in; [|exact HR]; intros k d0 t b Hin; apply inverts_R; [apply (HOO (k, d0)); exact Hin | eapply member_text; eassumption]).
          apply (fuel_fields (means F c G) (means_le F c G)) in X as [k X]. exists (S k). cbn [means]. rewrite EG. exists tag, vr. split; [exact Hv|]. rewrite Eb. exists ms, ws. auto.
      + destruct H as [u' H]. cbn [de_text] in H. rewrite EG in H. apply (map_inv_ok (p_from p)) in H as (w & H & ->). destruct (IH t' w (ex_intro _ u' H)) as [k Hk]. exists (S k). cbn [means]. rewrite EG. exists w. auto.
      + destruct H as [u' H]. cbn [de_text] in H. rewrite EG in H. discriminate.
  Qed.
  (** The parts of the parts as well. *)
  Definition deep (d : doc) : Prop := inverts d /\ match d with JArr ds => Forall inverts ds | JObj ms => Forall (fun x => inverts (snd x)) ms | _ => True end.
  Theorem runs_mean d : inverts d.
  Proof.
    cut (deep d); [intros [H _]; exact H|].
    assert (Hs : forall s, inverts (JStr s)) by (intro s; apply invert_step; discriminate).
    induction d as [| | | |ds IH|ms IH] using doc_induct.
    - split; [apply invert_step; discriminate | exact I].
    - split; [apply invert_step; discriminate | exact I].
    - split; [apply invert_step; discriminate | exact I].
    - split; [apply Hs | exact I].
    - assert (IH1 : Forall inverts ds) by (eapply Forall_impl; [|exact IH]; intros a [Ha _]; exact Ha). split; [|exact IH1].
      apply invert_step; try discriminate. intros ds' E. injection E as <-. exact IH1.
    - assert (IH1 : Forall (fun x => inverts (snd x)) ms) by (eapply Forall_impl; [|exact IH]; intros a [Ha _]; exact Ha). split; [|exact IH1].
      apply invert_step; try discriminate.
      + intros ms' E. injection E as <-. eapply Forall_impl; [|exact IH1]. intros a Ha. split; [apply Hs | exact Ha].
      + intros k ms' E. injection E as ->. inversion IH as [|? ? [_ Hx] _]; subst. exact Hx.
      + intros k ds' E. injection E as ->. inversion IH as [|? ? [_ Hx] _]; subst. exact Hx.
  Qed.
  Theorem document_reads d text t v : document F d text -> (parses F c G Json t text (Ok v) <-> exists n, m n t d v).
  Proof.
    intro Hd. pose proof (proj2 (text_tokens F d text Hd)) as Ht. rewrite (R_parses F c G t d text v Hd). split.
    - intros [n Hn]. exact (runs_mean d Ht n t v Hn).
    - intros [n Hn]. eapply means_runs; eassumption.
  Qed.
End MainDoc.
