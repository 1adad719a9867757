(** Fuel in the text formats only limits the depth of the recursion and the
    number of rounds of the loops: more fuel never changes an outcome. *)
From Verif Require Import Base Utf8 Types BinModel Text TextModel.
Local Open Scope N_scope.

(** ** Reading *)
Section Mono.
  Context {S : Type}.
  Variable L : lexer S.
  Variable F : flt.
  Variable c : cfg.
  Variable G : env.
  Variable fm : fmt.

  Definition ple {A} (m1 m2 : @pm S A) : Prop := forall s, snd (m1 s) = NoFuel \/ m1 s = m2 s.
  Lemma ple_refl {A} (m : @pm S A) : ple m m.
  Proof. intro s. right. reflexivity. Qed.
  Lemma ple_bind {A B} (m1 m2 : @pm S A) (f g : A -> @pm S B) :
    ple m1 m2 -> (forall a, ple (f a) (g a)) -> ple (pbind m1 f) (pbind m2 g).
  Proof.
    intros H Hf s. unfold pbind. destruct (H s) as [E|E].
    - left. destruct (m1 s) as [s' [a|e|p|]]; simpl in E; try discriminate. reflexivity.
    - rewrite E. destruct (m2 s) as [s' [a|e|p|]]; auto. apply Hf.
  Qed.
  Lemma ple_bind1 {A B} (m1 m2 : @pm S A) (f : A -> @pm S B) : ple m1 m2 -> ple (pbind m1 f) (pbind m2 f).
  Proof. intro H. apply ple_bind; [exact H | intro; apply ple_refl]. Qed.
  Lemma ple_bind2 {A B} (m : @pm S A) (f g : A -> @pm S B) : (forall a, ple (f a) (g a)) -> ple (pbind m f) (pbind m g).
  Proof. intro H. apply ple_bind; [apply ple_refl | exact H]. Qed.
  Lemma ple_map {A B} (f : A -> B) (m1 m2 : @pm S A) : ple m1 m2 -> ple (pmap f m1) (pmap f m2).
  Proof. intro H. apply ple_bind1. exact H. Qed.
  Lemma ple_nofuel {A} (m : @pm S A) : ple (pfail NoFuel) m.
  Proof. intro s. left. reflexivity. Qed.
  Lemma ple_while {A} n cond (b1 b2 : A -> @pm S A) a :
    (forall a, ple (b1 a) (b2 a)) -> ple (while_ n cond b1 a) (while_ (Datatypes.S n) cond b2 a).
  Proof.
    intro H. revert a; induction n as [|n IH]; intro a; [apply ple_nofuel|].
    intro s. cbn [while_]. destruct (cond s); [|right; reflexivity].
    apply (ple_bind (b1 a) (b2 a) (while_ n cond b1)); [apply H | exact IH].
  Qed.
  Lemma ple_whole_loop n d : ple (whole_loop L n d) (whole_loop L (Datatypes.S n) d).
  Proof.
    revert d; induction n as [|n IH]; intro d; [apply ple_nofuel|].
    intro s. cbn [whole_loop].
    apply (ple_bind (l_next L) (l_next L)); [apply ple_refl|]. intro a.
    match goal with |- ple (if ?x =? 0 then _ else _) _ => destruct (x =? 0); [apply ple_refl | apply IH] end.
  Qed.
  Lemma ple_whole n : ple (whole_field L n) (whole_field L (Datatypes.S n)).
  Proof.
    intro s. unfold whole_field. destruct (l_tok L s); try (right; reflexivity); apply (ple_whole_loop n 0 s).
  Qed.
  Lemma ple_opt (m1 m2 : @pm S val) : ple m1 m2 -> ple (de_opt L fm m1) (de_opt L fm m2).
  Proof.
    intros H s. unfold de_opt. destruct (at_none L fm s); [right; reflexivity|]. apply (ple_map VSome m1 m2 H s).
  Qed.
  Lemma ple_dur n : ple (de_dur L n) (de_dur L (Datatypes.S n)).
  Proof.
    unfold de_dur. apply ple_bind2. intro. apply ple_bind1. apply ple_while. intro. apply ple_refl.
  Qed.

  Section Helpers.
    Variables d1 d2 : ty -> @pm S val.
    Hypothesis Hd : forall t, ple (d1 t) (d2 t).
    Variable n : nat.
    Let n' := Datatypes.S n.

    Lemma ple_seq k t : ple (de_seq L d1 n k t) (de_seq L d2 n' k t).
    Proof.
      unfold de_seq. apply ple_bind2. intro. apply ple_bind1. apply ple_while. intro. apply ple_bind1. apply Hd.
    Qed.
    Lemma ple_mapk k tk tv : ple (de_map L d1 n k tk tv) (de_map L d2 n' k tk tv).
    Proof.
      unfold de_map. apply ple_bind2. intro. apply ple_bind1. apply ple_while. intro.
      apply ple_bind; [apply Hd|]. intro. apply ple_bind2. intro. apply ple_bind1, Hd.
    Qed.
    Lemma ple_item t : ple (de_item L fm d1 t) (de_item L fm d2 t).
    Proof. apply ple_bind1, Hd. Qed.
    Lemma ple_comma_block t : ple (comma_block L fm d1 t) (comma_block L fm d2 t).
    Proof.
      intro s. unfold comma_block. destruct (Hd t s) as [E|E].
      - left. destruct (d1 t s) as [s1 [a|e|p|]]; try discriminate. reflexivity.
      - rewrite E. right. reflexivity.
    Qed.
    Lemma ple_list l1 l2 : Forall2 (@ple val) l1 l2 -> ple (de_list l1) (de_list l2).
    Proof.
      induction 1 as [|p q l1 l2 H _ IH]; [apply ple_refl|]. cbn [de_list].
      apply ple_bind; [exact H|]. intro. apply ple_bind1, IH.
    Qed.
    Lemma ple_bracketed l1 l2 : Forall2 (@ple val) l1 l2 -> ple (de_bracketed L fm l1) (de_bracketed L fm l2).
    Proof. intro H. unfold de_bracketed. apply ple_bind2. intro. apply ple_bind1, ple_list, H. Qed.
    Lemma ple_maps (f1 f2 : ty -> @pm S val) ts : (forall t, ple (f1 t) (f2 t)) -> Forall2 (@ple val) (map f1 ts) (map f2 ts).
    Proof. intro H. induction ts; cbn [map]; constructor; auto. Qed.
    Lemma ple_field f : ple (de_field d1 f) (de_field d2 f).
    Proof. unfold de_field. destruct (f_isopt f && f_hasproxy f); [apply ple_map, Hd | apply Hd]. Qed.
    Lemma ple_named_body fs acc : ple (named_body L fm d1 n fs acc) (named_body L fm d2 n' fs acc).
    Proof.
      unfold named_body. apply ple_bind1. intro s. destruct (find_field (key_of L fm s) fs 0) as [[i f]|].
      - apply (ple_bind2 (p_next_colon L)). intro. apply ple_bind1, ple_field.
      - destruct fs; [right; reflexivity|]. destruct fm; [|right; reflexivity].
        apply (ple_bind2 (p_next_colon L)). intro. apply ple_bind1, ple_whole.
    Qed.
    Lemma ple_named dflt fs : ple (de_named L fm d1 n dflt fs) (de_named L fm d2 n' dflt fs).
    Proof. unfold de_named. apply ple_bind2. intro. apply ple_bind1. apply ple_while. apply ple_named_body. Qed.
    Lemma ple_body tag b : ple (de_body L fm d1 n tag b) (de_body L fm d2 n' tag b).
    Proof.
      destruct b as [|ts|fs]; cbn [de_body]; [apply ple_refl | |].
      - apply ple_map, ple_bracketed, ple_maps. exact ple_item.
      - apply ple_map, ple_named.
    Qed.
    Lemma ple_enum_json vs : ple (de_enum_json L fm d1 n vs) (de_enum_json L fm d2 n' vs).
    Proof.
      intro s. unfold de_enum_json.
      destruct (tok_is (l_tok L s) KCurlyOpen && existsb (fun v => negb (is_unit v)) vs).
      - apply (ple_bind2 (expect L KCurlyOpen (chars "{"))). intro. apply ple_bind2. intro. apply ple_bind2. intros _ s1.
        destruct (find_variant _ vs 0) as [[i v]|]; [|right; reflexivity]. apply ple_bind1. apply ple_body.
      - right. reflexivity.
    Qed.
    Lemma ple_enum_ron vs : ple (de_enum_ron L fm d1 n vs) (de_enum_ron L fm d2 n' vs).
    Proof.
      unfold de_enum_ron. apply ple_bind2. intros _ s1.
      destruct (find_variant _ vs 0) as [[i v]|]; [|right; reflexivity]. apply ple_body.
    Qed.
    Lemma ple_unnamed tr fs : ple (de_unnamed L fm d1 tr fs) (de_unnamed L fm d2 tr fs).
    Proof.
      assert (Hg : ple (de_bracketed L fm (map (fun f => de_item L fm d1 (f_ty f)) fs))
                       (de_bracketed L fm (map (fun f => de_item L fm d2 (f_ty f)) fs))).
      { apply ple_bracketed. rewrite <- (map_map f_ty (de_item L fm d1)), <- (map_map f_ty (de_item L fm d2)).
        apply ple_maps. exact ple_item. }
      assert (H1 : forall f, ple (de_bracketed L fm [d1 (f_ty f)]) (de_bracketed L fm [d2 (f_ty f)])).
      { intro f. apply ple_bracketed. constructor; [apply Hd | constructor]. }
      unfold de_unnamed. destruct fm; [|exact Hg].
      destruct fs as [|f [|]]; [apply ple_refl | | exact Hg].
      destruct tr; [apply ple_map, Hd|]. apply H1.
    Qed.
  End Helpers.

  Notation de := (de_text L F c G fm).
  Lemma de_mono1 n t : ple (de n t) (de (Datatypes.S n) t).
  Proof.
    revert t; induction n as [|n IH]; intro t; [apply ple_nofuel|].
    destruct t as [k| | | | | |t|k t|k tk tv|m t|ts|t| | |p t|i]; try apply ple_refl.
    - apply ple_opt, IH.
    - apply (ple_map VSeq), ple_seq, IH.
    - apply (ple_map VMap), ple_mapk, IH.
    - change (ple (pmap VSeq (de_bracketed L fm (repeat (de_item L fm (de n) t) m)))
                  (pmap VSeq (de_bracketed L fm (repeat (de_item L fm (de (Datatypes.S n)) t) m)))).
      apply ple_map, ple_bracketed. induction m; cbn [repeat]; constructor; auto. apply ple_item, IH.
    - change (ple (if tuple_arity (length ts) then pmap VSeq (de_bracketed L fm (map (comma_block L fm (de n)) ts)) else pfail (Panic PNotCompiled))
                  (if tuple_arity (length ts) then pmap VSeq (de_bracketed L fm (map (comma_block L fm (de (Datatypes.S n))) ts)) else pfail (Panic PNotCompiled))).
      destruct (tuple_arity (length ts)); [|apply ple_refl].
      apply ple_map, ple_bracketed, ple_maps. apply ple_comma_block, IH.
    - apply (IH t).
    - change (ple (de_dur L n) (de_dur L (Datatypes.S n))). apply ple_dur.
    - change (ple (de_time L c fm n) (de_time L c fm (Datatypes.S n))). unfold de_time. apply ple_bind1, ple_opt, ple_dur.
    - change (ple (match fm with Json => pmap (p_from p) (de n t) | Ron => pfail (Panic PNotCompiled) end)
                  (match fm with Json => pmap (p_from p) (de (Datatypes.S n) t) | Ron => pfail (Panic PNotCompiled) end)).
      destruct fm; [|apply ple_refl]. apply ple_map, IH.
    - remember (Datatypes.S n) as n'. cbn [de_text]. rewrite Heqn' at 1. cbn [de_text]. subst n'.
      destruct (nth_error G i) as [[dflt nul fs|tr fs|vs|p t']|]; [| | | |apply ple_refl].
      + apply ple_map, ple_named, IH.
      + destruct (existsb f_hasproxy fs); [apply ple_refl|].
        pose proof (ple_unnamed _ _ IH tr fs) as Hu.
        destruct fm, fs; try apply ple_refl; apply ple_map, Hu.
      + pose proof (ple_enum_json _ _ IH n vs) as Hj. pose proof (ple_enum_ron _ _ IH n vs) as Hr.
        destruct fm; [apply Hj | apply Hr].
      + destruct fm; [|apply ple_refl]. apply ple_map, IH.
  Qed.

  Lemma de_mono n m t s : (n <= m)%nat -> snd (de n t s) <> NoFuel -> de m t s = de n t s.
  Proof.
    intros Hm Hn. induction Hm as [|m Hm IH]; [reflexivity|].
    destruct (de_mono1 m t s) as [E|E]; [rewrite IH in E; contradiction|]. rewrite <- E. exact IH.
  Qed.
End Mono.

Lemma first_mono {S} (L : lexer S) F c G fm n m t s : (n <= m)%nat ->
  snd (de_first L F c G fm n t s) <> NoFuel -> de_first L F c G fm m t s = de_first L F c G fm n t s.
Proof.
  intros Hm Hn. unfold de_first, pbind in *. destruct (l_next L s) as [s' [u|e|p|]]; try reflexivity.
  apply de_mono; assumption.
Qed.
(** Reading: one run that ends determines the outcome. *)
Lemma de_text_returns F c G fm n t text r :
  deserialize_text F c G fm n t text = r -> r <> NoFuel ->
  returns (fun m => deserialize_text F c G fm m t text) r.
Proof.
  intros H Hr. exists n. intros m Hm. unfold deserialize_text in *. rewrite (first_mono _ _ _ _ _ n m); [exact H | exact Hm|].
  rewrite H. exact Hr.
Qed.

(** ** Writing *)
Definition wle {A} (x y : res Empty_set A) : Prop := x = NoFuel \/ x = y.
Lemma wle_refl {A} (x : res Empty_set A) : wle x x. Proof. right; reflexivity. Qed.
Lemma wle_bind {A B} (x y : res Empty_set A) (f g : A -> res Empty_set B) :
  wle x y -> (forall a, wle (f a) (g a)) -> wle (rbind x f) (rbind y g).
Proof. intros [-> | ->] H; [left; reflexivity|]. destruct y; simpl; auto; apply wle_refl. Qed.
Lemma wle_map {A B} (f : A -> B) (x y : res Empty_set A) : wle x y -> wle (rmap f x) (rmap f y).
Proof. intros [-> | ->]; [left; reflexivity | apply wle_refl]. Qed.

Section WMono.
  Variables s1 s2 : ty -> val -> wres.
  Variable fm : fmt.
  Hypothesis H : forall t v, wle (s1 t v) (s2 t v).
  Lemma wle_rall {A} (f g : A -> wres) l : (forall a, wle (f a) (g a)) -> wle (rall (map f l)) (rall (map g l)).
  Proof. intro Hf. induction l as [|a l IH]; [apply wle_refl|]. cbn [map rall]. apply wle_bind; [apply Hf|]. intro. apply wle_map, IH. Qed.
  Lemma wle_field null name f v : wle (ser_field fm s1 null name f v) (ser_field fm s2 null name f v).
  Proof.
    unfold ser_field, ser_some. destruct (f_isopt f); [|apply wle_map, H].
    destruct v; try apply wle_refl. apply wle_map. destruct (f_ty f); try apply wle_refl; apply H.
  Qed.
  Lemma wle_named cnull fs l : wle (ser_named fm s1 cnull fs l) (ser_named fm s2 cnull fs l).
  Proof.
    revert l; induction fs as [|f fs IH]; intros [|v l]; try apply wle_refl. cbn [ser_named].
    destruct (f_skip f); [apply IH|]. apply wle_bind; [apply wle_field|]. intro. apply wle_bind; [apply IH|]. intro. apply wle_refl.
  Qed.
  Lemma wle_variant fs l : wle (ser_variant_fields fm s1 fs l) (ser_variant_fields fm s2 fs l).
  Proof.
    revert l; induction fs as [|f fs IH]; intros [|v l]; try apply wle_refl. cbn [ser_variant_fields].
    apply wle_bind; [apply wle_field|]. intro. apply wle_bind; [apply IH|]. intro. apply wle_refl.
  Qed.
  Lemma wle_tys ts l : wle (ser_tys s1 ts l) (ser_tys s2 ts l).
  Proof.
    revert l; induction ts as [|t ts IH]; intros [|v l]; try apply wle_refl. cbn [ser_tys].
    apply wle_bind; [apply H|]. intro. apply wle_map, IH.
  Qed.
  Lemma wle_unnamed fs l : wle (ser_unnamed fm s1 fs l) (ser_unnamed fm s2 fs l).
  Proof.
    revert l; induction fs as [|f fs IH]; intros [|v l]; try apply wle_refl. cbn [ser_unnamed].
    destruct fm; [|destruct (f_skip f); [apply IH|]];
      (apply wle_bind; [apply H|]; intro; apply wle_bind; [apply IH|]; intro; apply wle_refl).
  Qed.
  Lemma wle_entry tk tv e : wle (ser_entry s1 tk tv e) (ser_entry s2 tk tv e).
  Proof. unfold ser_entry. apply wle_bind; [apply H|]. intro. apply wle_map, H. Qed.
End WMono.

Lemma ser_text_mono1 F c G fm n t v : wle (ser_text F c G fm n t v) (ser_text F c G fm (S n) t v).
Proof.
  revert t v; induction n as [|n IH]; intros t v; [left; reflexivity|].
  remember (S n) as n'. cbn [ser_text]. rewrite Heqn' at 1. cbn [ser_text]. subst n'.
  destruct t as [k| | | | | |t'|k t'|k tk tv|m t'|ts|t'| | |p t'|i]; try apply wle_refl.
  - destruct v; try apply wle_refl. apply IH.
  - destruct v; try apply wle_refl. apply wle_map, wle_rall, IH.
  - destruct v; try apply wle_refl. apply wle_map, wle_rall. apply wle_entry, IH.
  - destruct v; try apply wle_refl. destruct l; [apply wle_refl|]. apply wle_map, wle_rall, IH.
  - destruct v; try apply wle_refl. destruct (tuple_arity (length ts)); [|apply wle_refl]. apply wle_map, wle_tys, IH.
  - destruct v; apply IH.
  - destruct v; (destruct fm; [apply IH | apply wle_refl]).
  - destruct (nth_error G i) as [[dflt nul fs|tr fs|vs|p t']|]; [| | | |destruct v; apply wle_refl].
    + destruct v; try apply wle_refl. apply wle_map, wle_named, IH.
    + destruct v; try apply wle_refl. destruct (existsb f_hasproxy fs); [apply wle_refl|].
      destruct fm.
      * destruct fs as [|f [|f2 fs]].
        -- destruct l; [apply wle_refl|]. apply wle_map, wle_unnamed, IH.
        -- destruct l as [|w [|]]; try (apply wle_map, wle_unnamed, IH). destruct tr; [apply IH|]. apply wle_map, wle_unnamed, IH.
        -- destruct l as [|w [|]]; apply wle_map, wle_unnamed, IH.
      * destruct fs as [|f fs]; [apply wle_refl|]. destruct l as [|w l]; apply wle_map, wle_unnamed, IH.
    + destruct v; try apply wle_refl. destruct (nth_error vs (N.to_nat tag)) as [vr|]; [|apply wle_refl].
      destruct (v_body vr) as [|ts|fs]; [apply wle_refl| |].
      * destruct ts; [apply wle_refl|]. apply wle_map, wle_tys, IH.
      * apply wle_map, wle_variant, IH.
    + destruct v; (destruct fm; [apply IH | apply wle_refl]).
Qed.
Lemma ser_text_returns F c G fm n t v r :
  serialize_text F c G fm n t v = r -> r <> NoFuel ->
  returns (fun m => serialize_text F c G fm m t v) r.
Proof.
  intros H Hr. exists n. intros m Hm. unfold serialize_text in *. induction Hm as [|m Hm IH]; [exact H|].
  destruct (ser_text_mono1 F c G fm m t v) as [E|E]; congruence.
Qed.
