(** C82: what is written as JSON or RON is one line. *)
From Verif Require Import Base Utf8 Types Text TextModel TextLex TextRead SpecText TextRun TextMain TextEx PropsBin PropsText SpecLine.
Local Open Scope N_scope.

Section Chars.
  Variables (F : flt) (c : cfg) (G : env) (fm : fmt).
  Variable P : N -> Prop.
  Hypothesis Pv : forall x, 32 <= x < 127 -> P x.

  Definition good (r : wres) : Prop := forall out, r = Ok out -> Forall P out.
  Definition goods (r : res Empty_set (list str)) : Prop := forall ps, r = Ok ps -> Forall (Forall P) ps.

  Lemma vis s : forallb (fun x => (32 <=? x) && (x <? 127)) s = true -> Forall P s.
  Proof.
    intro H. apply Forall_forall. intros x Hx. apply Pv. rewrite forallb_forall in H. specialize (H x Hx). apply andb_prop in H as [A B]. apply N.leb_le in A. apply N.ltb_lt in B. lia.
  Qed.
  Lemma app_P a b : Forall P a -> Forall P b -> Forall P (a ++ b).
  Proof. intros. apply Forall_app. auto. Qed.
  Lemma dec_P n : Forall P (dec n).
  Proof.
    pose proof (dec_digits n) as H. apply vis. rewrite forallb_forall in *. intros x Hx. specialize (H x Hx). unfold is_digit in H.
    apply andb_prop in H as [A B]. apply N.leb_le in A, B. apply andb_true_intro. split; [apply N.leb_le | apply N.ltb_lt]; lia.
  Qed.
  Lemma dec_z_P z : Forall P (dec_z z).
  Proof. unfold dec_z. destruct (z <? 0)%Z; [constructor; [apply Pv; unfold c_minus; lia|]|]; apply dec_P. Qed.
  Lemma wrap_P a b s : 32 <= a < 127 -> 32 <= b < 127 -> Forall P s -> Forall P (wrap a b s).
  Proof. intros. unfold wrap. constructor; [apply Pv; assumption|]. apply app_P; [assumption|]. constructor; [apply Pv; assumption | constructor]. Qed.
  Lemma comma_P : Forall P comma. Proof. apply vis. reflexivity. Qed.
  Lemma join_P l : Forall (Forall P) l -> Forall P (join comma l).
  Proof.
    induction 1 as [|x l Hx Hl IH]; [constructor|]. cbn [join]. destruct l; [exact Hx|]. apply app_P; [exact Hx|]. apply app_P; [apply comma_P | exact IH].
  Qed.
  Lemma each_P l : Forall (Forall P) l -> Forall P (each comma l).
  Proof. induction 1; [constructor|]. cbn. repeat apply app_P; try assumption. apply comma_P. Qed.
  Lemma open_P : 32 <= t_open fm < 127 /\ 32 <= t_close fm < 127 /\ 32 <= s_open fm < 127 /\ 32 <= s_close fm < 127.
  Proof. destruct fm; cbn; unfold c_lbr, c_rbr, c_lcur, c_rcur, c_lpar, c_rpar; lia. Qed.
  Lemma dur_P s ns : Forall P (ser_dur s ns).
  Proof.
    unfold ser_dur. apply wrap_P; [unfold c_lcur; lia | unfold c_rcur; lia|].
    apply app_P; [apply vis; reflexivity|]. constructor; [apply Pv; unfold c_colon; lia|]. apply app_P; [apply dec_P|].
    destruct (ns =? 0); [constructor|]. constructor; [apply Pv; unfold c_comma; lia|]. apply app_P; [apply vis; reflexivity|]. constructor; [apply Pv; unfold c_colon; lia | apply dec_P].
  Qed.
  Lemma hdr_P name : Forall P name -> Forall P (field_hdr fm name).
  Proof.
    intro H. destruct fm; cbn [field_hdr].
    - constructor; [apply Pv; unfold c_quote; lia|]. apply app_P; [exact H | apply vis; reflexivity].
    - apply app_P; [exact H | apply vis; reflexivity].
  Qed.
  Lemma label_P name : Forall P name -> Forall P (label fm name).
  Proof.
    intro H. destruct fm; cbn [label]; [|exact H]. constructor; [apply Pv; unfold c_quote; lia|]. apply app_P; [exact H | apply vis; reflexivity].
  Qed.
  Lemma key_P f : field_names P f -> Forall P (field_key f).
  Proof. intros [H1 H2]. unfold field_key. destruct (f_rename f); auto. Qed.

  Hypothesis Pe : forall x, Forall P (esc_char fm x).
  Hypothesis HF : flt_visible F.
  Hypothesis HG : Forall (decl_names P) G.
  Lemma esc_P s : Forall P (esc_str fm s).
  Proof.
    unfold esc_str. constructor; [apply Pv; unfold c_quote; lia|]. apply app_P; [|constructor; [apply Pv; unfold c_quote; lia | constructor]].
    induction s as [|x s IH]; [constructor|]. cbn [flat_map]. apply app_P; [apply Pe | exact IH].
  Qed.
  Lemma map_good {A} (f : A -> str) (r : res Empty_set A) : (forall a, r = Ok a -> Forall P (f a)) -> good (rmap f r).
  Proof. intros H out E. destruct r; try discriminate. injection E as <-. auto. Qed.
  Lemma rall_goods {A} (f : A -> wres) l : (forall a, good (f a)) -> goods (rall (map f l)).
  Proof.
    intro H. induction l as [|a l IH]; intros ps E; cbn [map rall] in E; [injection E as <-; constructor|].
    destruct (f a) as [x|?|?|] eqn:Ea; try discriminate. cbn [rbind] in E. destruct (rall (map f l)) as [r|?|?|]; try discriminate. injection E as <-.
    constructor; [exact (H a x Ea) | apply IH; reflexivity].
  Qed.
  Section Ser.
    Variable ser : ty -> val -> wres.
    Hypothesis IH : forall t v, good (ser t v).
    Definition goodo (r : res Empty_set (option str)) : Prop := forall x, r = Ok (Some x) -> Forall P x.
    Lemma field_P null name f v : Forall P name -> goodo (ser_field fm ser null name f v).
    Proof.
      intros Hn x E. unfold ser_field in E. pose proof (hdr_P name Hn) as Hh.
      assert (M : forall r, good r -> forall x, rmap (fun t => Some (field_hdr fm name ++ t)) r = Ok (Some x) -> Forall P x).
      { intros r Hr y Ey. destruct r; try discriminate. injection Ey as <-. apply app_P; [exact Hh | apply Hr; reflexivity]. }
      destruct (f_isopt f); [|exact (M _ (IH _ _) x E)]. destruct v; try discriminate.
      - destruct null; [|discriminate]. injection E as <-. apply app_P; [exact Hh | apply vis; reflexivity].
      - refine (M _ _ x E). unfold ser_some. destruct (f_ty f); try (intros ? Q; discriminate Q); apply IH.
    Qed.
    Lemma named_P cnull fs : Forall (field_names P) fs -> forall l, goods (ser_named fm ser cnull fs l).
    Proof.
      induction 1 as [|f fs Hf Hfs I2]; intros [|v l] ps E; try discriminate E; cbn [ser_named] in E; [injection E as <-; constructor|].
      destruct (f_skip f); [exact (I2 l ps E)|]. destruct (ser_field fm ser _ (field_key f) f v) as [o|?|?|] eqn:E1; try discriminate. cbn [rbind] in E.
      destruct (ser_named fm ser cnull fs l) as [r|?|?|] eqn:E2; try discriminate. cbn [rbind] in E. injection E as <-. specialize (I2 l r E2).
      destruct o as [x|]; [|exact I2]. constructor; [|exact I2]. exact (field_P _ _ _ _ (key_P f Hf) x E1).
    Qed.
    Lemma variant_P fs : Forall (field_names P) fs -> forall l, good (ser_variant_fields fm ser fs l).
    Proof.
      induction 1 as [|f fs Hf Hfs I2]; intros [|v l] out E; try discriminate E; cbn [ser_variant_fields] in E; [injection E as <-; constructor|].
      destruct (ser_field fm ser false (f_name f) f v) as [o|?|?|] eqn:E1; try discriminate. cbn [rbind] in E.
      destruct (ser_variant_fields fm ser fs l) as [r|?|?|] eqn:E2; try discriminate. cbn [rbind] in E. injection E as <-. specialize (I2 l r E2).
      destruct o as [x|]; [|exact I2]. apply app_P; [exact (field_P _ _ _ _ (proj1 Hf) x E1)|]. apply app_P; [|exact I2]. destruct fm, fs; try apply comma_P; constructor.
    Qed.
    Lemma tys_P ts : forall l, goods (ser_tys ser ts l).
    Proof.
      induction ts as [|t ts I2]; intros [|v l] ps E; try discriminate E; cbn [ser_tys] in E; [injection E as <-; constructor|].
      destruct (ser t v) as [x|?|?|] eqn:E1; try discriminate. cbn [rbind] in E. destruct (ser_tys ser ts l) as [r|?|?|] eqn:E2; try discriminate. injection E as <-.
      constructor; [exact (IH t v x E1) | exact (I2 l r E2)].
    Qed.
    Lemma unnamed_P fs : forall l, good (ser_unnamed fm ser fs l).
    Proof.
      induction fs as [|f fs I2]; intros [|v l] out E; try discriminate E; cbn [ser_unnamed] in E; [injection E as <-; constructor|].
      assert (M : forall out, rbind (ser (f_ty f) v) (fun x => rbind (ser_unnamed fm ser fs l) (fun r => Ok (x ++ match fs with [] => [] | _ => chars ", " end ++ r))) = Ok out -> Forall P out).
      { intros o Eo. destruct (ser (f_ty f) v) as [x|?|?|] eqn:E1; try discriminate. cbn [rbind] in Eo. destruct (ser_unnamed fm ser fs l) as [r|?|?|] eqn:E2; try discriminate. cbn [rbind] in Eo. injection Eo as <-.
        apply app_P; [exact (IH _ _ x E1)|]. apply app_P; [|exact (I2 l r E2)]. destruct fs; [constructor | apply vis; reflexivity]. }
      destruct fm; [exact (M out E)|]. destruct (f_skip f); [exact (I2 l out E) | exact (M out E)].
    Qed.
    Lemma entry_P tk tv e : good (ser_entry ser tk tv e).
    Proof.
      intros out E. unfold ser_entry in E. destruct (ser tk (fst e)) as [x|?|?|] eqn:E1; try discriminate. cbn [rbind] in E. destruct (ser tv (snd e)) as [y|?|?|] eqn:E2; try discriminate. cbn [rbind] in E. injection E as <-.
      apply app_P; [exact (IH _ _ x E1)|]. constructor; [apply Pv; unfold c_colon; lia | exact (IH _ _ y E2)].
    Qed.
  End Ser.
  Lemma bad_good p : good (Panic p). Proof. intros ? E. discriminate E. Qed.
  Lemma ok_good s : Forall P s -> good (Ok s). Proof. intros H ? E. injection E as <-. exact H. Qed.
  Theorem ser_P n : forall t v, good (ser_text F c G fm n t v).
  Proof.
    destruct open_P as (O1 & O2 & O3 & O4).
    induction n as [|n IH]; intros t v; [intros ? E; discriminate E|]. cbn [ser_text].
    assert (None_P : Forall P (none_text fm)) by (apply vis; destruct fm; reflexivity).
    destruct t as [k| | | | | |t'|k t'|tk tk0 tv|m t'|ts|t'| | |p t'|i].
    - destruct k, v; try apply bad_good; apply ok_good, dec_z_P.
    - destruct v; try apply bad_good. apply ok_good. refine (Forall_impl P Pv _). apply HF.
    - destruct v; try apply bad_good. apply ok_good. refine (Forall_impl P Pv _). apply HF.
    - destruct v; try apply bad_good. apply ok_good, vis. destruct b; reflexivity.
    - destruct v; try apply bad_good. apply ok_good, esc_P.
    - destruct v; try apply bad_good. apply ok_good, vis. destruct fm; reflexivity.
    - destruct v; try apply bad_good; [apply ok_good, None_P | apply IH].
    - destruct v; try apply bad_good. apply map_good. intros ps E. apply wrap_P; [unfold c_lbr; lia | unfold c_rbr; lia|].
      pose proof (rall_goods _ l (fun a => IH t' a) ps E) as Q. destruct fm, k; try (apply join_P; exact Q); apply each_P; exact Q.
    - destruct v; try apply bad_good. apply map_good. intros ps E. apply wrap_P; [unfold c_lcur; lia | unfold c_rcur; lia|].
      pose proof (rall_goods _ l (entry_P _ IH tk0 tv) ps E) as Q. destruct fm; [apply join_P | apply each_P]; exact Q.
    - destruct v; try apply bad_good. destruct l as [|a l]; [destruct (overflow_checks c); [apply bad_good | apply ok_good, wrap_P; auto]|].
      apply map_good. intros ps E. apply wrap_P; auto. apply join_P. exact (rall_goods _ (a :: l) (fun a => IH t' a) ps E).
    - destruct v; try apply bad_good. destruct (tuple_arity (length ts)); [|apply bad_good]. apply map_good. intros ps E. apply wrap_P; auto. apply join_P. exact (tys_P _ IH ts l ps E).
    - apply IH.
    - destruct v; try apply bad_good. apply ok_good, dur_P.
    - destruct v; try apply bad_good. apply ok_good. match goal with |- Forall P (if ?b then _ else _) => destruct b end; [exact None_P | apply dur_P].
    - destruct v; (destruct fm; [apply IH | apply bad_good]).
    - destruct (nth_error G i) as [d|] eqn:Ed; [|destruct v; apply bad_good]. pose proof HG as HG'. rewrite Forall_forall in HG'. specialize (HG' d (nth_error_In _ _ Ed)).
      destruct d as [dflt cn fs|tr fs|vs|p t']; cbn [decl_names] in HG'.
      + destruct v; try apply bad_good. apply map_good. intros ps E. pose proof (named_P _ IH cn fs HG' l ps E) as Q. apply wrap_P; auto. destruct fm; [apply join_P | apply each_P]; exact Q.
      + destruct v; try apply bad_good. destruct (existsb f_hasproxy fs); [apply bad_good|].
        assert (M : forall l, good (rmap (wrap (t_open fm) (t_close fm)) (ser_unnamed fm (ser_text F c G fm n) fs l))).
        { intro l0. apply map_good. intros s E. apply wrap_P; auto. exact (unnamed_P _ IH fs l0 s E). }
        destruct fm.
        * destruct fs as [|f fs]; [destruct l; [apply ok_good, vis; reflexivity | apply M]|]. destruct fs as [|f2 fs]; [|destruct l as [|w [|]]; apply M].
          destruct l as [|w [|]]; try apply M. destruct tr; [apply IH | apply M].
        * destruct fs; [apply bad_good | destruct l; apply M].
      + destruct v; try apply bad_good. destruct (nth_error vs (N.to_nat tag)) as [vr|] eqn:Ev; [|apply bad_good].
        rewrite Forall_forall in HG'. destruct (HG' vr (nth_error_In _ _ Ev)) as (V1 & V2 & V3).
        assert (Hl : Forall P (label fm (variant_key fm vr))).
        { apply label_P. unfold variant_key. destruct fm; [destruct (v_rename vr); auto | exact V1]. }
        assert (Nest : forall body, Forall P body -> Forall P (match fm with Json => wrap c_lcur c_rcur (label fm (variant_key fm vr) ++ c_colon :: body) | Ron => label fm (variant_key fm vr) ++ body end)).
        { intros body Hb. assert (C : P c_colon) by (apply Pv; unfold c_colon; lia).
          assert (X : Forall P (wrap c_lcur c_rcur (label fm (variant_key fm vr) ++ c_colon :: body))).
          { apply wrap_P; [unfold c_lcur; lia | unfold c_rcur; lia|]. apply app_P; [exact Hl|]. constructor; assumption. }
          destruct fm; [exact X | apply app_P; assumption]. }
        destruct (v_body vr) as [|ts|fs].
        * destruct l; [apply ok_good, Hl | apply bad_good].
        * destruct ts as [|t ts]; [apply bad_good|]. apply map_good. intros ps E. apply Nest, wrap_P; auto. apply join_P. exact (tys_P _ IH (t :: ts) l ps E).
        * apply map_good. intros b E. apply Nest, wrap_P; auto. exact (variant_P _ IH fs V3 l b E).
      + destruct v; (destruct fm; [apply IH | apply bad_good]).
  Qed.
End Chars.

(** *** The escapes *)
Lemma hexdig_ok d : d < 16 -> 32 <= hexdig d < 127.
Proof. intro H. unfold hexdig. destruct (N.ltb_spec d 10); lia. Qed.
Lemma hex4_visible n : Forall (fun x => 32 <= x < 127) (hex4 n).
Proof. unfold hex4. repeat (constructor; [apply hexdig_ok, N.mod_lt; discriminate|]). constructor. Qed.
Lemma chars_visible (P : N -> Prop) s : (forall x, 32 <= x < 127 -> P x) -> forallb (fun x => (32 <=? x) && (x <? 127)) s = true -> Forall P s.
Proof. intros Pv H. apply vis; assumption. Qed.
Lemma json_escape x : Forall visible (esc_char Json x).
Proof.
  assert (Pv : forall y, 32 <= y < 127 -> visible y) by (intros y Hy; unfold visible; lia).
  unfold esc_char. repeat (match goal with |- context [if ?b then _ else _] => destruct b eqn:? end; try (apply chars_visible; [exact Pv | reflexivity])).
  - apply Forall_app. split; [apply chars_visible; [exact Pv | reflexivity]|]. refine (Forall_impl visible Pv _). apply hex4_visible.
  - constructor; [|constructor]. match goal with H : (_ <? 32) || _ = false |- _ => apply orb_false_iff in H as [A B] end.
    apply N.ltb_ge in A. apply N.eqb_neq in B. split; assumption.
Qed.
Lemma ron_escape x : Forall in_line (esc_char Ron x).
Proof.
  assert (Pv : forall y, 32 <= y < 127 -> in_line y) by (intros y Hy; unfold in_line; lia).
  unfold esc_char. repeat (match goal with |- context [if ?b then _ else _] => destruct b eqn:? end; try (apply chars_visible; [exact Pv | reflexivity])).
  constructor; [|constructor]. repeat match goal with H : (_ =? _) = false |- _ => apply N.eqb_neq in H end. unfold in_line. tauto.
Qed.

(** ** C82 *)
(** JSON: no ASCII control character is written, whatever the value - unless a name in
    the program has one. *)
Theorem C82_json F c G t v text : flt_visible F -> Forall (decl_names visible) G -> writes F c G Json t v text -> Forall visible text.
Proof.
  intros HF HG [n H]. refine (ser_P F c G Json visible _ json_escape HF HG n t v text _); [intros x Hx; unfold visible; lia|]. exact (H n (le_n n)).
Qed.
(** RON: no NUL, tab, line feed or carriage return. *)
Theorem C82_ron F c G t v text : flt_visible F -> Forall (decl_names in_line) G -> writes F c G Ron t v text -> Forall in_line text.
Proof.
  intros HF HG [n H]. refine (ser_P F c G Ron in_line _ ron_escape HF HG n t v text _); [intros x Hx; unfold in_line; lia|]. exact (H n (le_n n)).
Qed.
(** So a text is one line, and several can be written one under the other: the lines
    are the texts. *)
Lemma lines_line cur s r : Forall (fun x => x <> 10) s -> lines_of cur (s ++ 10 :: r) = (cur ++ s) :: lines_of [] r.
Proof.
  intro H. revert cur. induction H as [|x s Hx Hs IH]; intro cur; cbn [app lines_of]; [rewrite app_nil_r; reflexivity|].
  destruct (N.eqb_spec x 10); [congruence|]. rewrite IH, <- app_assoc. reflexivity.
Qed.
Lemma lines_back l : Forall (Forall (fun x => x <> 10)) l -> lines_of [] (as_lines l) = l.
Proof.
  induction 1 as [|s l Hs Hl IH]; [reflexivity|]. unfold as_lines in *. cbn [flat_map]. rewrite <- app_assoc. cbn [app]. rewrite lines_line by exact Hs. rewrite IH. reflexivity.
Qed.
Theorem C82_lines F c G fm t vs : flt_ok F -> cfg_ok c -> flt_visible F -> Forall (decl_names visible) G -> Forall (text_typed c G fm t) vs ->
  exists texts, Forall2 (writes F c G fm t) vs texts /\ lines_of [] (as_lines texts) = texts /\ Forall2 (fun text v => parses F c G fm t text (Ok v)) (lines_of [] (as_lines texts)) vs.
Proof.
  intros HF Hc HV HG H.
  assert (HG2 : Forall (decl_names in_line) G).
  { revert HG. apply Forall_impl. assert (V : forall s, Forall visible s -> Forall in_line s) by (intro s; apply Forall_impl; intros x [A B]; unfold in_line; lia).
    assert (Vf : forall fs, Forall (field_names visible) fs -> Forall (field_names in_line) fs) by (intro fs; apply Forall_impl; intros f [A B]; split; auto).
    intros [| |ws|]; cbn [decl_names]; auto. apply Forall_impl. intros w (A & B & C). split; [auto|]. split; [auto|]. destruct (v_body w); auto. }
  assert (E : exists texts, Forall2 (writes F c G fm t) vs texts /\ Forall2 (fun text v => parses F c G fm t text (Ok v)) texts vs /\ Forall (Forall (fun x => x <> 10)) texts).
  { induction H as [|v vs Hv Hvs (texts & A & B & C)]; [exists []; repeat constructor|].
    destruct Hv as [n Hv]. destruct (text_round_trip F c G fm HF Hc n t v Hv) as (text & W & Q). exists (text :: texts).
    split; [constructor; assumption|]. split; [constructor; assumption|]. constructor; [|exact C].
    destruct fm; [apply (C82_json F c G t v text HV HG) in W | apply (C82_ron F c G t v text HV HG2) in W]; revert W; apply Forall_impl; intros x Hx; unfold visible, in_line in Hx; lia. }
  destruct E as (texts & A & B & C). exists texts. rewrite (lines_back texts C). auto.
Qed.

(** *** Cases *)
Lemma toy_visible : flt_visible toy.
Proof.
  intro b. assert (D : Forall (fun x => 32 <= x < 127) (toy_show b)).
  { unfold toy_show. apply Forall_app. split.
    - apply (dec_P (fun x => 32 <= x < 127)); auto.
    - apply chars_visible; [auto | reflexivity]. }
  split; exact D.
Qed.
Example C82_ex : flt_visible toy /\ Forall (decl_names visible) Gtx.
Proof. split; [exact toy_visible|]. repeat (constructor; cbn [decl_names]); cbn; repeat (constructor || split || (intros ? E; try discriminate E; injection E as <-) || (unfold visible; lia)). Qed.
(** Control characters in strings are escaped; in RON some are written as they are. *)
Example C82_ex_string : writes toy c64 [] Json TStr (VStr [97; 10; 1; 127]) (chars """a\n\u0001\u007f""") /\ writes toy c64 [] Ron TStr (VStr [10; 1]) (chars """\n" ++ [1; 34]).
Proof. split; exists 1%nat; intros [|m] Hm; try lia; reflexivity. Qed.
(** A name is written as it is: with a line feed in it the text has two lines. *)
Example C82_ex_name : exists text, writes toy c64 [DEnum [{| v_name := chars "A"; v_rename := Some [97; 10]; v_body := BUnit |}]] Json (TNamed 0) (VEnum 0 []) text /\ In 10 text.
Proof. exists [34; 97; 10; 34]. split; [exists 1%nat; intros [|m] Hm; [lia | reflexivity] | cbn; auto]. Qed.
