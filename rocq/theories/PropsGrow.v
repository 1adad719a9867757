(** C56: appending variants to enums keeps old data readable, and new data that does
    not use them readable by old programs. *)
From Verif Require Import Base Utf8 Types BinModel BinRead Text TextModel TextFuel TextRun SpecText SpecGrow Grow PropsBin TextEx PropsText.
Local Open Scope N_scope.

(** ** Binary *)
(** What is accepted, whatever the bytes, is accepted by the later program with the
    same value and the same end. *)
Theorem C56_bin_old_data c G G' t d o o' v :
  env_grown G G' -> decodes_at c G t d o o' (Ok v) -> decodes_at c G' t d o o' (Ok v).
Proof. intros HG [n Hn]. exists n. intros m Hm. apply (de_bin_grown c G G' d HG). apply Hn, Hm. Qed.
Print Assumptions C56_bin_old_data.
(** The values of the earlier program are values of the later one, with the same bytes. *)
Theorem C56_bin_same_bytes c G G' t v bs :
  cfg_ok c -> env_grown G G' -> has_type c G t v ->
  has_type c G' t v /\ (encodes G t v bs <-> encodes G' t v bs).
Proof.
  intros Hc HG H. split; [destruct H as [n H]; exists n; eapply fits_grown; eassumption|].
  assert (Hup : forall b, encodes G t v b -> encodes G' t v b).
  { intros b [n Hn]. exists n. intros m Hm. apply (ser_bin_grown G G' HG). apply Hn, Hm. }
  split; [apply Hup|]. intro HE. destruct (C01_bin_roundtrip c G t v Hc H) as (b & Hb & _).
  assert (Q := returns_inj _ _ _ HE (Hup b Hb)). injection Q as ->. exact Hb.
Qed.
Print Assumptions C56_bin_same_bytes.
(** Hence the earlier program reads what the later one writes, as long as the value
    is one it knows ... *)
Theorem C56_bin_new_to_old c G G' t v bs :
  cfg_ok c -> env_grown G G' -> has_type c G t v -> encodes G' t v bs -> slice_fits c (lenN bs) ->
  decodes c G t bs (Ok v).
Proof.
  intros Hc HG H HE Hf. apply (C56_bin_same_bytes c G G' t v bs Hc HG H) in HE.
  destruct (C01_bin_roundtrip c G t v Hc H) as (b & Hb & R).
  assert (Q := returns_inj _ _ _ HE Hb). injection Q as <-. auto.
Qed.
Print Assumptions C56_bin_new_to_old.
(** ... and reports one of the added variants as unknown. *)
Theorem C56_bin_unknown c G G' i vs more tag l bs :
  cfg_ok c -> nth_error G i = Some (DEnum vs) -> nth_error G' i = Some (DEnum (vs ++ more)) ->
  has_type c G' (TNamed i) (VEnum tag l) -> lenN vs <= tag -> encodes G' (TNamed i) (VEnum tag l) bs -> slice_fits c (lenN bs) ->
  decodes c G (TNamed i) bs (Err {| e_o := 0; e_msg := EDiscriminant tag |}).
Proof.
  intros Hc HG HG' H Hle HE Hf. destruct H as [n H]. destruct n as [|n]; [destruct H|]. cbn [fits] in H. rewrite HG' in H. destruct H as [Htag H].
  assert (HS : exists r, bs = [tag mod 256; tag / 256] ++ r).
  { destruct (nth_error (vs ++ more) (N.to_nat tag)) as [vr|] eqn:Ev; [|destruct H].
    pose proof HE as [k Hk]. specialize (Hk (S k) (le_S _ _ (le_n k))). unfold serialize_bin in Hk. cbn [ser_bin] in Hk. rewrite HG', Ev in Hk.
    assert (E2 : le_bytes 2 tag = [tag mod 256; tag / 256]).
    { cbn [le_bytes]. rewrite (N.mod_small (tag / 256) 256); [reflexivity|]. apply N.div_lt_upper_bound; lia. }
    rewrite E2 in Hk. cbn [emit rbind app] in Hk.
    destruct (C03_append_only c G' (TNamed i) (VEnum tag l) bs [] Hc ltac:(exists (S n); cbn [fits]; rewrite HG', Ev; auto) HE) as [_ _].
    destruct (v_body vr) as [|ts|fs].
    - destruct l; [|discriminate]. injection Hk as <-. exists []. reflexivity.
    - assert (HT : forall ts l0 o r, BinModel.ser_tys (ser_bin G' k) ts l0 o = Ok r -> Forall2 (fits px_inverse c G' n) ts l0 -> exists x, r = o ++ x).
      { clear - Hc. intros ts l0 o r HR HF. revert o r HR. induction HF as [|t v ts l0 Hv _ IH]; intros o r HR; cbn in HR.
        - injection HR as <-. exists []. rewrite app_nil_r. reflexivity.
        - destruct (ser_bin G' k t v o) as [o1|e|p|] eqn:E; try discriminate. cbn in HR. destruct (IH _ _ HR) as [x ->].
          destruct (C01_bin_roundtrip c G' t v Hc (ex_intro _ n Hv)) as (b & Hb & _).
          pose proof (C03_append_only c G' t v b o Hc (ex_intro _ n Hv) Hb) as HA.
          assert (E' := BinFuel.ser_returns G' k t v o o1 E). pose proof (returns_inj _ _ _ E' HA) as Q. injection Q as ->.
          exists (b ++ x). rewrite app_assoc. reflexivity. }
      destruct (HT _ _ _ _ Hk H) as [x ->]. exists x. reflexivity.
    - assert (HT : forall fs l0 o r, ser_fields (ser_bin G' k) false fs l0 o = Ok r -> Forall2 (fun f w => fits px_inverse c G' n (f_ty f) w) fs l0 -> exists x, r = o ++ x).
      { clear - Hc. intros fs l0 o r HR HF. revert o r HR. induction HF as [|f v fs l0 Hv _ IH]; intros o r HR; cbn in HR.
        - injection HR as <-. exists []. rewrite app_nil_r. reflexivity.
        - destruct (ser_bin G' k (f_ty f) v o) as [o1|e|p|] eqn:E; try discriminate. cbn in HR. destruct (IH _ _ HR) as [x ->].
          destruct (C01_bin_roundtrip c G' (f_ty f) v Hc (ex_intro _ n Hv)) as (b & Hb & _).
          pose proof (C03_append_only c G' (f_ty f) v b o Hc (ex_intro _ n Hv) Hb) as HA.
          assert (E' := BinFuel.ser_returns G' k (f_ty f) v o o1 E). pose proof (returns_inj _ _ _ E' HA) as Q. injection Q as ->.
          exists (b ++ x). rewrite app_assoc. reflexivity. }
      destruct (HT _ _ _ _ Hk H) as [x ->]. exists x. reflexivity. }
  destruct HS as [r ->].
  destruct (C13_discriminants c G i vs tag ([tag mod 256; tag / 256] ++ r) 0 Hc HG Hf) as [_ HD]; [rewrite lenN_app; change (lenN [tag mod 256; tag / 256]) with 2; lia | assumption | reflexivity|].
  destruct (HD Hle) as [k Hk]. exists k. intros m Hm. unfold deserialize_bin. rewrite (Hk m Hm). reflexivity.
Qed.
Print Assumptions C56_bin_unknown.

(** ** JSON and RON *)
(** Whatever the text. *)
Theorem C56_text_old_data F c G G' fm t text v :
  env_grown G G' -> parses F c G fm t text (Ok v) -> parses F c G' fm t text (Ok v).
Proof.
  intros HG [n Hn]. exists n. intros m Hm. specialize (Hn m Hm). unfold deserialize_text, de_first in *.
  destruct (pbind (l_next (text_lexer F fm)) (fun _ => de_text (text_lexer F fm) F c G fm m t) (start fm text)) as [s [a|e|p|]] eqn:E; try discriminate.
  rewrite (tle_bind2 (l_next (text_lexer F fm)) _ (fun _ => de_text (text_lexer F fm) F c G' fm m t) (fun _ => de_text_grown _ F c fm G G' HG m t) _ _ _ E). exact Hn.
Qed.
Print Assumptions C56_text_old_data.
Theorem C56_text_same F c G G' fm t v text :
  env_grown G G' -> writes F c G fm t v text -> writes F c G' fm t v text.
Proof. intros HG [n Hn]. exists n. intros m Hm. apply (ser_text_grown F c G G' fm HG). apply Hn, Hm. Qed.
Print Assumptions C56_text_same.
(** The earlier program reads what the later one writes. *)
Theorem C56_text_new_to_old F c G G' fm t v text :
  flt_ok F -> cfg_ok c -> env_grown G G' -> text_typed c G fm t v -> writes F c G' fm t v text ->
  parses F c G fm t text (Ok v).
Proof.
  intros HF Hc HG Hv HW.
  assert (HR : exists text, writes F c G fm t v text /\ parses F c G fm t text (Ok v)).
  { destruct fm; [apply C17_json_roundtrip | apply C35_ron_roundtrip]; assumption. }
  destruct HR as (text' & HW' & HP). assert (Q := returns_inj _ _ _ HW (C56_text_same F c G G' fm t v text' HG HW')). injection Q as ->. exact HP.
Qed.
Print Assumptions C56_text_new_to_old.

(** ** Example: the enum of [Gex] and [Gtx] with one more variant, and a new struct. *)
Definition grow_first (G : env) : env :=
  match G with
  | DEnum vs :: r => DEnum (vs ++ [{| v_name := chars "Extra"; v_rename := None; v_body := BTuple [TInt U8] |}]) :: r
  | _ => G
  end ++ [DStruct false false [fld (chars "n") false (VZ 0) (TInt U8)]].
Lemma grow_first_grown G : env_grown G (grow_first G).
Proof.
  intros i d H. unfold grow_first. destruct G as [|d0 G]; [destruct i; discriminate|].
  assert (Hc : exists d0', (match d0 :: G with
     | DEnum vs :: r => DEnum (vs ++ [{| v_name := chars "Extra"; v_rename := None; v_body := BTuple [TInt U8] |}]) :: r
     | _ => d0 :: G end) = d0' :: G /\ grown d0 d0').
  { destruct d0 as [? ? ?|? ?|vs|? ?]; eexists; (split; [reflexivity|]); cbn; eauto. }
  destruct Hc as (d0' & -> & Hd). destruct i as [|i]; cbn in *.
  - injection H as <-. exists d0'. auto.
  - exists d. split; [|destruct d; cbn; eauto; exists []; rewrite app_nil_r; reflexivity].
    rewrite nth_error_app1; [exact H|]. apply nth_error_Some. congruence.
Qed.
Example C56_ex : has_type c64 Gex (TNamed 1) vex /\ env_grown Gex (grow_first Gex) /\
  serialize_bin (grow_first Gex) 6 (TNamed 1) vex = Ok bex /\ deserialize_bin c64 (grow_first Gex) bex 6 (TNamed 1) = Ok vex /\
  serialize_bin (grow_first Gex) 6 (TNamed 0) (VEnum 3 [VZ 9]) = Ok [3; 0; 9] /\
  deserialize_bin c64 Gex [3; 0; 9] 6 (TNamed 0) = Err {| e_o := 0; e_msg := EDiscriminant 3 |}.
Proof. split; [apply vex_typed|]. split; [apply grow_first_grown|]. repeat split; reflexivity. Qed.
Example C56_ex_text : text_typed c64 Gtx Json (TNamed 1) vtx /\ env_grown Gtx (grow_first Gtx) /\
  serialize_text toy c64 (grow_first Gtx) Json 9 (TNamed 1) vtx = serialize_text toy c64 Gtx Json 9 (TNamed 1) vtx /\
  deserialize_text toy c64 (grow_first Gtx) Ron 9 (TNamed 0) (chars "Extra(5)") = Ok (VEnum 3 [VZ 5]) /\
  exists e, deserialize_text toy c64 Gtx Ron 9 (TNamed 0) (chars "Extra(5)") = Err e.
Proof. split; [exists 6%nat; apply vtx_typed|]. split; [apply grow_first_grown|]. split; [reflexivity|]. split; [reflexivity|]. eexists. reflexivity. Qed.
