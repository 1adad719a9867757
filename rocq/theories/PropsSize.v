(** C57: types of a fixed size. *)
From Verif Require Import Base Utf8 Types BinModel BinRead BinLocal BinFuel SpecSize PropsBin.
Local Open Scope N_scope.

Section Size.
  Variables (c : cfg) (G : env) (d : list N).
  Hypothesis Hc : cfg_ok c.
  Hypothesis Hf : slice_fits c (lenN d).

  Lemma add_small o w e : o <= lenN d -> w <= 16 -> @usize_add berr c o w = Ok e -> e = o + w.
  Proof.
    intros Ho Hw. unfold usize_add. destruct (slice_fits_usize _ _ Hc Hf) as [A1 A2].
    destruct (N.ltb_spec (o + w) (usize_mod c)); [intro E; injection E as <-; reflexivity|]. lia.
  Qed.
  (** While the offset is inside the input. *)
  Definition moves {A} (m : bm A) (w : N) : Prop := forall o o' a, o <= lenN d -> m o = (o', Ok a) -> o' = o + w /\ o' <= lenN d.
  Lemma mv_ret {A} (a : A) : moves (bret a) 0.
  Proof. intros o o' b Ho E. injection E as <- _. lia. Qed.
  Lemma mv_bind {A B} (m : bm A) (f : A -> bm B) w1 w2 : moves m w1 -> (forall a, moves (f a) w2) -> moves (bbind m f) (w1 + w2).
  Proof.
    intros H1 H2 o o' b Ho E. unfold bbind in E. destruct (m o) as [o1 [a|e|p|]] eqn:E1; try discriminate.
    destruct (H1 _ _ _ Ho E1) as [Q1 Q2]. destruct (H2 _ _ _ _ Q2 E) as [Q3 Q4]. lia.
  Qed.
  Lemma mv_eq {A} (m : bm A) w w' : w = w' -> moves m w -> moves m w'. Proof. intros ->. auto. Qed.
  Lemma mv_map {A B} (g : A -> B) (m : bm A) w : moves m w -> moves (bmap g m) w.
  Proof. intro H. apply (mv_eq _ (w + 0)); [lia|]. apply mv_bind; [exact H|]. intro. apply mv_ret. Qed.
  Lemma mv_fail {A} (r : res berr A) w : (forall a, r <> Ok a) -> moves (bfail r) w.
  Proof. intros H o o' a _ E. injection E as _ E. destruct (H _ E). Qed.
  Lemma mv_fixed w : w <= 16 -> moves (rd_fixed c d w) w.
  Proof.
    intros Hw o o' a Ho E. unfold rd_fixed in E. destruct (usize_add c o w) as [e|e|p|] eqn:Ea; try discriminate.
    apply add_small in Ea; [|assumption|assumption]. subst e.
    destruct (N.ltb_spec (lenN d) (o + w)); [discriminate|]. destruct (o + w <? o); [discriminate|]. injection E as <- _. lia.
  Qed.
  Lemma mv_usize : moves (rd_usize c d) 8.
  Proof.
    intros o o' a Ho E. unfold rd_usize in E. destruct (usize_add c o 8) as [e|e|p|] eqn:Ea; try discriminate.
    apply add_small in Ea; [|assumption|lia]. subst e.
    destruct ((o <=? o + 8) && (o + 8 <=? lenN d)) eqn:E2; [|discriminate]. apply andb_prop in E2 as [_ E2]. apply N.leb_le in E2.
    injection E as <- _. lia.
  Qed.
  Lemma mv_dur : moves (rd_dur c d) 12.
  Proof.
    unfold rd_dur. apply (mv_eq _ (8 + (4 + 0))); [reflexivity|]. apply mv_bind; [apply mv_fixed; lia|]. intro bs.
    apply mv_bind; [apply mv_fixed; lia|]. intro bn. cbv zeta. destruct (1000000000 <? of_le bn); [intros o o' a _ E; discriminate|].
    unfold duration_new. destruct (of_le bn <? 1000000000); [apply mv_ret|].
    destruct (_ <? 2 ^ 64); [apply mv_ret | apply mv_fail; discriminate].
  Qed.

  Section Helpers.
    Variable de : ty -> bm val.
    Hypothesis H : forall t w, fixed G t w -> moves (de t) w.
    Lemma mv_rep t w m : moves (de t) w -> moves (de_rep de m t) (N.of_nat m * w).
    Proof.
      intro Ht. induction m as [|m IH]; cbn [de_rep]; [apply (mv_eq _ 0); [lia|apply mv_ret]|].
      apply (mv_eq _ (w + (N.of_nat m * w + 0))); [lia|]. apply mv_bind; [exact Ht|]. intro. apply mv_bind; [exact IH|]. intro. apply mv_ret.
    Qed.
    Lemma mv_tys ts w : fixed_all G ts w -> moves (de_tys de ts) w.
    Proof.
      revert w. induction ts as [|t ts IH]; intros w Hw; inversion Hw; subst; cbn [de_tys]; [apply mv_ret|].
      match goal with |- moves _ (?a + ?b) => apply (mv_eq _ (a + (b + 0))); [lia|] end.
      apply mv_bind; [auto|]. intro. apply mv_bind; [auto|]. intro. apply mv_ret.
    Qed.
    Lemma mv_fields fs w : fixed_all G (map f_ty (filter (fun f => negb (f_skip f)) fs)) w -> moves (de_fields de true fs) w.
    Proof.
      revert w. induction fs as [|f fs IH]; intros w Hw; cbn [de_fields andb]; [inversion Hw; subst; apply mv_ret|].
      cbn [filter map] in Hw. destruct (f_skip f); cbn [negb] in Hw.
      - apply (mv_eq _ (0 + (w + 0))); [lia|]. apply mv_bind; [apply mv_ret|]. intro. apply mv_bind; [auto|]. intro. apply mv_ret.
      - cbn [map] in Hw. inversion Hw; subst.
        match goal with |- moves _ (?a + ?b) => apply (mv_eq _ (a + (b + 0))); [lia|] end.
        apply mv_bind; [auto|]. intro. apply mv_bind; [auto|]. intro. apply mv_ret.
    Qed.
    Lemma mv_vfields fs w : fixed_all G (map f_ty fs) w -> moves (de_fields de false fs) w.
    Proof.
      revert w. induction fs as [|f fs IH]; intros w Hw; cbn [de_fields andb]; [inversion Hw; subst; apply mv_ret|].
      cbn [map] in Hw. inversion Hw; subst.
      match goal with |- moves _ (?a + ?b) => apply (mv_eq _ (a + (b + 0))); [lia|] end.
      apply mv_bind; [auto|]. intro. apply mv_bind; [auto|]. intro. apply mv_ret.
    Qed.
  End Helpers.
  Lemma variant_fixed vs w k vr : fixed_variants G (map v_body vs) w -> nth_error vs k = Some vr ->
    match v_body vr with BUnit => w = 0 | BTuple ts => fixed_all G ts w | BStruct fs => fixed_all G (map f_ty fs) w end.
  Proof.
    revert k. induction vs as [|v vs IH]; intros k Hw Hk; [destruct k; discriminate|].
    cbn [map] in Hw. destruct k as [|k]; cbn [nth_error] in Hk.
    - injection Hk as ->. inversion Hw; subst; auto.
    - apply (IH k); [|exact Hk]. inversion Hw; subst; assumption.
  Qed.
  Lemma de_moves : forall n t w, fixed G t w -> moves (de_bin c G d n t) w.
  Proof.
    induction n as [|n IH]; intros t w Hw; [intros o o' a _ E; discriminate|].
    inversion Hw; subst; cbn [de_bin].
    - assert (Hk : moves (rd_fixed c d (N.of_nat (ik_bytes k))) (N.of_nat (ik_bytes k))) by (apply mv_fixed; destruct k; cbn; lia).
      destruct k; first [apply mv_map; exact Hk | apply mv_map, mv_usize].
    - apply mv_map, mv_fixed. lia.
    - apply mv_map, mv_fixed. lia.
    - apply mv_map, mv_fixed. lia.
    - apply mv_ret.
    - apply mv_dur.
    - apply IH. assumption.
    - apply mv_map, IH. assumption.
    - apply mv_map, mv_rep; auto.
    - apply mv_map, mv_tys; assumption.
    - match goal with E : nth_error G i = _ |- _ => rewrite E end. apply mv_map, mv_fields; assumption.
    - match goal with E : nth_error G i = _ |- _ => rewrite E end. destruct (existsb f_skip fs); [apply mv_fail; discriminate|]. apply mv_map, mv_fields; assumption.
    - match goal with E : nth_error G i = _ |- _ => rewrite E end. apply mv_map, IH. assumption.
    - match goal with E : nth_error G i = _ |- _ => rewrite E end. apply mv_bind; [apply mv_fixed; lia|]. intro b. cbv zeta.
      destruct (nth_error vs (N.to_nat (of_le b))) as [vr|] eqn:Ev; [|apply mv_fail; discriminate].
      match goal with Hv : fixed_variants G _ _ |- _ => pose proof (variant_fixed _ _ _ _ Hv Ev) as Hb end.
      destruct (v_body vr) as [|ts|fs]; [subst; apply mv_ret | apply mv_map, mv_tys; assumption | apply mv_map, mv_vfields; assumption].
  Qed.
End Size.

(** Every read of such a type that succeeds takes exactly that many bytes: whatever the bytes ... *)
Theorem C57_read_size c G t w d o o' v :
  cfg_ok c -> slice_fits c (lenN d) -> o <= lenN d -> fixed G t w -> decodes_at c G t d o o' (Ok v) -> o' = o + w.
Proof. intros Hc Hf Ho Hw [n Hn]. exact (proj1 (de_moves c G d Hc Hf n t w Hw o o' v Ho (Hn n (le_n n)))). Qed.
Print Assumptions C57_read_size.
(** ... hence never succeeds with fewer left ... *)
Theorem C57_short c G t w d o o' v :
  cfg_ok c -> slice_fits c (lenN d) -> o <= lenN d -> fixed G t w -> lenN d < o + w -> ~ decodes_at c G t d o o' (Ok v).
Proof. intros Hc Hf Ho Hw Hl [n Hn]. destruct (de_moves c G d Hc Hf n t w Hw o o' v Ho (Hn n (le_n n))). lia. Qed.
Print Assumptions C57_short.
(** ... and every value is written with that many. *)
Theorem C57_write_size c G t w v bs :
  cfg_ok c -> fixed G t w -> has_type c G t v -> encodes G t v bs -> slice_fits c (lenN bs) -> lenN bs = w.
Proof.
  intros Hc Hw Hv HE Hf. pose proof (C02_self_delimiting c G t v bs [] [] Hc Hv HE) as H. cbn [app] in H. rewrite app_nil_r in H.
  specialize (H Hf). apply (C57_read_size c G t w bs 0 _ v Hc Hf (N.le_0_l _) Hw) in H. rewrite !N.add_0_l in H. exact H.
Qed.
Print Assumptions C57_write_size.

(** [struct Fix { a: [u16; 3], #[nserde(skip)] b: u8, e: E }], [enum E { A(u8, bool), B { x: i16 } }] *)
Definition Gfix : env :=
  [ DStruct false false [fld (chars "a") false (VSeq []) (TArr 3 (TInt U16)); fld (chars "b") true (VZ 0) (TInt U8); fld (chars "e") false VUnit (TNamed 1)];
    DEnum [ {| v_name := chars "A"; v_rename := None; v_body := BTuple [TInt U8; TBool] |};
            {| v_name := chars "B"; v_rename := None; v_body := BStruct [fld (chars "x") false (VZ 0) (TInt I16)] |} ] ].
Example C57_ex : fixed Gfix (TNamed 0) 10 /\
  has_type c64 Gfix (TNamed 0) (VSeq [VSeq [VZ 1; VZ 2; VZ 3]; VZ 0; VEnum 1 [VZ (-1)]]) /\
  serialize_bin Gfix 6 (TNamed 0) (VSeq [VSeq [VZ 1; VZ 2; VZ 3]; VZ 0; VEnum 1 [VZ (-1)]]) = Ok [1; 0; 2; 0; 3; 0; 1; 0; 255; 255].
Proof.
  split; [|split; [|reflexivity]].
  - apply (fx_struct Gfix 0 false false _ (N.of_nat 3 * N.of_nat (ik_bytes U16) + (2 + (1 + (1 + 0)) + 0)) eq_refl). cbn [filter map f_skip fld negb f_ty].
    apply fa_cons; [apply fx_arr, fx_int|]. apply fa_cons; [|constructor].
    apply (fx_enum Gfix 1 _ _ eq_refl). cbn [map v_body]. apply fv_tuple.
    + apply (fa_cons _ _ _ (N.of_nat (ik_bytes U8))); [constructor|]. repeat constructor.
    + apply fv_struct; [|constructor]. cbn [map f_ty fld]. apply (fa_cons _ _ _ (N.of_nat (ik_bytes I16)) 0); constructor.
  - exists 4%nat. repeat (fit_step; cbn [f_skip f_ty f_tydefault fld fst snd]); auto; try reflexivity; try (cbv; intuition congruence).
Qed.
