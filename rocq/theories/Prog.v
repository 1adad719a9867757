(** Whole programs behave like the declarations they come from. *)
From Verif Require Import Base Utf8 Types Text TextModel TextSim TextFuel BinModel BinRead BinFuel DeriveModel SpecDerive DeriveProofs PropsDerive GenModel SpecGen Gen
  GenJsonModel GenRonModel SpecGenText GenText GenPrint GenTextSer GenTextDe PropsGen PropsGenText SpecProg.
Local Open Scope N_scope.

Definition builtin (t : ty) : bool := match t with TNamed _ => false | _ => true end.

(** ** The library's part is the model's *)
Lemma lib_ser_model G n t v out : builtin t = true -> ser_bin G (S n) t v out = lib_ser (ser_bin G n) t v out.
Proof. destruct t; try discriminate; intros _; destruct v; reflexivity. Qed.
Lemma lib_de_model c G d n t : builtin t = true -> de_bin c G d (S n) t = lib_de c d (de_bin c G d n) t.
Proof. destruct t; try discriminate; reflexivity. Qed.
Lemma lib_write_model F c G fm n t v : builtin t = true -> TextModel.ser_text F c G fm (S n) t v = lib_write F c fm (TextModel.ser_text F c G fm n) t v.
Proof. destruct t; try discriminate; intros _; destruct v; reflexivity. Qed.
Lemma lib_read_model {S} (L : lexer S) F c G fm n t : builtin t = true ->
  TextModel.de_text L F c G fm (Datatypes.S n) t = lib_read L F c fm (TextModel.de_text L F c G fm n) n t.
Proof. destruct t; try discriminate; reflexivity. Qed.

(** ** Binary, writing *)
Definition okle {E A} (x y : res E A) : Prop := forall o, x = Ok o -> y = Ok o.
Lemma okle_refl {E A} (x : res E A) : okle x x. Proof. intros o H. exact H. Qed.
Lemma okle_bind {E A B} (x y : res E A) (f g : A -> res E B) : okle x y -> (forall o, okle (f o) (g o)) -> okle (rbind x f) (rbind y g).
Proof. intros H1 H2 o H. destruct x as [a| | |]; try discriminate. rewrite (H1 a eq_refl). exact (H2 a o H). Qed.
Lemma okle_trans {E A} (x y z : res E A) : okle x y -> okle y z -> okle x z.
Proof. intros H1 H2 o H. apply H2, H1, H. Qed.

Section BinSer.
  Variables a b : ty -> val -> list N -> sres.
  Hypothesis Hab : forall t v o, okle (a t v o) (b t v o).
  Lemma okle_items t l : forall o, okle (BinModel.ser_items a t l o) (BinModel.ser_items b t l o).
  Proof. induction l as [|v l IH]; intro o; cbn [BinModel.ser_items]; [apply okle_refl|]. apply okle_bind; [apply Hab | exact IH]. Qed.
  Lemma okle_entries tk tv l : forall o, okle (BinModel.ser_entries a tk tv l o) (BinModel.ser_entries b tk tv l o).
  Proof.
    induction l as [|[k v] l IH]; intro o; cbn [BinModel.ser_entries]; [apply okle_refl|]. apply okle_bind; [apply Hab|]. intro o1. apply okle_bind; [apply Hab | exact IH].
  Qed.
  Lemma okle_tys ts : forall l o, okle (BinModel.ser_tys a ts l o) (BinModel.ser_tys b ts l o).
  Proof. induction ts as [|t ts IH]; intros [|v l] o; cbn [BinModel.ser_tys]; try apply okle_refl. apply okle_bind; [apply Hab | intro; apply IH]. Qed.
  Lemma okle_lib t v o : okle (lib_ser a t v o) (lib_ser b t v o).
  Proof.
    destruct t as [k| | | | | |t|k t|k tk tv|m t|ts|t| | |p t|i]; try apply okle_refl; try (destruct v; try apply okle_refl; cbn [lib_ser]).
    all: try apply Hab.
    - apply okle_bind; [apply okle_refl|]. intro. apply okle_items.
    - apply okle_bind; [apply okle_refl|]. intro. apply okle_entries.
    - apply okle_items.
    - apply okle_tys.
  Qed.
End BinSer.

(** The definitions of a program are ones the theorems of C68 are about. *)
Definition bin_item (a : item str sprog dprog) : Prop :=
  let d := it_def a in
  def_ok d /\ no_const d /\ rust_ok d /\ variants_plain d /\ proxy_plain d /\ tuple_plain d /\ converts (it_world a) (it_conv a) (sd_name d) /\
  it_ser a = mk_ser d /\ it_de a = mk_de d.

Lemma decls_nth {C S D} (prog : list (item C S D)) i a : nth_error prog i = Some a -> nth_error (decls prog) i = Some (source_decl (it_world a) (it_def a)).
Proof. intro H. unfold decls. rewrite nth_error_map, H. reflexivity. Qed.
Lemma decls_none {C S D} (prog : list (item C S D)) i : nth_error prog i = None -> nth_error (decls prog) i = None.
Proof. intro H. unfold decls. rewrite nth_error_map, H. reflexivity. Qed.

Lemma fields_length ser hs fs : forall l o o', BinModel.ser_fields ser hs fs l o = Ok o' -> length l = length fs.
Proof.
  induction fs as [|f fs IH]; intros [|v l] o o' H; cbn [BinModel.ser_fields] in H; try discriminate; [reflexivity|]. cbn [length]. f_equal.
  destruct (hs && f_skip f); [exact (IH _ _ _ H)|]. destruct (ser (f_ty f) v o) as [o1| | |]; try discriminate. exact (IH _ _ _ H).
Qed.
Lemma tys_length ser ts : forall l o o', BinModel.ser_tys ser ts l o = Ok o' -> length l = length ts.
Proof.
  induction ts as [|f fs IH]; intros [|v l] o o' H; cbn [BinModel.ser_tys] in H; try discriminate; [reflexivity|]. cbn [length]. f_equal.
  destruct (ser f v o) as [o1| | |]; try discriminate. exact (IH _ _ _ H).
Qed.
Lemma numbered_length ts : forall n, length (numbered n ts) = length ts.
Proof. induction ts as [|t ts IH]; intro n; cbn [numbered length]; [reflexivity|]. rewrite IH. reflexivity. Qed.

(** Only instances of a definition can be serialized (unless it has a proxy). *)
Lemma ser_instance W G n i d v o o' : nth_error G i = Some (source_decl W d) -> value_in (chars "proxy") (items (sd_attrs d)) = None ->
  ser_bin G (S n) (TNamed i) v o = Ok o' -> instance (shape_of d) v.
Proof.
  intros HG Hp H. cbn [ser_bin] in H. rewrite HG in H. unfold source_decl, shape_of in *. rewrite Hp in H.
  destruct (sd_body d) as [fs b|fs b| |vs b]; destruct v; try discriminate; cbn [instance].
  - apply fields_length in H. rewrite map_length in *. exact H.
  - apply fields_length in H. rewrite numbered_length, map_length in *. exact H.
  - apply fields_length in H. exact H.
  - rewrite nth_error_map in H |- *. destruct (nth_error vs (N.to_nat tag)) as [sv|]; [|discriminate]. cbn [option_map] in H |- *.
    eexists _, _. split; [reflexivity|]. destruct (emit (le_bytes 2 tag) o) as [o1| | |]; try discriminate. cbn [rbind source_variant v_body] in H.
    destruct (sv_payload sv) as [|ts tb|fs tb].
    + destruct l; [reflexivity | discriminate].
    + apply tys_length in H. rewrite map_length in *. exact H.
    + apply fields_length in H. rewrite map_length in *. exact H.
Qed.

Section BinProg.
  Variable prog : list (item str sprog dprog).
  Hypothesis Hprog : Forall (bin_item) prog.
  Notation G := (decls prog).

  Lemma prog_ser_ge n : forall m t v o, (S n <= m)%nat -> okle (ser_bin G n t v o) (prog_ser prog m t v o).
  Proof.
    induction n as [n IHn] using lt_wf_ind. intros m t v o Hm. destruct n as [|n]; [intros x Hx; discriminate|].
    destruct m as [|m]; [lia|].
    assert (Hab : forall t v o, okle (ser_bin G n t v o) (prog_ser prog m t v o)) by (intros; apply IHn; lia).
    destruct (builtin t) eqn:Eb.
    - rewrite lib_ser_model by exact Eb. replace (prog_ser prog (S m) t v o) with (lib_ser (prog_ser prog m) t v o) by (destruct t; try discriminate; reflexivity).
      apply okle_lib. exact Hab.
    - destruct t as [| | | | | | | | | | | | | | |i]; try discriminate. cbn [prog_ser]. destruct (nth_error prog i) as [a|] eqn:Ea.
      + pose proof (proj1 (Forall_forall _ _) Hprog _ (nth_error_In _ _ Ea)) as (Hok & Hc & Hru & Hvp & Hpp & Htp & Hconv & Es & _).
        pose proof (decls_nth _ _ _ Ea) as HG. rewrite Es. intros x Hx.
        destruct (value_in (chars "proxy") (items (sd_attrs (it_def a)))) as [p|] eqn:Ep.
        * cbn [ser_bin] in Hx. rewrite HG in Hx. unfold source_decl in Hx. rewrite Ep in Hx. destruct Hconv as [_ Hpr]. rewrite Hpr in Hx. cbn [fst snd] in Hx.
          unfold mk_ser. rewrite Ep. assert (Hrun : forall sh, run_ser (fun t => w_ty (it_world a) t None) (it_conv a) (sd_name (it_def a)) sh (prog_ser prog m) (SProxy p) v o = Ok x).
          { intros sh. destruct sh; cbn [run_ser]; apply Hab; exact Hx. }
          unfold proxy_plain in Hpp. destruct (sd_body (it_def a)); try apply Hrun. destruct Hpp as [_ []]. congruence.
        * pose proof (ser_instance (it_world a) G n i (it_def a) v o x HG Ep Hx) as Hi. revert x Hx.
          apply (run_ser_rel (it_world a) (it_conv a) (it_def a) Hconv okle); try assumption.
          -- intros y. apply okle_refl.
          -- intros y z f g. apply okle_bind.
          -- intros p t w o1. destruct n as [|k]; [intros x Hx; discriminate|]. cbn [ser_bin]. apply IHn; lia.
          -- intros k o1 Hk. destruct m as [|m]; [lia|]. cbn [prog_ser lib_ser ik_bytes]. rewrite u16_bits by exact Hk. apply okle_refl.
      + cbn [ser_bin]. rewrite (decls_none _ _ Ea). intros x Hx. destruct v; discriminate.
  Qed.

  (** Reading. *)
  Section LibDe.
    Variable c : cfg.
    Variable d : list N.
    Variables x y : ty -> bm val.
    Hypothesis Hxy : forall t, bm_le (x t) (y t).
    Lemma bm_le_lib t : bm_le (lib_de c d x t) (lib_de c d y t).
    Proof.
      destruct t; cbn [lib_de]; try apply bm_le_refl; try apply Hxy.
      - apply bm_le_bind; [apply bm_le_refl|]. intro b. destruct (of_le b =? 1); [|apply bm_le_refl]. apply bm_le_map, Hxy.
      - apply bm_le_bind; [apply bm_le_refl|]. intro b. apply bm_le_bind; [apply bm_le_refl|]. intros _. apply bm_le_map, de_items_mono, Hxy.
      - apply bm_le_bind; [apply bm_le_refl|]. intro b. apply bm_le_bind; [apply bm_le_refl|]. intros _. apply bm_le_map, de_entries_mono; apply Hxy.
      - apply bm_le_map, de_rep_mono, Hxy.
      - apply bm_le_map, de_tys_mono, Hxy.
      - apply bm_le_map, Hxy.
    Qed.
  End LibDe.
  Lemma prog_de_ge c bytes n : forall m t, (S n <= m)%nat -> bm_le (de_bin c G bytes n t) (prog_de prog c bytes m t).
  Proof.
    induction n as [n IHn] using lt_wf_ind. intros m t Hm. destruct n as [|n]; [intro o; left; reflexivity|].
    destruct m as [|m]; [lia|].
    assert (Hab : forall t, bm_le (de_bin c G bytes n t) (prog_de prog c bytes m t)) by (intros; apply IHn; lia).
    destruct (builtin t) eqn:Eb.
    - rewrite lib_de_model by exact Eb. replace (prog_de prog c bytes (S m) t) with (lib_de c bytes (prog_de prog c bytes m) t) by (destruct t; try discriminate; reflexivity).
      apply bm_le_lib. exact Hab.
    - destruct t as [| | | | | | | | | | | | | | |i]; try discriminate. cbn [prog_de]. destruct (nth_error prog i) as [a|] eqn:Ea.
      + pose proof (proj1 (Forall_forall _ _) Hprog _ (nth_error_In _ _ Ea)) as (Hok & Hc & Hru & Hvp & Hpp & Htp & Hconv & _ & Es).
        pose proof (decls_nth _ _ _ Ea) as HG. rewrite Es.
        apply (run_de_rel (it_world a) (it_conv a) (it_def a) Hconv (fun A => bm_le)); try assumption.
        * intros A q. apply bm_le_refl.
        * intros A B m1 m2 f g H1 H2. apply bm_le_bind; auto.
        * intros A m1 m2 m1' m2' H E1 E2 q. rewrite <- E1, <- E2. apply H.
        * intros p t. destruct n as [|k]; [intros q; left; reflexivity|]. cbn [de_bin]. apply bm_le_bind; [|intros v; apply bm_le_refl]. apply IHn; lia.
        * destruct m as [|m]; [lia|]. cbn [prog_de lib_de]. apply bm_le_refl.
      + cbn [de_bin]. rewrite (decls_none _ _ Ea). intro o. right. reflexivity.
  Qed.
  Lemma prog_de_le c bytes m : forall n t, (2 * m <= n)%nat -> bm_le (prog_de prog c bytes m t) (de_bin c G bytes n t).
  Proof.
    induction m as [|m IHm]; intros n t Hn; [intro o; left; reflexivity|]. destruct n as [|n]; [lia|]. destruct n as [|n]; [lia|].
    assert (Hab : forall t, bm_le (prog_de prog c bytes m t) (de_bin c G bytes (S n) t)) by (intros; apply IHm; lia).
    destruct (builtin t) eqn:Eb.
    - rewrite lib_de_model by exact Eb. replace (prog_de prog c bytes (S m) t) with (lib_de c bytes (prog_de prog c bytes m) t) by (destruct t; try discriminate; reflexivity).
      apply bm_le_lib. exact Hab.
    - destruct t as [| | | | | | | | | | | | | | |i]; try discriminate. cbn [prog_de]. destruct (nth_error prog i) as [a|] eqn:Ea.
      + pose proof (proj1 (Forall_forall _ _) Hprog _ (nth_error_In _ _ Ea)) as (Hok & Hc & Hru & Hvp & Hpp & Htp & Hconv & _ & Es).
        pose proof (decls_nth _ _ _ Ea) as HG. rewrite Es.
        apply (run_de_rel (it_world a) (it_conv a) (it_def a) Hconv (fun A x y => bm_le y x)); try assumption.
        * intros A q. apply bm_le_refl.
        * intros A B m1 m2 f g H1 H2. apply bm_le_bind; auto.
        * intros A m1 m2 m1' m2' H E1 E2 q. rewrite <- E1, <- E2. apply H.
        * intros p t. cbn [de_bin]. apply bm_le_bind; [|intros v; apply bm_le_refl]. apply IHm; lia.
        * destruct m as [|m]; [intros q; left; reflexivity|]. cbn [prog_de lib_de]. apply bm_le_refl.
      + cbn [de_bin]. rewrite (decls_none _ _ Ea). intro o. right. reflexivity.
  Qed.
End BinProg.

(** ** Text, writing *)
Section WriteLib.
  Variables a b : ty -> val -> wres.
  Hypothesis Hab : forall t v, okle (a t v) (b t v).
  Lemma okle_map {A B} (f : A -> B) (x y : res Empty_set A) : okle x y -> okle (rmap f x) (rmap f y).
  Proof. intro H. apply okle_bind; [exact H|]. intro. apply okle_refl. Qed.
  Lemma okle_rall {A} (f g : A -> wres) l : (forall x, okle (f x) (g x)) -> okle (rall (map f l)) (rall (map g l)).
  Proof.
    intro H. induction l as [|x l IH]; cbn [map rall]; [apply okle_refl|]. apply okle_bind; [apply H|]. intro. apply okle_map, IH.
  Qed.
  Lemma okle_wtys ts : forall l, okle (TextModel.ser_tys a ts l) (TextModel.ser_tys b ts l).
  Proof. induction ts as [|t ts IH]; intros [|v l]; cbn [TextModel.ser_tys]; try apply okle_refl. apply okle_bind; [apply Hab|]. intro. apply okle_map, IH. Qed.
  Lemma okle_entry tk tv e : okle (ser_entry a tk tv e) (ser_entry b tk tv e).
  Proof. destruct e as [k v]. unfold ser_entry. apply okle_bind; [apply Hab|]. intro. apply okle_bind; [apply Hab|]. intro. apply okle_refl. Qed.
  Lemma okle_wlib F c fm t v : okle (lib_write F c fm a t v) (lib_write F c fm b t v).
  Proof.
    destruct t as [k| | | | | |t|k t|k tk tv|m t|ts|t| | |p t|i]; try apply okle_refl; try (destruct v; try apply okle_refl; cbn [lib_write]).
    all: try apply Hab.
    all: try (destruct fm; [apply Hab | apply okle_refl]).
    - apply okle_map, okle_rall. intro. apply Hab.
    - apply okle_map, okle_rall. intro. apply okle_entry.
    - destruct l; [apply okle_refl|]. apply okle_map, okle_rall. intro. apply Hab.
    - destruct (tuple_arity (length ts)); [|apply okle_refl]. apply okle_map, okle_wtys.
  Qed.
End WriteLib.

Lemma named_length fm ser cnull fs : forall l o, ser_named fm ser cnull fs l = Ok o -> length l = length fs.
Proof.
  induction fs as [|f fs IH]; intros [|v l] o H; cbn [ser_named] in H; try discriminate; [reflexivity|]. cbn [length]. f_equal.
  destruct (f_skip f); [exact (IH _ _ H)|]. destruct (ser_field _ _ _ _ _ _) as [x| | |]; try discriminate. cbn [rbind] in H.
  destruct (ser_named fm ser cnull fs l) as [r| | |] eqn:E; try discriminate. exact (IH _ _ E).
Qed.
Lemma variant_length fm ser fs : forall l o, ser_variant_fields fm ser fs l = Ok o -> length l = length fs.
Proof.
  induction fs as [|f fs IH]; intros [|v l] o H; cbn [ser_variant_fields] in H; try discriminate; [reflexivity|]. cbn [length]. f_equal.
  destruct (ser_field _ _ _ _ _ _) as [x| | |]; try discriminate. cbn [rbind] in H.
  destruct (ser_variant_fields fm ser fs l) as [r| | |] eqn:E; try discriminate. exact (IH _ _ E).
Qed.
Lemma wtys_length ser ts : forall l o, TextModel.ser_tys ser ts l = Ok o -> length l = length ts.
Proof.
  induction ts as [|t ts IH]; intros [|v l] o H; cbn [TextModel.ser_tys] in H; try discriminate; [reflexivity|]. cbn [length]. f_equal.
  destruct (ser t v) as [x| | |]; try discriminate. cbn [rbind] in H.
  destruct (TextModel.ser_tys ser ts l) as [r| | |] eqn:E; try discriminate. exact (IH _ _ E).
Qed.
Lemma unnamed_length fm ser fs : forall l o, ser_unnamed fm ser fs l = Ok o -> length l = length fs.
Proof.
  induction fs as [|f fs IH]; intros [|v l] o H; cbn [ser_unnamed] in H; try discriminate; [reflexivity|]. cbn [length]. f_equal.
  destruct fm.
  - destruct (ser (f_ty f) v) as [x| | |]; try discriminate. cbn [rbind] in H. destruct (ser_unnamed Json ser fs l) as [r| | |] eqn:E; try discriminate. exact (IH _ _ E).
  - destruct (f_skip f); [exact (IH _ _ H)|]. destruct (ser (f_ty f) v) as [x| | |]; try discriminate. cbn [rbind] in H.
    destruct (ser_unnamed Ron ser fs l) as [r| | |] eqn:E; try discriminate. exact (IH _ _ E).
Qed.
Lemma rmap_ok {E A B} (f : A -> B) (x : res E A) o : rmap f x = Ok o -> exists y, x = Ok y.
Proof. destruct x; try discriminate. intro. eexists. reflexivity. Qed.
Lemma write_instance F c G fm W n i d v o : nth_error G i = Some (source_decl W d) -> value_in (chars "proxy") (items (sd_attrs d)) = None ->
  TextModel.ser_text F c G fm (S n) (TNamed i) v = Ok o -> instance (shape_of d) v.
Proof.
  intros HG Hp H. cbn [TextModel.ser_text] in H. rewrite HG in H. unfold source_decl, shape_of in *. rewrite Hp in H.
  destruct (sd_body d) as [fs b|fs b| |vs b]; destruct v; try discriminate; cbn [instance].
  - apply rmap_ok in H as [y H]. apply named_length in H. rewrite map_length in *. exact H.
  - rewrite numbered_length, map_length. rewrite <- (map_length (source_field W false)). revert H. generalize (map (source_field W false) fs). intros gs H.
    destruct (existsb f_hasproxy gs); [discriminate|].
    assert (Hu : forall l, rmap (wrap (t_open fm) (t_close fm)) (ser_unnamed fm (TextModel.ser_text F c G fm n) gs l) = Ok o -> length l = length gs).
    { intros l' H'. apply rmap_ok in H' as [y H']. exact (unnamed_length _ _ _ _ _ H'). }
    destruct fm, gs as [|g [|g' gs]]; try (apply Hu; exact H); try discriminate; destruct l as [|w [|w' l]]; try (apply Hu; exact H); try discriminate; try reflexivity.
  - cbn [existsb] in H. destruct fm; [|discriminate]. destruct l; [reflexivity|]. discriminate.
  - rewrite nth_error_map in H |- *. destruct (nth_error vs (N.to_nat tag)) as [sv|]; [|discriminate]. cbn [option_map] in H |- *.
    eexists _, _. split; [reflexivity|]. cbn [source_variant v_body] in H.
    destruct (sv_payload sv) as [|ts tb|fs tb].
    + destruct l; [reflexivity | discriminate].
    + destruct ts as [|t ts]; [discriminate|]. cbn [map] in H. apply rmap_ok in H as [y H]. apply (wtys_length _ (_ :: _)) in H. cbn [length] in *. rewrite map_length in *. exact H.
    + apply rmap_ok in H as [y H]. apply variant_length in H. rewrite map_length in *. exact H.
Qed.

(** The definitions that C69 and C70 are about. *)
Definition json_item (a : item ty jprog tdprog) : Prop :=
  let d := it_def a in
  def_ok d /\ no_const d /\ rust_ok d /\ proxy_plain d /\ names_plain d /\ json_tuple_plain d /\ variants_compile d /\
  world_ok (it_world a) (it_conv a) (it_self a) d /\
  it_ser a = mk_json_ser d /\ it_de a = mk_json_de d.
Definition ron_item (a : item ty jprog tdprog) : Prop :=
  let d := it_def a in
  def_ok d /\ no_const d /\ rust_ok d /\ names_plain d /\ ron_plain d /\ variants_compile d /\ container_ok Ron d /\
  world_ok (it_world a) (it_conv a) (it_self a) d /\
  it_ser a = mk_ron_ser d /\ it_de a = mk_ron_de d.

Section TextProg.
  Variable F : flt.
  Variable c : cfg.

  Lemma prog_write_json prog : Forall (json_item) prog -> forall n m t v, (2 * n + 1 <= m)%nat ->
    okle (TextModel.ser_text F c (decls prog) Json n t v) (prog_write F c Json prog m t v).
  Proof.
    intro Hprog. set (G := decls prog). induction n as [n IHn] using lt_wf_ind. intros m t v Hm. destruct n as [|n]; [intros x Hx; discriminate|].
    destruct m as [|m]; [lia|].
    assert (Hab : forall t v, okle (TextModel.ser_text F c G Json n t v) (prog_write F c Json prog m t v)) by (intros; apply IHn; lia).
    destruct (builtin t) eqn:Eb.
    - rewrite lib_write_model by exact Eb.
      replace (prog_write F c Json prog (S m) t v) with (lib_write F c Json (prog_write F c Json prog m) t v) by (destruct t; try discriminate; reflexivity).
      apply okle_wlib. exact Hab.
    - destruct t as [| | | | | | | | | | | | | | |i]; try discriminate. cbn [prog_write]. destruct (nth_error prog i) as [a|] eqn:Ea.
      + pose proof (proj1 (Forall_forall _ _) Hprog _ (nth_error_In _ _ Ea)) as (Hok & Hc & Hru & Hpp & Hnp & Htp & Hvc & Hw & Es & _).
        pose proof (decls_nth _ _ _ Ea) as HG. fold G in HG. rewrite Es. intros x Hx.
        destruct (value_in (chars "proxy") (items (sd_attrs (it_def a)))) as [p|] eqn:Ep.
        * cbn [TextModel.ser_text] in Hx. rewrite HG in Hx. unfold source_decl in Hx. rewrite Ep in Hx. destruct Hw as (_ & Hpr & _). rewrite Hpr in Hx. cbn [fst snd] in Hx.
          assert (Hx' : TextModel.ser_text F c G Json n (w_ty (it_world a) p None) (p_to (it_self a p) v) = Ok x) by (destruct v; exact Hx). clear Hx.
          unfold mk_json_ser, container_proxy. rewrite Ep.
          assert (Hrun : forall sh, run_jser Json (fun t => w_ty (it_world a) t None) (it_conv a) (it_self a) sh (prog_write F c Json prog m) (JVia p) v = Ok x).
          { intros sh. destruct sh; cbn [run_jser]; apply Hab; exact Hx'. }
          unfold proxy_plain in Hpp. destruct (sd_body (it_def a)); try apply Hrun. destruct Hpp as [_ []]. congruence.
        * pose proof (write_instance F c G Json (it_world a) n i (it_def a) v x HG Ep Hx) as Hi. revert x Hx.
          apply (run_json_ser (it_world a) (it_conv a) (it_self a) (it_def a) Hw F c G (fun A => okle)); try assumption.
          -- intros A y. apply okle_refl.
          -- intros A B y z f g. apply okle_bind.
          -- intros p t w. destruct n as [|k]; [intros x Hx; discriminate|].
             change (TextModel.ser_text F c G Json (S k) (TProxy p t) w) with (TextModel.ser_text F c G Json k t (p_to p w)). apply IHn; lia.
          -- intros t w. destruct m as [|m]; [lia|]. change (prog_write F c Json prog (S m) (TOpt t) (VSome w)) with (prog_write F c Json prog m t w). apply (IHn n); lia.
          -- intros p t w. destruct n as [|k]; [intros x Hx; discriminate|]. destruct m as [|m]; [lia|].
             change (TextModel.ser_text F c G Json (S k) (TProxy p t) w) with (TextModel.ser_text F c G Json k t (p_to p w)).
             change (prog_write F c Json prog (S m) (TOpt t) (VSome (p_to p w))) with (prog_write F c Json prog m t (p_to p w)). apply (IHn k); lia.
          -- destruct m as [|m]; [lia|]. apply okle_refl.
      + cbn [TextModel.ser_text]. unfold G. rewrite (decls_none _ _ Ea). intros x Hx. destruct v; discriminate.
  Qed.
  Lemma prog_write_ron prog : Forall (ron_item) prog -> forall n m t v, (2 * n + 1 <= m)%nat ->
    okle (TextModel.ser_text F c (decls prog) Ron n t v) (prog_write F c Ron prog m t v).
  Proof.
    intro Hprog. set (G := decls prog). induction n as [n IHn] using lt_wf_ind. intros m t v Hm. destruct n as [|n]; [intros x Hx; discriminate|].
    destruct m as [|m]; [lia|].
    assert (Hab : forall t v, okle (TextModel.ser_text F c G Ron n t v) (prog_write F c Ron prog m t v)) by (intros; apply IHn; lia).
    destruct (builtin t) eqn:Eb.
    - rewrite lib_write_model by exact Eb.
      replace (prog_write F c Ron prog (S m) t v) with (lib_write F c Ron (prog_write F c Ron prog m) t v) by (destruct t; try discriminate; reflexivity).
      apply okle_wlib. exact Hab.
    - destruct t as [| | | | | | | | | | | | | | |i]; try discriminate. cbn [prog_write]. destruct (nth_error prog i) as [a|] eqn:Ea.
      + pose proof (proj1 (Forall_forall _ _) Hprog _ (nth_error_In _ _ Ea)) as (Hok & Hc & Hru & Hnp & Hrp & Hvc & Hco & Hw & Es & _).
        pose proof (decls_nth _ _ _ Ea) as HG. fold G in HG. rewrite Es. intros x Hx.
        pose proof (write_instance F c G Ron (it_world a) n i (it_def a) v x HG (proj1 Hrp) Hx) as Hi. revert x Hx.
        apply (run_ron_ser (it_world a) (it_conv a) (it_self a) (it_def a) Hw F c G (fun A => okle)); try assumption.
        -- intros A y. apply okle_refl.
        -- intros A B y z f g. apply okle_bind.
        -- intros t w. destruct m as [|m]; [lia|]. change (prog_write F c Ron prog (S m) (TOpt t) (VSome w)) with (prog_write F c Ron prog m t w). apply (IHn n); lia.
      + cbn [TextModel.ser_text]. unfold G. rewrite (decls_none _ _ Ea). intros x Hx. destruct v; discriminate.
  Qed.

End TextProg.

(** *** Reading *)
Section ReadLib.
  Variable F : flt.
  Variable c : cfg.
  Context {S : Type}.
  Variable L : lexer S.
  Lemma ple_tr {A} (m1 m2 m3 : @pm S A) : ple m1 m2 -> ple m2 m3 -> ple m1 m3.
  Proof. intros H1 H2 s. destruct (H1 s) as [E|E]; [left; exact E|]. rewrite E. apply H2. Qed.
  Lemma ple_lib fm d1 d2 n t : (forall t, ple (d1 t) (d2 t)) -> ple (lib_read L F c fm d1 n t) (lib_read L F c fm d2 (Datatypes.S n) t).
  Proof.
    intro IH. destruct t as [k| | | | | |t|k t|k tk tv|m t|ts|t| | |p t|i]; try apply ple_refl; cbn [lib_read].
    - apply ple_opt, IH.
    - apply (ple_map VSeq), ple_seq, IH.
    - apply (ple_map VMap), ple_mapk, IH.
    - apply ple_map, ple_bracketed. induction m; cbn [repeat]; constructor; auto. apply ple_item, IH.
    - destruct (tuple_arity (length ts)); [|apply ple_refl]. apply ple_map, ple_bracketed, ple_maps. apply ple_comma_block, IH.
    - apply (IH t).
    - apply ple_dur.
    - unfold de_time. apply ple_bind1, ple_opt, ple_dur.
    - destruct fm; [|apply ple_refl]. apply ple_map, IH.
  Qed.
  Lemma ple_lib_up fm d1 d2 n m t : (forall t, ple (d1 t) (d2 t)) -> (n < m)%nat -> ple (lib_read L F c fm d1 n t) (lib_read L F c fm d2 m t).
  Proof.
    intros IH Hm. destruct m as [|m]; [lia|]. assert (Hn : (n <= m)%nat) by lia. clear Hm. eapply ple_tr; [|apply ple_lib, IH].
    induction Hn as [|m _ IHn]; [apply ple_refl|]. eapply ple_tr; [exact IHn|]. apply ple_lib. intro. apply ple_refl.
  Qed.
  Lemma ple_decl_up fm d1 d2 n m dc : (forall t, ple (d1 t) (d2 t)) -> (n < m)%nat -> ple (decl_body L fm d1 n dc) (decl_body L fm d2 m dc).
  Proof.
    intros IH Hm. destruct m as [|m]; [lia|]. assert (Hn : (n <= m)%nat) by lia. clear Hm. eapply ple_tr; [|apply ple_decl, IH].
    induction Hn as [|m _ IHn]; [apply ple_refl|]. eapply ple_tr; [exact IHn|]. apply ple_decl. intro. apply ple_refl.
  Qed.
End ReadLib.

Section Read.
  Variable F : flt.
  Variable c : cfg.
  Variable fm : fmt.
  Variable prog : list (item ty jprog tdprog).
  Notation G := (decls prog).
  Notation L := (text_lexer F fm).
  Notation RD := (prog_read F c fm prog).
  (** What C69 and C70 say about each definition. *)
  Hypothesis Hrun : forall i a, nth_error prog i = Some a -> forall D n,
    peq (run_tde fm (fun t => w_ty (it_world a) t None) (w_expr (it_world a)) (w_default (it_world a)) (it_conv a) (it_self a) (shape_of (it_def a)) L D n (it_de a))
        (decl_body L fm (via D fm) n (source_decl (it_world a) (it_def a))).
  Hypothesis Hdecl : forall i a, nth_error prog i = Some a -> forall n,
    TextModel.de_text L F c G fm (S n) (TNamed i) = decl_body L fm (TextModel.de_text L F c G fm n) n (source_decl (it_world a) (it_def a)).

  Lemma prog_read_ge n : forall m t, (2 * n <= m)%nat -> ple (TextModel.de_text L F c G fm n t) (RD m t).
  Proof.
    induction n as [n IHn] using lt_wf_ind. intros m t Hm. destruct n as [|n]; [apply ple_nofuel|]. destruct m as [|m]; [lia|].
    assert (Hab : forall t, ple (TextModel.de_text L F c G fm n t) (RD m t)) by (intros; apply IHn; lia).
    destruct (builtin t) eqn:Eb.
    - rewrite lib_read_model by exact Eb. replace (RD (S m) t) with (lib_read L F c fm (RD m) m t) by (destruct t; try discriminate; reflexivity).
      apply ple_lib_up; [exact Hab | lia].
    - destruct t as [| | | | | | | | | | | | | | |i]; try discriminate. cbn [prog_read]. destruct (nth_error prog i) as [a|] eqn:Ea.
      + rewrite (Hdecl _ _ Ea). intro s. rewrite (Hrun _ _ Ea). revert s. apply ple_decl_up; [|lia]. intro t.
        unfold via. destruct fm; try apply Hab. destruct t; try apply Hab. destruct n as [|n]; [apply ple_nofuel|].
        apply (ple_map (p_from p)). apply IHn; lia.
      + cbn [TextModel.de_text]. rewrite (decls_none _ _ Ea). apply ple_refl.
  Qed.
  Lemma prog_read_le m : forall n t, (2 * m <= n)%nat -> ple (RD m t) (TextModel.de_text L F c G fm n t).
  Proof.
    induction m as [|m IHm]; intros n t Hn; [apply ple_nofuel|]. destruct n as [|n]; [lia|]. destruct n as [|n]; [lia|].
    assert (Hab : forall t, ple (RD m t) (TextModel.de_text L F c G fm (S n) t)) by (intros; apply IHm; lia).
    destruct (builtin t) eqn:Eb.
    - rewrite lib_read_model by exact Eb. replace (RD (S m) t) with (lib_read L F c fm (RD m) m t) by (destruct t; try discriminate; reflexivity).
      apply ple_lib_up; [exact Hab | lia].
    - destruct t as [| | | | | | | | | | | | | | |i]; try discriminate. cbn [prog_read]. destruct (nth_error prog i) as [a|] eqn:Ea.
      + rewrite (Hdecl _ _ Ea). intro s. rewrite (Hrun _ _ Ea). revert s. apply ple_decl_up; [|lia]. intro t.
        unfold via. destruct fm; try apply Hab. destruct t; try apply Hab.
        apply (ple_map (p_from p)). apply IHm; lia.
      + cbn [TextModel.de_text]. rewrite (decls_none _ _ Ea). apply ple_refl.
  Qed.
End Read.
