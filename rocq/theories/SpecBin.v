(** Independent specification of the binary wire format (property C04), as a
    relation between values and byte strings.  It mentions no function of
    BinModel.v. *)
From Verif Require Import Base Utf8 Types.
Local Open Scope N_scope.

(** [bs] is the [w]-byte little-endian two's complement form of [z]: byte [i]
    carries the bits [8i .. 8i+7]. *)
Definition is_le (w : nat) (z : Z) (bs : list N) : Prop :=
  length bs = w /\
  forall i, (i < w)%nat -> Z.of_N (nth i bs 0) = ((z / 256 ^ Z.of_nat i) mod 256)%Z.

(** A length or usize is 8 bytes on every platform. *)
Definition is_len (n : nat) (bs : list N) : Prop := is_le 8 (Z.of_nat n) bs.

Inductive wire (G : env) : ty -> val -> list N -> Prop :=
| w_int k z bs : is_le (ik_bytes k) z bs -> wire G (TInt k) (VZ z) bs
| w_f32 b bs : is_le 4 (Z.of_N b) bs -> wire G TF32 (VF b) bs
| w_f64 b bs : is_le 8 (Z.of_N b) bs -> wire G TF64 (VF b) bs
| w_false : wire G TBool (VBool false) [0]
| w_true : wire G TBool (VBool true) [1]
| w_str s lb : is_len (length (utf8_enc s)) lb -> wire G TStr (VStr s) (lb ++ utf8_enc s)
| w_unit : wire G TUnit VUnit []
| w_none t : wire G (TOpt t) VNone [0]
| w_some t v bs : wire G t v bs -> wire G (TOpt t) (VSome v) (1 :: bs)
| w_seq k t l lb bs :
    is_len (length l) lb -> wire_items G t l bs -> wire G (TSeq k t) (VSeq l) (lb ++ bs)
| w_map k tk tv l lb bs :
    is_len (length l) lb -> wire_entries G tk tv l bs -> wire G (TMap k tk tv) (VMap l) (lb ++ bs)
| w_arr n t l bs : wire_items G t l bs -> wire G (TArr n t) (VSeq l) bs
| w_tup ts l bs : wire_parts G ts l bs -> wire G (TTup ts) (VSeq l) bs
| w_box t v bs : wire G t v bs -> wire G (TBox t) v bs
| w_dur s ns sb nb :
    is_le 8 (Z.of_N s) sb -> is_le 4 (Z.of_N ns) nb -> wire G TDur (VDur s ns) (sb ++ nb)
| w_time s ns sb nb : (0 <= s)%Z ->
    is_le 8 s sb -> is_le 4 (Z.of_N ns) nb -> wire G TTime (VTime s ns) (1 :: sb ++ nb)
| w_time_before s ns : (s < 0)%Z -> wire G TTime (VTime s ns) [0]
| w_proxy p t v bs : wire G t (p_to p v) bs -> wire G (TProxy p t) v bs
| w_struct i d nl fs l bs : nth_error G i = Some (DStruct d nl fs) ->
    wire_fields G fs l bs -> wire G (TNamed i) (VSeq l) bs
| w_tstruct i tr fs l bs : nth_error G i = Some (DTuple tr fs) ->
    wire_fields G fs l bs -> wire G (TNamed i) (VSeq l) bs
| w_dproxy i p t v bs : nth_error G i = Some (DProxy p t) ->
    wire G t (p_to p v) bs -> wire G (TNamed i) v bs
| w_unitvar i vs tag vr tb : nth_error G i = Some (DEnum vs) ->
    nth_error vs (N.to_nat tag) = Some vr -> v_body vr = BUnit ->
    is_le 2 (Z.of_N tag) tb -> wire G (TNamed i) (VEnum tag []) tb
| w_tupvar i vs tag vr ts l tb bs : nth_error G i = Some (DEnum vs) ->
    nth_error vs (N.to_nat tag) = Some vr -> v_body vr = BTuple ts ->
    is_le 2 (Z.of_N tag) tb -> wire_parts G ts l bs -> wire G (TNamed i) (VEnum tag l) (tb ++ bs)
| w_structvar i vs tag vr fs l tb bs : nth_error G i = Some (DEnum vs) ->
    nth_error vs (N.to_nat tag) = Some vr -> v_body vr = BStruct fs ->
    is_le 2 (Z.of_N tag) tb -> wire_parts G (map f_ty fs) l bs ->
    wire G (TNamed i) (VEnum tag l) (tb ++ bs)
(** consecutive items of one type *)
with wire_items (G : env) : ty -> list val -> list N -> Prop :=
| wi_nil t : wire_items G t [] []
| wi_cons t v l b1 b2 : wire G t v b1 -> wire_items G t l b2 -> wire_items G t (v :: l) (b1 ++ b2)
(** consecutive map entries: key then value *)
with wire_entries (G : env) : ty -> ty -> list (val * val) -> list N -> Prop :=
| we_nil tk tv : wire_entries G tk tv [] []
| we_cons tk tv k v l b1 b2 b3 :
    wire G tk k b1 -> wire G tv v b2 -> wire_entries G tk tv l b3 ->
    wire_entries G tk tv ((k, v) :: l) (b1 ++ b2 ++ b3)
(** parts of different types *)
with wire_parts (G : env) : list ty -> list val -> list N -> Prop :=
| wp_nil : wire_parts G [] [] []
| wp_cons t ts v l b1 b2 :
    wire G t v b1 -> wire_parts G ts l b2 -> wire_parts G (t :: ts) (v :: l) (b1 ++ b2)
(** struct fields: skipped ones leave no trace *)
with wire_fields (G : env) : list field -> list val -> list N -> Prop :=
| wf_nil : wire_fields G [] [] []
| wf_skip f fs v l bs : f_skip f = true -> wire_fields G fs l bs -> wire_fields G (f :: fs) (v :: l) bs
| wf_cons f fs v l b1 b2 : f_skip f = false ->
    wire G (f_ty f) v b1 -> wire_fields G fs l b2 -> wire_fields G (f :: fs) (v :: l) (b1 ++ b2).

Scheme wire_mind := Minimality for wire Sort Prop
  with wire_items_mind := Minimality for wire_items Sort Prop
  with wire_entries_mind := Minimality for wire_entries Sort Prop
  with wire_parts_mind := Minimality for wire_parts Sort Prop
  with wire_fields_mind := Minimality for wire_fields Sort Prop.
Combined Scheme wire_mutind from wire_mind, wire_items_mind, wire_entries_mind, wire_parts_mind, wire_fields_mind.

Lemma is_le_fun w z b1 b2 : is_le w z b1 -> is_le w z b2 -> b1 = b2.
Proof.
  intros [L1 H1] [L2 H2]. apply nth_ext with (d := 0) (d' := 0); [congruence|].
  intros i Hi. apply N2Z.inj. rewrite H1, H2 by lia. reflexivity.
Qed.

Ltac inv H := inversion H; subst; clear H.

(** The layout determines the bytes. *)
Lemma wire_functional G :
  (forall t v b1, wire G t v b1 -> forall b2, wire G t v b2 -> b1 = b2) /\
  (forall t l b1, wire_items G t l b1 -> forall b2, wire_items G t l b2 -> b1 = b2) /\
  (forall tk tv l b1, wire_entries G tk tv l b1 -> forall b2, wire_entries G tk tv l b2 -> b1 = b2) /\
  (forall ts l b1, wire_parts G ts l b1 -> forall b2, wire_parts G ts l b2 -> b1 = b2) /\
  (forall fs l b1, wire_fields G fs l b1 -> forall b2, wire_fields G fs l b2 -> b1 = b2).
Proof.
  unfold is_len.
  apply wire_mutind; intros;
    match goal with
    | H : wire G _ _ ?x |- _ = ?x => inversion H; subst; clear H
    | H : wire_items G _ _ ?x |- _ = ?x => inversion H; subst; clear H
    | H : wire_entries G _ _ _ ?x |- _ = ?x => inversion H; subst; clear H
    | H : wire_parts G _ _ ?x |- _ = ?x => inversion H; subst; clear H
    | H : wire_fields G _ _ ?x |- _ = ?x => inversion H; subst; clear H
    end;
    unfold is_len in *; try congruence; try lia; auto;
    repeat match goal with
    | H1 : ?a = Some (DEnum _), H2 : ?a = Some _ |- _ =>
      rewrite H1 in H2; first [discriminate H2 | injection H2 as ->; clear H1]
    | H1 : ?a = Some (DStruct _ _ _), H2 : ?a = Some _ |- _ =>
      rewrite H1 in H2; first [discriminate H2 | injection H2 as -> -> ->; clear H1]
    | H1 : ?a = Some (DTuple _ _), H2 : ?a = Some _ |- _ =>
      rewrite H1 in H2; first [discriminate H2 | injection H2 as -> ->; clear H1]
    | H1 : ?a = Some (DProxy _ _), H2 : ?a = Some _ |- _ =>
      rewrite H1 in H2; first [discriminate H2 | injection H2 as -> ->; clear H1]
    | H1 : nth_error ?vs ?n = Some ?x, H2 : nth_error ?vs ?n = Some ?y |- _ =>
      rewrite H1 in H2; injection H2 as ->; clear H1
    | H1 : v_body ?x = _, H2 : v_body ?x = _ |- _ =>
      rewrite H1 in H2; first [discriminate H2 | injection H2 as ->; clear H1]
    | H1 : is_le ?w ?z _, H2 : is_le ?w ?z _ |- _ =>
      pose proof (is_le_fun _ _ _ _ H1 H2); subst; clear H1
    end; auto;
    repeat match goal with
    | IH : forall b2, _ -> ?b = b2 |- _ => erewrite IH by eassumption; clear IH
    end; auto; try congruence.
Qed.
