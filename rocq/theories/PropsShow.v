(** C61: serialize_json writes the document that represents the value.
    C62: what a value written by one program is for another one. *)
From Verif Require Import Base Utf8 Types BinModel TyAll PropsBin Text TextModel TextFuel TextRun TextMain SpecText SpecGram SpecRfc TextEx PropsText PropsRfc Doc SpecDoc PropsDoc SpecShow Show ShowAll Carry.
Local Open Scope N_scope.

Lemma writes_one F c G fm t v x y : writes F c G fm t v x -> writes F c G fm t v y -> x = y.
Proof. intros [n A] [m B]. specialize (A (n + m)%nat ltac:(lia)). specialize (B (n + m)%nat ltac:(lia)). congruence. Qed.
Lemma shows_writes F c G n t v d : flt_ok F -> cfg_ok c -> shows F c G n t v d -> exists text, writes F c G Json t v text /\ denotes F d text.
Proof.
  intros HF Hc H. destruct (shows_written F c G HF Hc n t v d H) as (out & E & D). exists out. split; [|exact D].
  apply (ser_text_returns F c G Json n t v); [exact E | discriminate].
Qed.

(** C61: a value that is shown as the document [d] is written, and what is written is a text of [d]. *)
Theorem C61_written F c G n t v d : flt_ok F -> cfg_ok c -> shows F c G n t v d ->
  (exists text, writes F c G Json t v text) /\ forall text, writes F c G Json t v text -> document F d text.
Proof.
  intros HF Hc H. destruct (shows_writes F c G n t v d HF Hc H) as (out & W & D). split; [eauto|].
  intros text W'. rewrite (writes_one _ _ _ _ _ _ _ _ W' W). exists [], out, []. rewrite app_nil_r. split; [reflexivity|].
  split; [apply gap0|]. split; [apply gap0 | exact D].
Qed.
(** Every value with a round trip has such a document (types as in C20), and only one. *)
Theorem C61_values F c G t v : json_env G -> ty_all json_node t -> text_typed c G Json t v -> exists n d, shows F c G n t v d.
Proof. intros HG Ht [n Hv]. destruct (all_shown F c G HG n t v Hv Ht) as [d Hd]. exists n, d. exact Hd. Qed.
Theorem C61_one_document F c G n m t v d d' : shows F c G n t v d -> shows F c G m t v d' -> d = d'.
Proof. apply shows_one. Qed.

(** C62: program 2 reads what program 1 wrote as [v'] exactly if the document carries over to [v']. *)
Theorem C62_between_programs F c G c' G' n t v d text t' v' : flt_ok F -> cfg_ok c -> Forall distinct_names G' ->
  shows F c G n t v d -> writes F c G Json t v text ->
  (parses F c' G' Json t' text (Ok v') <-> carries F c G c' G' t v t' v').
Proof.
  intros HF Hc HG H W. pose proof (proj2 (C61_written F c G n t v d HF Hc H) text W) as D.
  rewrite (C60_json_document F c' G' t' d text v' HG D). split.
  - intros [m M]. exists n, m, d. auto.
  - intros (n1 & m & d1 & A & B). rewrite (shows_one F c G n1 n t v d1 d A H) in B. eauto.
Qed.
Theorem C62_carries F c G c' G' t v t' v' : flt_ok F -> cfg_ok c -> Forall distinct_names G' -> carries F c G c' G' t v t' v' ->
  exists text, writes F c G Json t v text /\ parses F c' G' Json t' text (Ok v').
Proof.
  intros HF Hc HG H. pose proof H as (n & m & d & A & B). destruct (shows_writes F c G n t v d HF Hc A) as (text & W & _).
  exists text. split; [exact W|]. apply (C62_between_programs F c G c' G' n t v d text t' v' HF Hc HG A W). exact H.
Qed.
(** The same program on both sides: every value with a round trip carries over to itself. *)
Theorem C62_same F c G t v : flt_ok F -> cfg_ok c -> Forall distinct_names G -> json_env G -> ty_all json_node t -> text_typed c G Json t v ->
  carries F c G c G t v t v.
Proof.
  intros HF Hc HD HG Ht Hv. destruct (C61_values F c G t v HG Ht Hv) as (n & d & Hd). destruct (C17_json_roundtrip F c G t v HF Hc Hv) as (text & W & P).
  apply (C62_between_programs F c G c G n t v d text t v HF Hc HD Hd W). exact P.
Qed.

(** ** Changes of a type *)
Section Changes.
  Variables (F : flt) (c : cfg) (G : env) (c' : cfg) (G' : env).
  Notation car := (carries F c G c' G').

  (** An integer of another width: any value both types have. *)
  Theorem C62_integer k k' z : k <> U128 -> k <> I128 -> k' <> U128 -> k' <> I128 -> int_ok c k z -> int_ok c' k' z ->
    car (TInt k) (VZ z) (TInt k') (VZ z).
  Proof.
    intros A B A' B' H H'. exists 1%nat, 1%nat, (JNum (dec_z z)). pose proof (dec_literal z) as L. split.
    - split; [exact A|]. split; [exact B|]. split; [exact H|]. exists (dec_z z). auto.
    - exists (dec_z z), z. split; [reflexivity|]. split; [reflexivity|]. split; [exact A'|]. split; [exact B'|]. split; [exact H'|].
      destruct L as (sg & d & -> & Hs & Hd & _ & Hv). exists sg, d. split; [split; [reflexivity|]; split; [destruct Hs as [-> |[-> _]]; auto | exact Hd]|].
      destruct (ik_signed k') eqn:Ek; [auto|]. split; [|auto]. destruct Hs as [-> |[-> Hn]]; [reflexivity|].
      destruct H' as [H' _]. unfold ik_min in H'. rewrite Ek in H'. lia.
  Qed.
  (** ... or as a float. *)
  Theorem C62_integer_float k z : k <> U128 -> k <> I128 -> int_ok c k z -> car (TInt k) (VZ z) TF64 (VF (f64_of_z F z)).
  Proof.
    intros A B H. exists 1%nat, 1%nat, (JNum (dec_z z)). pose proof (dec_literal z) as L. split.
    - split; [exact A|]. split; [exact B|]. split; [exact H|]. exists (dec_z z). auto.
    - exists (dec_z z), (f64_of_z F z). split; [reflexivity|]. split; [reflexivity|].
      destruct L as (sg & d & -> & Hs & Hd & _ & Hv). exists sg, d, [], []. rewrite !app_nil_r. split; [reflexivity|].
      split; [split; [destruct Hs as [-> |[-> _]]; auto|]; auto|]. split; [rewrite Hv; auto | intros [X|X]; congruence].
  Qed.
  (** [T] becomes [Option<T'>] (unless written as null). *)
  Theorem C62_to_option t v t' v' : carries_full F c G c' G' t v t' v' -> car t v (TOpt t') (VSome v').
  Proof. intros (n & m & d & Hn & A & B). exists n, (S m), d. split; [exact A|]. right. split; [exact Hn|]. exists v'. auto. Qed.
  (** [Option<T>] becomes [T']: every [Some]. *)
  Theorem C62_from_option t v t' v' : car t v t' v' -> car (TOpt t) (VSome v) t' v'.
  Proof. intros (n & m & d & A & B). exists (S n), m, d. auto. Qed.
  Theorem C62_none t t' : car (TOpt t) VNone (TOpt t') VNone.
  Proof. exists 1%nat, 1%nat, JNull. split; [reflexivity | left; auto]. Qed.
  (** Sequences: Vec, LinkedList, sets (which drop duplicates) and arrays. *)
  Theorem C62_sequence k k' t t' l l' : Forall2 (fun v v' => car t v t' v') l l' ->
    car (TSeq k t) (VSeq l) (TSeq k' t') (VSeq (seq_of k' l' [])).
  Proof. intro H. destruct (list_carry _ _ _ _ _ _ _ _ _ H) as (n & m & ds & A & B). exists (S n), (S m), (JArr ds). split; [exists ds; auto | exists ds, l'; auto]. Qed.
  Theorem C62_to_array k t t' l l' : Forall2 (fun v v' => car t v t' v') l l' ->
    car (TSeq k t) (VSeq l) (TArr (length l) t') (VSeq l').
  Proof.
    intro H. destruct (list_carry _ _ _ _ _ _ _ _ _ H) as (n & m & ds & A & B). exists (S n), (S m), (JArr ds). split; [exists ds; auto|].
    exists ds, l'. split; [reflexivity|]. split; [|auto]. clear - A. induction A; cbn; auto.
  Qed.
  Theorem C62_from_array k t t' l l' : l <> [] -> Forall2 (fun v v' => car t v t' v') l l' ->
    car (TArr (length l) t) (VSeq l) (TSeq k t') (VSeq (seq_of k l' [])).
  Proof.
    intros Hl H. destruct (list_carry _ _ _ _ _ _ _ _ _ H) as (n & m & ds & A & B). exists (S n), (S m), (JArr ds). split; [|exists ds, l'; auto].
    split; [reflexivity|]. split; [destruct l; [congruence | discriminate]|]. exists ds. auto.
  Qed.
  Theorem C62_tuple ts l ts' l' : (2 <= length ts <= 4)%nat -> (2 <= length ts' <= 4)%nat -> tuple_carries F c G c' G' ts l ts' l' ->
    car (TTup ts) (VSeq l) (TTup ts') (VSeq l').
  Proof.
    intros H1 H2 H. destruct (tuple_carry _ _ _ _ _ _ _ _ _ H) as (n & m & ds & A & B). exists (S n), (S m), (JArr ds).
    split; (split; [assumption|]); [exists ds; auto | exists ds, l'; auto].
  Qed.
  (** Maps with string keys. *)
  Theorem C62_map k k' tv tv' l l' :
    Forall2 (fun e e' => (exists s, fst e = VStr s /\ fst e' = VStr s) /\ car tv (snd e) tv' (snd e')) l l' ->
    car (TMap k TStr tv) (VMap l) (TMap k' TStr tv') (VMap (map_of k' l' [])).
  Proof. intro H. destruct (map_carry _ _ _ _ _ _ _ _ _ H) as (n & m & ms & A & B). exists (S n), (S m), (JObj ms). split; [exists ms; auto | exists ms, l'; auto]. Qed.
  (** [Box], and transparent newtypes. *)
  Theorem C62_box t v t' v' : car t v t' v' -> car (TBox t) v (TBox t') v' /\ car (TBox t) v t' v' /\ car t v (TBox t') v'.
  Proof.
    intros (n & m & d & A & B). assert (A' : shows F c G (S n) (TBox t) v d) by (cbn [shows]; destruct v; exact A).
    split; [exists (S n), (S m), d; auto|]. split; [exists (S n), m, d; auto | exists n, (S m), d; auto].
  Qed.
  Theorem C62_newtype i f t' v v' : nth_error G i = Some (DTuple true [f]) -> f_hasproxy f = false ->
    car (f_ty f) v t' v' -> car (TNamed i) (VSeq [v]) t' v'.
  Proof.
    intros Hi Hp (n & m & d & A & B). exists (S n), m, d. split; [|exact B]. cbn [shows]. rewrite Hi. split; [cbn; rewrite Hp; reflexivity|]. exists v. auto.
  Qed.
  Theorem C62_to_newtype j f t v v' : nth_error G' j = Some (DTuple true [f]) -> f_hasproxy f = false ->
    car t v (f_ty f) v' -> car t v (TNamed j) (VSeq [v']).
  Proof.
    intros Hi Hp (n & m & d & A & B). exists n, (S m), d. split; [exact A|]. cbn [means]. rewrite Hi. split; [cbn; rewrite Hp; reflexivity|]. exists v'. auto.
  Qed.
  (** A struct whose fields were added (with a default), removed, reordered, renamed in Rust
      or changed in type: every field of the new struct gets the value of the old field
      of that name, or its default. *)
  Theorem C62_struct i j dflt cn fs dflt' cn' fs' n l d l' :
    nth_error G i = Some (DStruct dflt cn fs) -> nth_error G' j = Some (DStruct dflt' cn' fs') ->
    distinct_fields fs -> fs' <> [] -> shows F c G n (TNamed i) (VSeq l) d ->
    Forall2 (field_moved F c G c' G' f_skip (none_as_null Json cn) key_of_field fs l dflt') fs' l' ->
    car (TNamed i) (VSeq l) (TNamed j) (VSeq l').
  Proof.
    intros Hi Hj Hd Hne Hs Hm. destruct n as [|n]; [contradiction|]. cbn [shows] in Hs. pose proof Hs as Hs0. rewrite Hi in Hs. destruct Hs as (ms & -> & Hs).
    destruct (fields_carry F c G c' G' n _ _ _ fs l ms dflt' fs' l' Hs Hd Hne Hm) as [m M].
    exists (S n), (S m), (JObj ms). split; [exact Hs0|]. cbn [means]. rewrite Hj. exists ms, l'. auto.
  Qed.
  (** Enums whose variants were reordered, added or removed: by name. *)
  Theorem C62_unit_variant i j vs vs' tag tag' vr vr' :
    nth_error G i = Some (DEnum vs) -> nth_error G' j = Some (DEnum vs') ->
    nth_error vs (N.to_nat tag) = Some vr -> nth_error vs' (N.to_nat tag') = Some vr' ->
    json_name (key_of_variant Json vr) -> key_of_variant Json vr = key_of_variant Json vr' ->
    v_body vr = BUnit -> v_body vr' = BUnit -> car (TNamed i) (VEnum tag []) (TNamed j) (VEnum tag' []).
  Proof.
    intros Hi Hj Hv Hv' Hn Hk Hb Hb'. exists 1%nat, 1%nat, (JStr (key_of_variant Json vr)). cbn [shows means]. rewrite Hi, Hj, Hv, Hb. split; [auto|].
    exists (N.to_nat tag'), vr'. split; [exact Hv'|]. rewrite Hb', N2Nat.id, Hk. auto.
  Qed.
  Theorem C62_tuple_variant i j vs vs' tag tag' vr vr' ts ts' l l' :
    nth_error G i = Some (DEnum vs) -> nth_error G' j = Some (DEnum vs') ->
    nth_error vs (N.to_nat tag) = Some vr -> nth_error vs' (N.to_nat tag') = Some vr' ->
    json_name (key_of_variant Json vr) -> key_of_variant Json vr = key_of_variant Json vr' ->
    v_body vr = BTuple ts -> v_body vr' = BTuple ts' -> ts <> [] -> tuple_carries F c G c' G' ts l ts' l' ->
    car (TNamed i) (VEnum tag l) (TNamed j) (VEnum tag' l').
  Proof.
    intros Hi Hj Hv Hv' Hn Hk Hb Hb' Hne H. destruct (tuple_carry _ _ _ _ _ _ _ _ _ H) as (n & m & ds & A & B).
    exists (S n), (S m), (JObj [(key_of_variant Json vr, JArr ds)]). cbn [shows means]. rewrite Hi, Hj, Hv, Hb. split; [split; [exact Hn|]; split; [exact Hne|]; exists ds; auto|].
    exists (N.to_nat tag'), vr'. split; [exact Hv'|]. rewrite Hb', N2Nat.id, Hk. exists ds, l'. auto.
  Qed.
  Theorem C62_struct_variant i j vs vs' tag tag' vr vr' fs fs' n l d l' :
    nth_error G i = Some (DEnum vs) -> nth_error G' j = Some (DEnum vs') ->
    nth_error vs (N.to_nat tag) = Some vr -> nth_error vs' (N.to_nat tag') = Some vr' ->
    key_of_variant Json vr = key_of_variant Json vr' ->
    v_body vr = BStruct fs -> v_body vr' = BStruct fs' -> NoDup (map f_name fs) -> fs' <> [] ->
    shows F c G n (TNamed i) (VEnum tag l) d ->
    Forall2 (field_moved F c G c' G' (fun _ => false) (fun _ => false) f_name fs l false) fs' l' ->
    car (TNamed i) (VEnum tag l) (TNamed j) (VEnum tag' l').
  Proof.
    intros Hi Hj Hv Hv' Hk Hb Hb' Hd Hne Hs Hm. destruct n as [|n]; [contradiction|]. cbn [shows] in Hs. pose proof Hs as Hs0. rewrite Hi, Hv in Hs.
    rewrite Hb in Hs. destruct Hs as (_ & ms & -> & Hs & _).
    assert (Hd' : NoDup (map f_name (filter (fun f => negb ((fun _ => false) f)) fs))).
    { cbn [negb]. assert (filter (fun _ : field => true) fs = fs) as -> by (clear; induction fs as [|f fs IH]; cbn; congruence). exact Hd. }
    destruct (fields_carry F c G c' G' n _ _ _ fs l ms false fs' l' Hs Hd' Hne Hm) as [m M].
    exists (S n), (S m), (JObj [(key_of_variant Json vr, JObj ms)]). split; [exact Hs0|]. cbn [means]. rewrite Hj.
    exists (N.to_nat tag'), vr'. split; [exact Hv'|]. rewrite Hb', N2Nat.id, Hk. exists ms, l'. auto.
  Qed.
End Changes.

(** *** Examples *)
Example C61_ex : exists n d, shows toy c64 Gj n (TNamed 1) vj d.
Proof. apply C61_values; [apply Gj_json | cbn; auto | exists 6%nat; apply vj_typed]. Qed.
(** Old: [enum Kind { A, B(u8) }], [struct User { id: u32, name: String ("Name"), tags: Vec<String>, old: bool, kind: Kind, nick: String }]
    New: [enum Kind { B(i64), C, A }], [struct User { email: Option<String>, user_name: String ("Name"), level: u8 (default 3), id: u64,
    tags: BTreeSet<String>, kind: Option<Kind>, nick: Option<String> }] *)
Definition G1 : env :=
  [ DEnum [ {| v_name := chars "A"; v_rename := None; v_body := BUnit |}; {| v_name := chars "B"; v_rename := None; v_body := BTuple [TInt U8] |} ];
    DStruct false false
      [ fld (chars "id") false (VZ 0) (TInt U32); renamed (chars "Name") (fld (chars "name") false (VStr []) TStr);
        fld (chars "tags") false (VSeq []) (TSeq SVec TStr); fld (chars "old") false (VBool false) TBool;
        fld (chars "kind") false VUnit (TNamed 0); fld (chars "nick") false (VStr []) TStr ] ].
Definition G2 : env :=
  [ DStruct false false
      [ opt_field (chars "email") TStr; renamed (chars "Name") (fld (chars "user_name") false (VStr []) TStr);
        defaulted (VZ 3) (fld (chars "level") false (VZ 0) (TInt U8)); fld (chars "id") false (VZ 0) (TInt U64);
        fld (chars "tags") false (VSeq []) (TSeq SBSet TStr); opt_field (chars "kind") (TNamed 1); opt_field (chars "nick") TStr ];
    DEnum [ {| v_name := chars "B"; v_rename := None; v_body := BTuple [TInt I64] |}; {| v_name := chars "C"; v_rename := None; v_body := BUnit |};
            {| v_name := chars "A"; v_rename := None; v_body := BUnit |} ] ].
Definition v1 : val := VSeq [VZ 7; VStr (chars "Ann"); VSeq [VStr (chars "y"); VStr (chars "x"); VStr (chars "y")]; VBool true; VEnum 1 [VZ 200]; VStr (chars "an")].
Definition v2 : val := VSeq [VNone; VStr (chars "Ann"); VZ 3; VZ 7; VSeq [VStr (chars "x"); VStr (chars "y")]; VSome (VEnum 0 [VZ 200]); VSome (VStr (chars "an"))].
Definition d1 : doc := JObj [(chars "id", JNum (chars "7")); (chars "Name", JStr (chars "Ann"));
  (chars "tags", JArr [JStr (chars "y"); JStr (chars "x"); JStr (chars "y")]); (chars "old", JBool true);
  (chars "kind", JObj [(chars "B", JArr [JNum (chars "200")])]); (chars "nick", JStr (chars "an"))].
Lemma num_doc z s : dec_z z = s -> number_doc z (JNum s).
Proof. intros <-. exists (dec_z z). split; [apply dec_literal | reflexivity]. Qed.
Lemma sh_struct F c G n i dflt cn fs l ms : nth_error G i = Some (DStruct dflt cn fs) ->
  members_shown (shows F c G n) f_skip (none_as_null Json cn) key_of_field fs l ms -> shows F c G (S n) (TNamed i) (VSeq l) (JObj ms).
Proof. intros H X. cbn [shows]. rewrite H. eauto. Qed.
Lemma sh_tvariant F c G n i vs tag vr ts l ds : nth_error G i = Some (DEnum vs) -> nth_error vs (N.to_nat tag) = Some vr -> v_body vr = BTuple ts ->
  json_name (key_of_variant Json vr) -> ts <> [] -> tuple_shown (shows F c G n) ts l ds ->
  shows F c G (S n) (TNamed i) (VEnum tag l) (JObj [(key_of_variant Json vr, JArr ds)]).
Proof. intros H1 H2 H3 H4 H5 H6. cbn [shows]. rewrite H1, H2, H3. eauto. Qed.
Lemma sh_int F c G n k z s : k <> U128 -> k <> I128 -> int_ok c k z -> dec_z z = s -> shows F c G (S n) (TInt k) (VZ z) (JNum s).
Proof. intros H1 H2 H3 H4. cbn [shows]. split; [exact H1|]. split; [exact H2|]. split; [exact H3|]. apply num_doc. exact H4. Qed.
Lemma sh_str F c G n s : shows F c G (S n) TStr (VStr s) (JStr s). Proof. reflexivity. Qed.
Lemma sh_bool F c G n b : shows F c G (S n) TBool (VBool b) (JBool b). Proof. reflexivity. Qed.
Lemma sh_seq F c G n k t l ds : Forall2 (shows F c G n t) l ds -> shows F c G (S n) (TSeq k t) (VSeq l) (JArr ds).
Proof. intro H. exists ds. auto. Qed.
Lemma sh_plain (sh : ty -> val -> doc -> Prop) null f v d : f_isopt f = false -> sh (f_ty f) v d -> field_shown sh null f v d.
Proof. intros H X. unfold field_shown. rewrite H. exact X. Qed.
Ltac name_tac := repeat constructor; cbv; discriminate.
Ltac range_tac := split; cbv; congruence.
Ltac member_tac f := apply (msh_member _ f_skip (none_as_null Json false) key_of_field f); [reflexivity | name_tac | apply sh_plain; [reflexivity|] |].
Lemma v1_shown : shows toy c64 G1 4 (TNamed 1) v1 d1.
Proof.
  apply (sh_struct toy c64 G1 3 1 _ _ _ _ _ eq_refl).
  member_tac (fld (chars "id") false (VZ 0) (TInt U32)).
  { apply sh_int; [discriminate | discriminate | range_tac | reflexivity]. }
  member_tac (renamed (chars "Name") (fld (chars "name") false (VStr []) TStr)). { apply sh_str. }
  member_tac (fld (chars "tags") false (VSeq []) (TSeq SVec TStr)).
  { apply sh_seq. repeat apply Forall2_cons; try apply Forall2_nil; apply sh_str. }
  member_tac (fld (chars "old") false (VBool false) TBool). { apply sh_bool. }
  member_tac (fld (chars "kind") false VUnit (TNamed 0)).
  { apply (sh_tvariant toy c64 G1 2 0 _ 1 {| v_name := chars "B"; v_rename := None; v_body := BTuple [TInt U8] |} [TInt U8] [VZ 200] [JNum (chars "200")] eq_refl eq_refl eq_refl); [name_tac | discriminate |].
    constructor; [|constructor]. apply sh_int; [discriminate | discriminate | range_tac | reflexivity]. }
  member_tac (fld (chars "nick") false (VStr []) TStr); [apply sh_str | constructor].
Qed.
Lemma field_car F c G c' G' null f v f' v' : f_isopt f = false -> f_isopt f' && f_hasproxy f' = false -> carries F c G c' G' (f_ty f) v (f_ty f') v' ->
  field_carries F c G c' G' null f v f' v'.
Proof. intros A B (n & m & d & X & Y). exists n, m, d. unfold field_shown, field_means. rewrite A, B. auto. Qed.
Lemma str_car F c G c' G' s : carries_full F c G c' G' TStr (VStr s) TStr (VStr s).
Proof. exists 1%nat, 1%nat, (JStr s). split; [discriminate|]. split; [reflexivity | exists s; auto]. Qed.
Lemma full_car F c G c' G' t v t' v' : carries_full F c G c' G' t v t' v' -> carries F c G c' G' t v t' v'.
Proof. intros (n & m & d & _ & A & B). exists n, m, d. auto. Qed.
Lemma kind_car : carries_full toy c64 G1 c32 G2 (TNamed 0) (VEnum 1 [VZ 200]) (TNamed 1) (VEnum 0 [VZ 200]).
Proof.
  assert (C : carries toy c64 G1 c32 G2 (TNamed 0) (VEnum 1 [VZ 200]) (TNamed 1) (VEnum 0 [VZ 200])).
  { eapply (C62_tuple_variant toy c64 G1 c32 G2 0 1 _ _ 1 0 _ _ [TInt U8] [TInt I64]); try reflexivity; [name_tac | discriminate |].
    constructor; [|constructor]. apply C62_integer; try discriminate; range_tac. }
  destruct C as (n & m & d & A & B). exists n, m, d. split; [|auto]. intros ->. destruct n; [contradiction|].
  cbn in A. destruct A as (_ & _ & ds & A & _). discriminate.
Qed.
Example C62_ex : carries toy c64 G1 c32 G2 (TNamed 1) v1 (TNamed 0) v2 /\
  exists text, writes toy c64 G1 Json (TNamed 1) v1 text /\ parses toy c32 G2 Json (TNamed 0) text (Ok v2).
Proof.
  assert (C : carries toy c64 G1 c32 G2 (TNamed 1) v1 (TNamed 0) v2).
  { eapply (C62_struct toy c64 G1 c32 G2 1 0); [reflexivity | reflexivity | repeat constructor; cbn; intuition discriminate | discriminate | apply v1_shown |].
    assert (N : forall (f : field) (v : val) fs l, In (f, v) (combine fs l) -> In f fs) by (intros f v fs l H; apply in_combine_l in H; exact H).
    constructor; [right; split; [reflexivity|]; intros f v H; apply N in H; cbn in H; intuition (subst; discriminate)|].
    constructor.
    { left. eexists _, _. split; [right; left; reflexivity|]. split; [reflexivity|]. split; [reflexivity|]. apply field_car; [reflexivity | reflexivity | apply full_car, str_car]. }
    constructor; [right; split; [reflexivity|]; intros f v H; apply N in H; cbn in H; intuition (subst; discriminate)|].
    constructor.
    { left. eexists _, _. split; [left; reflexivity|]. split; [reflexivity|]. split; [reflexivity|]. apply field_car; [reflexivity | reflexivity|].
      apply C62_integer; try discriminate; range_tac. }
    constructor.
    { left. eexists _, _. split; [right; right; left; reflexivity|]. split; [reflexivity|]. split; [reflexivity|]. apply field_car; [reflexivity | reflexivity|].
      apply (C62_sequence toy c64 G1 c32 G2 SVec SBSet TStr TStr _ [VStr (chars "y"); VStr (chars "x"); VStr (chars "y")]).
      repeat apply Forall2_cons; try apply Forall2_nil; apply full_car, str_car. }
    constructor.
    { left. eexists _, _. split; [do 4 right; left; reflexivity|]. split; [reflexivity|]. split; [reflexivity|]. apply field_car; [reflexivity | reflexivity|].
      apply C62_to_option, kind_car. }
    constructor; [|constructor].
    { left. eexists _, _. split; [do 5 right; left; reflexivity|]. split; [reflexivity|]. split; [reflexivity|]. apply field_car; [reflexivity | reflexivity|].
      apply C62_to_option, str_car. } }
  split; [exact C|]. apply C62_carries; [apply toy_ok | right; reflexivity | repeat constructor; cbn; intuition discriminate | exact C].
Qed.
