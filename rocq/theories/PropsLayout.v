(** C85: types with the same binary layout are interchangeable. *)
From Verif Require Import Base Utf8 Types BinModel BinRead BinFuel SpecBin BinRoundtrip PropsBin SpecBinAcc BinAcc PropsBinAcc SpecLayout Layout.
Local Open Scope N_scope.

Lemma layout_spells c G1 G2 t t' v bs : same_layout c G1 G2 t t' -> spells c G1 t v bs ->
  exists v', same G1 G2 t v t' v' /\ (spells c G2 t' v' bs \/ no_room c G2 t' bs).
Proof.
  intros (R & Hr & HR) H. destruct (all_move c G1 G2 R HR (S (length bs)) t t' bs ltac:(lia) Hr v H) as (v' & Hs & Hm).
  exists v'. split; [exact Hm|]. apply (proj1 (real c G2)) in Hs. exact Hs.
Qed.

(** Whatever bytes are read as a [t], at any offset of any input, are read as any type
    with the same layout too: the same number of bytes is used and the content is the
    same -- unless a collection of that type asks for more room than there is. *)
Theorem C85_reads c G1 G2 t t' pre rest o' v :
  cfg_ok c -> bytes_ok (pre ++ rest) -> slice_fits c (lenN (pre ++ rest)) -> same_layout c G1 G2 t t' ->
  decodes_at c G1 t (pre ++ rest) (lenN pre) o' (Ok v) ->
  exists v', same G1 G2 t v t' v' /\
    (decodes_at c G2 t' (pre ++ rest) (lenN pre) o' (Ok v') \/
     exists o'', decodes_at c G2 t' (pre ++ rest) (lenN pre) o'' (Panic PCapacity)).
Proof.
  intros Hc Hb Hf Hl H. apply (C77_accepts c G1 t pre rest o' v Hc Hb Hf) in H as (bs & post & -> & -> & Hs).
  destruct (layout_spells _ _ _ _ _ _ _ Hl Hs) as (v' & Hm & [H|H]); exists v'; (split; [exact Hm|]).
  - left. apply C77_accepts; auto. exists bs, post. auto.
  - right. destruct (H (lenN pre) post) as [o'' Ho]. exists o''. apply C77_panics; auto.
Qed.

(** In particular what is written as one type is read back as the other. *)
Theorem C85_written c G1 G2 t t' v bs pre post :
  cfg_ok c -> bytes_ok (pre ++ bs ++ post) -> slice_fits c (lenN (pre ++ bs ++ post)) -> same_layout c G1 G2 t t' ->
  has_type c G1 t v -> encodes G1 t v bs ->
  exists v', same G1 G2 t v t' v' /\
    (decodes_at c G2 t' (pre ++ bs ++ post) (lenN pre) (lenN pre + lenN bs) (Ok v') \/
     exists o'', decodes_at c G2 t' (pre ++ bs ++ post) (lenN pre) o'' (Panic PCapacity)).
Proof.
  intros Hc Hb Hf Hl Ht He. apply (C85_reads c G1 G2 t t' pre (bs ++ post) (lenN pre + lenN bs) v Hc Hb Hf Hl).
  apply C77_accepts; auto. exists bs, post. repeat split. apply C77_encodings; auto.
  - unfold bytes_ok in *. apply Forall_app in Hb as [_ Hb]. apply Forall_app in Hb as [Hb _]. exact Hb.
  - unfold slice_fits in *. rewrite !lenN_app in Hf. lia.
Qed.

(** Conversely: an input that is an error for the one type is no value of the other. *)
Theorem C85_rejects c G1 G2 t t' pre rest o' e :
  cfg_ok c -> bytes_ok (pre ++ rest) -> slice_fits c (lenN (pre ++ rest)) -> same_layout c G1 G2 t t' ->
  decodes_at c G2 t' (pre ++ rest) (lenN pre) o' (Err e) ->
  forall o v, ~ decodes_at c G1 t (pre ++ rest) (lenN pre) o (Ok v).
Proof.
  intros Hc Hb Hf Hl He o v H. destruct (C85_reads _ _ _ _ _ _ _ _ _ Hc Hb Hf Hl H) as (v' & _ & [X|[o'' X]]);
    assert (E := returns_inj _ _ _ He X); discriminate E.
Qed.

(** Ways to find types with the same layout: leave out a Box or a struct of one field,
    exchange one kind of collection for another, go into options and collections. *)
Lemma Forall2_weaken {A B} (P Q : A -> B -> Prop) : (forall x y, P x y -> Q x y) -> forall l l', Forall2 P l l' -> Forall2 Q l l'.
Proof. intros H l l' F. induction F; constructor; auto. Qed.
Lemma agree_mono c G1 G2 (R S : ty -> ty -> Prop) : (forall a b, R a b -> S a b) -> forall a b, agree c G1 G2 R a b -> agree c G1 G2 S a b.
Proof.
  intros H a b Ha. inversion Ha; subst; clear Ha; try (econstructor; eauto; fail).
  eapply a_enum; try eassumption. eapply Forall2_weaken; [|eassumption]. cbn beta. intros x y. apply H.
Qed.
Lemma layout_extend c G1 G2 (R : ty -> ty -> Prop) a b ts ts' :
  (forall a b, R a b -> exists ts ts', flat G1 a ts /\ flat G2 b ts' /\ Forall2 (agree c G1 G2 R) ts ts') ->
  flat G1 a ts -> flat G2 b ts' -> Forall2 (agree c G1 G2 R) ts ts' -> same_layout c G1 G2 a b.
Proof.
  intros HR Fa Fb Ha. exists (fun x y => R x y \/ x = a /\ y = b). split; [auto|].
  assert (M : forall l l', Forall2 (agree c G1 G2 R) l l' -> Forall2 (agree c G1 G2 (fun x y => R x y \/ x = a /\ y = b)) l l').
  { intros l l' H. eapply Forall2_weaken; [|exact H]. apply agree_mono. auto. }
  intros x y [H|[-> ->]]; [|eauto 6]. destruct (HR _ _ H) as (us & us' & F1 & F2 & H3). eauto 6.
Qed.
Theorem C85_box c G1 G2 t t' : same_layout c G1 G2 t t' -> same_layout c G1 G2 (TBox t) t' /\ same_layout c G1 G2 t (TBox t').
Proof.
  intros (R & Hr & HR). destruct (HR _ _ Hr) as (ts & ts' & F1 & F2 & H).
  split; eapply layout_extend; try eassumption; constructor; assumption.
Qed.
Lemma flat_one G t ts : flat G t ts -> flat_all G [t] ts.
Proof. intro H. rewrite <- (app_nil_r ts). constructor; [exact H|constructor]. Qed.
Theorem C85_newtype c G1 G2 t' i tr f : nth_error G1 i = Some (DTuple tr [f]) -> f_skip f = false ->
  same_layout c G1 G2 (f_ty f) t' -> same_layout c G1 G2 (TNamed i) t'.
Proof.
  intros Hd Hs (R & Hr & HR). destruct (HR _ _ Hr) as (ts & ts' & F1 & F2 & H).
  eapply layout_extend; [exact HR| |exact F2|exact H]. eapply f_tuple; [exact Hd|cbn; rewrite Hs; reflexivity|]. apply flat_one. exact F1.
Qed.
Theorem C85_option c G1 G2 t t' : same_layout c G1 G2 t t' -> same_layout c G1 G2 (TOpt t) (TOpt t').
Proof.
  intros (R & Hr & HR). eapply layout_extend; [exact HR|apply f_closed..|]. constructor; [|constructor]. apply a_opt. exact Hr.
Qed.
Theorem C85_collection c G1 G2 a b t t' : item_of a t -> item_of b t' -> same_layout c G1 G2 t t' -> same_layout c G1 G2 a b.
Proof.
  intros Ha Hb (R & Hr & HR). eapply layout_extend; [exact HR|apply f_closed..|]. constructor; [|constructor]. eapply a_coll; eassumption.
Qed.
Theorem C85_basic c G1 G2 t : basic t -> same_layout c G1 G2 t t.
Proof.
  intro H. exists (fun x y => x = t /\ y = t). split; [auto|]. intros x y [-> ->]. exists [t], [t]. repeat split; [constructor..|].
  constructor; [constructor; exact H|constructor].
Qed.

(** A type may be read as what it is stored as: a String as a Vec<u8>, ... *)
Theorem C85_stored c G1 G2 t t' : stored G1 t t' -> same_layout c G1 G2 t t'.
Proof.
  intro H. exists (fun x y => x = t /\ y = t'). split; [auto|]. intros x y [-> ->]. exists [t], [t']. repeat split; [constructor..|].
  constructor; [apply a_stored; exact H|constructor].
Qed.

(** Widths matter: a u8 is not a u16. *)
Theorem C85_u8_u16 c G1 G2 : ~ same_layout c G1 G2 (TInt U8) (TInt U16).
Proof.
  intros (R & Hr & HR). destruct (HR _ _ Hr) as (ts & ts' & F1 & F2 & H). inversion F1; subst. inversion F2; subst.
  inversion H; subst. match goal with H : agree _ _ _ _ _ _ |- _ => inversion H; subst end.
  match goal with H : stored _ _ _ |- _ => inversion H end.
  match goal with H : item_of (TInt _) _ |- _ => inversion H end.
Qed.

Print Assumptions C85_reads.
Print Assumptions C85_written.
Print Assumptions C85_rejects.
Print Assumptions C85_box.
Print Assumptions C85_newtype.
Print Assumptions C85_option.
Print Assumptions C85_collection.
Print Assumptions C85_basic.
Print Assumptions C85_stored.
Print Assumptions C85_u8_u16.

(** ** Concrete cases *)
Definition variant0 (n : str) (b : vbody) : variant := {| v_name := n; v_rename := None; v_body := b |}.
(** Before: [struct P { x: u16, #[nserde(skip)] cache: u8, yz: [u8; 2] }],
    [enum L { Nil, Cons(u8, Box<L>) }]; stored is a [(HashMap<String, P>, L)]. *)
Definition Gold : env :=
  [ DStruct false false [ fld (chars "x") false (VZ 0) (TInt U16); fld (chars "cache") true (VZ 0) (TInt U8);
                          fld (chars "yz") false (VSeq [VZ 0; VZ 0]) (TArr 2 (TInt U8)) ];
    DEnum [ variant0 (chars "Nil") BUnit; variant0 (chars "Cons") (BTuple [TInt U8; TBox (TNamed 1)]) ] ].
Definition told : ty := TTup [TMap MHash TStr (TNamed 0); TNamed 1].
(** After: [struct Q(u16, u8, u8)], [enum C { End, Link { head: u8, next: Box<C> }, Broken }]
    in a tuple struct [S(Vec<(String, Q)>, C)]. *)
Definition Gnow : env :=
  [ DTuple false [ fld [] false (VZ 0) (TInt U16); fld [] false (VZ 0) (TInt U8); fld [] false (VZ 0) (TInt U8) ];
    DEnum [ variant0 (chars "End") BUnit;
            variant0 (chars "Link") (BStruct [fld (chars "head") false (VZ 0) (TInt U8); fld (chars "next") false VUnit (TBox (TNamed 1))]);
            variant0 (chars "Broken") BUnit ];
    DTuple false [ fld [] false VUnit (TSeq SVec (TTup [TStr; TNamed 0])); fld [] false VUnit (TNamed 1) ] ].
Inductive Rex : ty -> ty -> Prop :=
| rx_all : Rex told (TNamed 2)
| rx_entry : Rex (TTup [TStr; TNamed 0]) (TTup [TStr; TNamed 0])
| rx_nothing : Rex (TTup []) (TTup [])
| rx_link : Rex (TTup [TInt U8; TBox (TNamed 1)]) (TTup [TInt U8; TBox (TNamed 1)]).

Ltac flatten := repeat first [apply f_closed | apply fa_nil].
Lemma fa_keep G t ts l : flat_all G ts l -> flat_all G (t :: ts) (t :: l).
Proof. intro H. apply (fa_cons G t ts [t] l); [constructor|exact H]. Qed.
Lemma layout_ex : same_layout c64 Gold Gnow told (TNamed 2).
Proof.
  exists Rex. split; [constructor|]. intros a b H. destruct H.
  - exists [TMap MHash TStr (TNamed 0); TNamed 1], [TSeq SVec (TTup [TStr; TNamed 0]); TNamed 1]. split; [|split].
    + apply f_tup. repeat apply fa_keep. constructor.
    + eapply f_tuple; [reflexivity..|]. cbn [map f_ty fld]. repeat apply fa_keep. constructor.
    + constructor; [eapply a_coll; [constructor..|]; constructor|]. constructor; [|constructor].
      eapply a_enum with (vs' := [_; _]) (more := [_]); [reflexivity..|]. constructor; [|constructor; [|constructor]]; cbn; constructor.
  - exists [TStr; TInt U16; TInt U8; TInt U8], [TStr; TInt U16; TInt U8; TInt U8]. split; [|split].
    + apply f_tup. apply fa_keep. apply flat_one. eapply f_struct; [reflexivity|]. cbn [map filter f_skip f_ty fld negb]. apply fa_keep.
      apply flat_one. apply f_arr. cbn [repeat]. repeat apply fa_keep. constructor.
    + apply f_tup. apply fa_keep. apply flat_one. eapply f_tuple; [reflexivity..|]. cbn [map f_ty fld]. repeat apply fa_keep. constructor.
    + repeat (constructor; [apply a_basic; constructor|]). constructor.
  - exists [], []. repeat split; try (apply f_tup; constructor). constructor.
  - exists [TInt U8; TNamed 1], [TInt U8; TNamed 1]. split; [|split].
    1, 2: apply f_tup, fa_keep, flat_one, f_box; constructor.
    constructor; [apply a_basic; constructor|]. constructor; [|constructor].
    eapply a_enum with (vs' := [_; _]) (more := [_]); [reflexivity..|]. constructor; [|constructor; [|constructor]]; cbn; constructor.
Qed.

(** A map of one entry and the list 9, 8: the bytes, and how both programs read them. *)
Definition dex : list N := L8 1 ++ L8 1 ++ [97; 1; 2; 3; 4;  1; 0; 9; 1; 0; 8; 0; 0].
Definition vold : val := VSeq [VMap [(VStr [97], VSeq [VZ 513; VZ 0; VSeq [VZ 3; VZ 4]])]; VEnum 1 [VZ 9; VEnum 1 [VZ 8; VEnum 0 []]]].
Definition vnow : val := VSeq [VSeq [VSeq [VStr [97]; VSeq [VZ 513; VZ 3; VZ 4]]]; VEnum 1 [VZ 9; VEnum 1 [VZ 8; VEnum 0 []]]].
Lemma dex_ok : bytes_ok dex /\ slice_fits c64 (lenN dex).
Proof.
  split; [|vm_compute; reflexivity]. apply Forall_forall. intros b Hb. apply N.ltb_lt. revert b Hb. apply forallb_forall. vm_compute. reflexivity.
Qed.
Example C85_ex : same_layout c64 Gold Gnow told (TNamed 2) /\ serialize_bin Gold 9 told vold = Ok dex /\
  deserialize_bin c64 Gold dex 40 told = Ok vold /\ deserialize_bin c64 Gnow dex 40 (TNamed 2) = Ok vnow.
Proof. split; [exact layout_ex|]. vm_compute. auto. Qed.
Lemma dex_old : decodes_at c64 Gold told ([] ++ dex) (lenN (@nil N)) 29 (Ok vold).
Proof. apply (de_returns c64 Gold _ 40%nat); [vm_compute; reflexivity|discriminate]. Qed.
(** The theorem applied to it: the second program gets the same content or no room,
    and as it does get [vnow] this is the content. *)
Example C85_ex_same : same Gold Gnow told vold (TNamed 2) vnow.
Proof.
  destruct (C85_reads c64 Gold Gnow told (TNamed 2) [] dex 29 vold c64_ok (proj1 dex_ok) (proj2 dex_ok) layout_ex dex_old) as (v' & Hm & [H|[o'' H]]).
  - assert (X : decodes_at c64 Gnow (TNamed 2) ([] ++ dex) (lenN (@nil N)) 29 (Ok vnow)).
    { apply (de_returns c64 Gnow _ 40%nat); [vm_compute; reflexivity|discriminate]. }
    assert (E := returns_inj _ _ _ H X). injection E as ->. exact Hm.
  - assert (X : decodes_at c64 Gnow (TNamed 2) ([] ++ dex) (lenN (@nil N)) 29 (Ok vnow)).
    { apply (de_returns c64 Gnow _ 40%nat); [vm_compute; reflexivity|discriminate]. }
    assert (E := returns_inj _ _ _ H X). discriminate E.
Qed.

(** A string read as its bytes, a time as an optional duration. *)
Example C85_ex_stored : same_layout c64 [] [] TStr (TSeq SVec (TInt U8)) /\ same_layout c64 [] [] TTime (TOpt TDur) /\
  deserialize_bin c64 [] (L8 3 ++ [195; 169; 120]) 9 TStr = Ok (VStr [233; 120]) /\
  deserialize_bin c64 [] (L8 3 ++ [195; 169; 120]) 9 (TSeq SVec (TInt U8)) = Ok (VSeq [VZ 195; VZ 169; VZ 120]).
Proof. split; [apply C85_stored; constructor|]. split; [apply C85_stored; constructor|]. vm_compute. auto. Qed.
