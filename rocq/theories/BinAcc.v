(** Proofs for C77: the reader does exactly what SpecBinAcc.v says. *)
From Verif Require Import Base Utf8 Types BinModel BinRead BinFuel BinLocal SpecBin BinRoundtrip SpecBinAcc.
Local Open Scope N_scope.

(** ** Numbers *)
Lemma num_of w bs m : num w bs m -> of_le bs = m /\ lenN bs = N.of_nat w.
Proof.
  intros [H Hm]. assert (E : bs = le_bytes w m) by (eapply is_le_fun; [exact H | apply is_le_N]).
  subst bs. split; [apply of_le_le_bytes; exact Hm | apply lenN_le].
Qed.
Lemma of_num w bs : bytes_ok bs -> lenN bs = N.of_nat w -> num w bs (of_le bs).
Proof.
  intros Hb Hl. assert (Hw : length bs = w) by (unfold lenN in Hl; lia). split.
  - rewrite <- (le_bytes_of_le bs Hb) at 2. rewrite Hw. apply is_le_N.
  - rewrite <- Hl. apply of_le_bound, Hb.
Qed.
Lemma int_of c k z bs : k <> Usize -> int_ok c k z -> is_le (ik_bytes k) z bs ->
  of_bits k (of_le bs) = z /\ lenN bs = N.of_nat (ik_bytes k).
Proof.
  intros Hk Hz H. assert (E : bs = le_bytes (ik_bytes k) (to_bits (ik_bytes k) z)) by (eapply is_le_fun; [exact H | apply is_le_bits]).
  subst bs. split; [|apply lenN_le]. rewrite of_le_le_bytes by apply to_bits_lt. eapply of_bits_to_bits; eauto.
Qed.
Lemma of_int c k bs : k <> Usize -> bytes_ok bs -> lenN bs = N.of_nat (ik_bytes k) ->
  int_ok c k (of_bits k (of_le bs)) /\ is_le (ik_bytes k) (of_bits k (of_le bs)) bs.
Proof.
  intros Hk Hb Hl. assert (Hw : length bs = ik_bytes k) by (unfold lenN in Hl; lia).
  destruct (to_bits_of_bits c k (of_le bs) Hk) as [H1 H2]; [rewrite <- Hl; apply of_le_bound, Hb|].
  split; [exact H1|]. assert (X := is_le_bits (ik_bytes k) (of_bits k (of_le bs))). rewrite H2 in X.
  rewrite <- Hw in X at 2. rewrite le_bytes_of_le in X by exact Hb. exact X.
Qed.

Definition out_of (x : end_) : res berr val := match x with Fails e => Err e | Panics p => Panic p end.
Definition out_any {A} (x : end_) : res berr A := match x with Fails e => Err e | Panics p => Panic p end.

Lemma cut {A} w (l : list A) : w <= lenN l -> exists a b, l = a ++ b /\ lenN a = w.
Proof.
  intro H. exists (firstn (N.to_nat w) l), (skipn (N.to_nat w) l). split; [symmetry; apply firstn_skipn|].
  unfold lenN in *. rewrite firstn_length. lia.
Qed.

Section Acc.
  Variable c : cfg.
  Variable G : env.
  Variable d : list N.
  Hypothesis Hc : cfg_ok c.
  Hypothesis Hd : slice_fits c (lenN d).

  Definition at_ (o : N) (rest : list N) : Prop := exists pre, d = pre ++ rest /\ o = lenN pre.

  Lemma at_len o rest : at_ o rest -> lenN d = o + lenN rest.
  Proof. intros (pre & -> & ->). apply lenN_app. Qed.
  Lemma at_app o b rest : at_ o (b ++ rest) -> at_ (o + lenN b) rest.
  Proof. intros (pre & E & ->). exists (pre ++ b). rewrite <- app_assoc, lenN_app. auto. Qed.
  Lemma at_usize o rest : at_ o rest -> o + 16 < usize_mod c /\ o + lenN rest < usize_mod c.
  Proof. intro H. apply at_len in H. destruct (slice_fits_usize c _ Hc Hd). lia. Qed.
  Lemma at_slice o b rest : at_ o (b ++ rest) -> slice o (lenN b) d = b.
  Proof. intros (pre & -> & ->). apply slice_mid. Qed.

  (** ** Results of the small readers *)
  Lemma fixed_ok w b rest o : w <= 16 -> lenN b = w -> at_ o (b ++ rest) -> rd_fixed c d w o = (o + w, Ok b).
  Proof.
    intros Hw Hb H. destruct (at_usize _ _ H) as [U1 U2]. assert (L := at_len _ _ H). rewrite lenN_app in L.
    unfold rd_fixed. rewrite usize_add_ok by lia.
    destruct (N.ltb_spec (lenN d) (o + w)); [lia|]. destruct (N.ltb_spec (o + w) o); [lia|].
    rewrite <- Hb, (at_slice _ _ _ H). reflexivity.
  Qed.
  Lemma fixed_short w rest o : w <= 16 -> lenN rest < w -> at_ o rest ->
    rd_fixed c d w o = (o, Err {| e_o := o; e_msg := ELength w (o + lenN rest) |}).
  Proof.
    intros Hw Hb H. destruct (at_usize _ _ H) as [U1 U2]. assert (L := at_len _ _ H).
    unfold rd_fixed, len_err. rewrite usize_add_ok by lia. rewrite <- L.
    destruct (N.ltb_spec (lenN d) (o + w)); [reflexivity|lia].
  Qed.
  Lemma usize_read lb n rest o : count_is c lb n -> at_ o (lb ++ rest) -> rd_usize c d o = (o + 8, Ok n).
  Proof.
    intros (m & Hm & ->) H. apply num_of in Hm as [<- Hl]. change (N.of_nat 8) with 8 in Hl.
    destruct (at_usize _ _ H) as [U1 U2]. assert (L := at_len _ _ H). rewrite lenN_app in L.
    unfold rd_usize. rewrite usize_add_ok by lia.
    destruct (N.leb_spec o (o + 8)); [|lia]. destruct (N.leb_spec (o + 8) (lenN d)); [|lia]. cbn [andb].
    rewrite <- Hl, (at_slice _ _ _ H). reflexivity.
  Qed.
  Lemma usize_short rest o : lenN rest < 8 -> at_ o rest ->
    rd_usize c d o = (o, Err {| e_o := o; e_msg := ELength 8 (o + lenN rest) |}).
  Proof.
    intros Hb H. destruct (at_usize _ _ H) as [U1 U2]. assert (L := at_len _ _ H).
    unfold rd_usize, len_err. rewrite usize_add_ok by lia. rewrite <- L.
    destruct (N.leb_spec (o + 8) (lenN d)); [lia|]. rewrite andb_false_r. reflexivity.
  Qed.

  (** ** Forwards *)
  Definition FV {A} (m : bm A) (bs : list N) (a : A) : Prop :=
    forall o post, at_ o (bs ++ post) -> m o = (o + lenN bs, Ok a).
  Definition FX {A} (m : bm A) (o : N) (rest : list N) (o' : N) (x : end_) : Prop :=
    at_ o rest -> m o = (o', out_any x).

  Lemma FV_ret {A} (a : A) : FV (bret a) [] a.
  Proof. intros o post _. unfold bret. rewrite lenN_nil, N.add_0_r. reflexivity. Qed.
  Lemma FV_bind {A B} (m : bm A) (f : A -> bm B) b1 b2 a b : FV m b1 a -> FV (f a) b2 b -> FV (bbind m f) (b1 ++ b2) b.
  Proof.
    intros H1 H2 o post H. rewrite <- app_assoc in H. unfold bbind. rewrite (H1 o _ H).
    rewrite (H2 _ post (at_app _ _ _ H)). rewrite lenN_app, N.add_assoc. reflexivity.
  Qed.
  Lemma FV_bind0 {A B} (m : bm A) (f : A -> bm B) b1 a b : FV m b1 a -> FV (f a) [] b -> FV (bbind m f) b1 b.
  Proof. intros H1 H2. rewrite <- (app_nil_r b1). eapply FV_bind; eauto. Qed.
  Lemma FV_map {A B} (g : A -> B) (m : bm A) bs a : FV m bs a -> FV (bmap g m) bs (g a).
  Proof. intro H. eapply FV_bind0; [exact H | apply FV_ret]. Qed.
  Lemma FX_bind1 {A B} (m : bm A) (f : A -> bm B) o rest o' x : FX m o rest o' x -> FX (bbind m f) o rest o' x.
  Proof. intros H Ha. unfold bbind. rewrite (H Ha). destruct x; reflexivity. Qed.
  Lemma FX_bind2 {A B} (m : bm A) (f : A -> bm B) b1 a o rest o' x :
    FV m b1 a -> FX (f a) (o + lenN b1) rest o' x -> FX (bbind m f) o (b1 ++ rest) o' x.
  Proof. intros H1 H2 Ha. unfold bbind. rewrite (H1 _ _ Ha). apply H2, at_app, Ha. Qed.
  Lemma FX_map {A B} (g : A -> B) (m : bm A) o rest o' x : FX m o rest o' x -> FX (bmap g m) o rest o' x.
  Proof. apply FX_bind1. Qed.

  Lemma FV_fixed w bs : w <= 16 -> lenN bs = w -> FV (rd_fixed c d w) bs bs.
  Proof. intros Hw Hb o post H. rewrite (fixed_ok w bs post o Hw Hb H), Hb. reflexivity. Qed.
  Lemma FX_fixed w o rest : w <= 16 -> lenN rest < w ->
    FX (rd_fixed c d w) o rest o (Fails {| e_o := o; e_msg := ELength w (o + lenN rest) |}).
  Proof. intros Hw Hb H. apply fixed_short; assumption. Qed.
  Lemma count_len lb n : count_is c lb n -> lenN lb = 8.
  Proof. intros (m & Hm & _). apply num_of in Hm as [_ H]. exact H. Qed.
  Lemma FV_usize lb n : count_is c lb n -> FV (rd_usize c d) lb n.
  Proof. intros H o post Ha. rewrite (usize_read lb n post o H Ha), (count_len _ _ H). reflexivity. Qed.
  Lemma FX_usize o rest : lenN rest < 8 ->
    FX (rd_usize c d) o rest o (Fails {| e_o := o; e_msg := ELength 8 (o + lenN rest) |}).
  Proof. intros H Ha. apply usize_short; assumption. Qed.

  Lemma FV_str s lb : Forall scalar s -> count_is c lb (lenN (utf8_enc s)) -> FV (rd_str c d) (lb ++ utf8_enc s) s.
  Proof.
    intros Hs Hl. unfold rd_str. eapply FV_bind; [apply FV_usize, Hl|]. intros o post H.
    destruct (at_usize _ _ H) as [U1 U2]. assert (L := at_len _ _ H). rewrite lenN_app in L, U2.
    rewrite usize_add_ok by lia.
    destruct (N.ltb_spec (lenN d) (o + lenN (utf8_enc s))); [lia|]. destruct (N.ltb_spec (o + lenN (utf8_enc s)) o); [lia|].
    rewrite (at_slice _ _ _ H), utf8_dec_enc by assumption. reflexivity.
  Qed.

  (** ** Backwards *)
  Definition Inv {A} (m : bm A) (R : A -> list N -> Prop) (X : N -> list N -> N -> end_ -> Prop) : Prop :=
    forall o rest, at_ o rest ->
    match m o with
    | (o', Ok a) => exists bs post, rest = bs ++ post /\ o' = o + lenN bs /\ R a bs
    | (o', Err e) => X o rest o' (Fails e)
    | (o', Panic p) => X o rest o' (Panics p)
    | (_, NoFuel) => True
    end.

  Lemma Inv_weak {A} (m : bm A) (R R' : A -> list N -> Prop) (X X' : N -> list N -> N -> end_ -> Prop) : Inv m R X ->
    (forall a bs, R a bs -> R' a bs) -> (forall o rest o' x, at_ o rest -> X o rest o' x -> X' o rest o' x) -> Inv m R' X'.
  Proof.
    intros H HR HX o rest Ha. specialize (H o rest Ha). destruct (m o) as [o' [a|e|p|]]; auto.
    destruct H as (bs & post & E & E' & Hr). exists bs, post. auto.
  Qed.
  Lemma Inv_bind {A B} (m : bm A) (f : A -> bm B) R1 X1 R2 X2 : Inv m R1 X1 -> (forall a, Inv (f a) (R2 a) (X2 a)) ->
    Inv (bbind m f)
      (fun b bs => exists a b1 b2, bs = b1 ++ b2 /\ R1 a b1 /\ R2 a b b2)
      (fun o rest o' x => X1 o rest o' x \/ exists a b1 r', rest = b1 ++ r' /\ R1 a b1 /\ X2 a (o + lenN b1) r' o' x).
  Proof.
    intros H1 H2 o rest Ha. unfold bbind. specialize (H1 o rest Ha). destruct (m o) as [o1 [a|e|p|]]; auto.
    destruct H1 as (b1 & r' & -> & -> & HR). specialize (H2 a _ _ (at_app _ _ _ Ha)).
    destruct (f a (o + lenN b1)) as [o2 [b|e|p|]]; auto.
    - destruct H2 as (b2 & post & -> & -> & HR2). exists (b1 ++ b2), post. rewrite <- app_assoc, lenN_app, N.add_assoc. eauto 8.
    - right. eauto 8.
    - right. eauto 8.
  Qed.
  Lemma Inv_ret {A} (a : A) : Inv (bret a) (fun b bs => b = a /\ bs = []) (fun _ _ _ _ => False).
  Proof. intros o rest _. unfold bret. exists [], rest. rewrite lenN_nil, N.add_0_r. auto. Qed.
  Lemma Inv_map {A B} (g : A -> B) (m : bm A) R X : Inv m R X -> Inv (bmap g m) (fun b bs => exists a, b = g a /\ R a bs) X.
  Proof.
    intro H. unfold bmap. eapply Inv_weak; [apply (Inv_bind _ _ _ _ _ _ H (fun a => Inv_ret (g a)))| |]; cbv beta.
    - intros b bs (a & b1 & b2 & -> & Hr & -> & ->). rewrite app_nil_r. eauto.
    - intros o rest o' x _ [Hx | (a & b1 & r' & _ & _ & [])]. exact Hx.
  Qed.
  Lemma Inv_panic {A} p : Inv (bfail (Panic p)) (fun (_ : A) _ => False) (fun o rest o' x => o' = o /\ x = Panics p).
  Proof. intros o rest _. cbn. auto. Qed.
  Lemma Inv_err {A} e : Inv (bfail (Err e)) (fun (_ : A) _ => False) (fun o rest o' x => o' = o /\ x = Fails e).
  Proof. intros o rest _. cbn. auto. Qed.

  Definition short_at (w : N) (o : N) (rest : list N) (o' : N) (x : end_) : Prop :=
    lenN rest < w /\ o' = o /\ x = Fails {| e_o := o; e_msg := ELength w (o + lenN rest) |}.

  Hypothesis Hb : bytes_ok d.
  Lemma at_bytes o b rest : at_ o (b ++ rest) -> bytes_ok b.
  Proof. intros (pre & E & _). rewrite E in Hb. unfold bytes_ok in *. apply Forall_app in Hb as [_ H]. apply Forall_app in H as [H _]. exact H. Qed.

  Lemma Inv_fixed w : w <= 16 -> Inv (rd_fixed c d w) (fun a bs => a = bs /\ lenN bs = w /\ bytes_ok bs) (short_at w).
  Proof.
    intros Hw o rest Ha. destruct (N.lt_ge_cases (lenN rest) w) as [H|H].
    - rewrite (fixed_short w rest o Hw H Ha). unfold short_at. auto.
    - destruct (cut w rest H) as (a & b & -> & Hl). rewrite (fixed_ok w a b o Hw Hl Ha). exists a, b.
      rewrite Hl. assert (Hx := at_bytes _ _ _ Ha). auto 6.
  Qed.
  Lemma count_of lb : bytes_ok lb -> lenN lb = 8 -> count_is c lb (of_le lb mod usize_mod c).
  Proof. intros H1 H2. exists (of_le lb). split; [apply of_num; assumption | reflexivity]. Qed.
  Lemma Inv_usize : Inv (rd_usize c d) (fun n bs => count_is c bs n) (short_at 8).
  Proof.
    intros o rest Ha. destruct (N.lt_ge_cases (lenN rest) 8) as [H|H].
    - rewrite (usize_short rest o H Ha). unfold short_at. auto.
    - destruct (cut 8 rest H) as (a & b & -> & Hl). assert (Hx := at_bytes _ _ _ Ha).
      rewrite (usize_read a _ b o (count_of a Hx Hl) Ha). exists a, b. rewrite Hl. split; [reflexivity|]. split; [reflexivity|].
      apply count_of; assumption.
  Qed.

  Lemma usize_mod_pos : usize_mod c <> 0.
  Proof. unfold usize_mod. apply N.pow_nonzero. discriminate. Qed.
  Lemma count_lt lb n : count_is c lb n -> n < usize_mod c.
  Proof. intros (m & _ & ->). apply N.mod_lt, usize_mod_pos. Qed.

  (** The body of a string of [n] bytes. *)
  Definition body (n : N) : bm str := fun o =>
      match usize_add c o n with
      | Ok e =>
        if lenN d <? e then (o, Err (len_err d o 1))
        else if e <? o then (o, Panic PSlice)
        else match utf8_dec (slice o n d) with
             | Some s => (e, Ok s)
             | None => (o, Err (len_err d o n))
             end
      | Err e => (o, Err e)
      | Panic p => (o, Panic p)
      | NoFuel => (o, NoFuel)
      end.
  Lemma body_wrap n o rest : n < usize_mod c -> at_ o rest -> usize_mod c <= o + n ->
    body n o = (o, Panic (if overflow_checks c then POverflow else PSlice)).
  Proof.
    intros Hn Ha H. destruct (at_usize _ _ Ha) as [U1 U2]. assert (L := at_len _ _ Ha).
    unfold body, usize_add. destruct (N.ltb_spec (o + n) (usize_mod c)); [lia|]. destruct (overflow_checks c); [reflexivity|].
    assert (E : (o + n) mod usize_mod c = o + n - usize_mod c).
    { symmetry. apply (N.mod_unique _ _ 1); lia. }
    rewrite E. destruct (N.ltb_spec (lenN d) (o + n - usize_mod c)); [lia|].
    destruct (N.ltb_spec (o + n - usize_mod c) o); [reflexivity|lia].
  Qed.
  Lemma body_short n o rest : at_ o rest -> o + n < usize_mod c -> lenN rest < n ->
    body n o = (o, Err {| e_o := o; e_msg := ELength 1 (o + lenN rest) |}).
  Proof.
    intros Ha H Hn. assert (L := at_len _ _ Ha). unfold body. rewrite usize_add_ok by lia.
    destruct (N.ltb_spec (lenN d) (o + n)); [|lia]. unfold len_err. rewrite L. reflexivity.
  Qed.
  Lemma body_at bs o rest : at_ o (bs ++ rest) ->
    body (lenN bs) o = match utf8_dec bs with Some s => (o + lenN bs, Ok s)
      | None => (o, Err {| e_o := o; e_msg := ELength (lenN bs) (o + lenN (bs ++ rest)) |}) end.
  Proof.
    intros Ha. destruct (at_usize _ _ Ha) as [U1 U2]. assert (L := at_len _ _ Ha). rewrite lenN_app in U2. unfold body.
    rewrite usize_add_ok by lia. rewrite (at_slice _ _ _ Ha). unfold len_err. rewrite L.
    rewrite lenN_app.
    destruct (N.ltb_spec (o + (lenN bs + lenN rest)) (o + lenN bs)); [lia|]. destruct (N.ltb_spec (o + lenN bs) o); [lia|]. reflexivity.
  Qed.

  (** ** Loops *)
  Definition loop_items (de : bm val) (k : seqk) (n : nat) (acc : list val) : bm (list val) := fun o =>
    iter_nat_m (fun o acc => bbind de (fun v => bret (seq_add k v acc)) o) n o acc.
  Definition loop_entries (dk dv : bm val) (k : mapk) (n : nat) (acc : list (val * val)) : bm (list (val * val)) := fun o =>
    iter_nat_m (fun o acc => bbind dk (fun x => bbind dv (fun y => bret (map_add k x y acc))) o) n o acc.
  Lemma loop_items_S de k n acc o :
    loop_items de k (S n) acc o = bbind de (fun v => loop_items de k n (seq_add k v acc)) o.
  Proof. unfold loop_items. cbn [iter_nat_m]. unfold seq2, bbind, bret. destruct (de o) as [o1 [v|e|p|]]; reflexivity. Qed.
  Lemma loop_entries_S dk dv k n acc o :
    loop_entries dk dv k (S n) acc o = bbind dk (fun x => bbind dv (fun y => loop_entries dk dv k n (map_add k x y acc))) o.
  Proof.
    unfold loop_entries. cbn [iter_nat_m]. unfold seq2, bbind, bret. destruct (dk o) as [o1 [v|e|p|]]; try reflexivity.
    destruct (dv o1) as [o2 [w|e|p|]]; reflexivity.
  Qed.
  Lemma de_items_loop de k t n o : de_items de k t n o = loop_items (de t) k (N.to_nat n) [] o.
  Proof. apply iter_N_nat. Qed.
  Lemma de_entries_loop de k tk tv n o : de_entries de k tk tv n o = loop_entries (de tk) (de tv) k (N.to_nat n) [] o.
  Proof. apply iter_N_nat. Qed.
  Lemma loop_items_app de k n m acc o :
    loop_items de k (n + m) acc o = bbind (loop_items de k n acc) (loop_items de k m) o.
  Proof. unfold loop_items, bbind. rewrite iter_nat_m_app. unfold seq2. destruct (iter_nat_m _ n o acc) as [o1 [v|e|p|]]; reflexivity. Qed.
  Lemma loop_entries_app dk dv k n m acc o :
    loop_entries dk dv k (n + m) acc o = bbind (loop_entries dk dv k n acc) (loop_entries dk dv k m) o.
  Proof. unfold loop_entries, bbind. rewrite iter_nat_m_app. unfold seq2. destruct (iter_nat_m _ n o acc) as [o1 [v|e|p|]]; reflexivity. Qed.
  Lemma de_rep_app de n m t o :
    de_rep de (n + m) t o = bbind (de_rep de n t) (fun a => bbind (de_rep de m t) (fun b => bret (a ++ b))) o.
  Proof.
    revert o. induction n as [|n IH]; intro o; cbn [Nat.add de_rep].
    - unfold bbind, bret. destruct (de_rep de m t o) as [o1 [v|e|p|]]; reflexivity.
    - unfold bbind, bret in *. destruct (de t o) as [o1 [v|e|p|]]; try reflexivity. rewrite IH.
      destruct (de_rep de n t o1) as [o2 [w|e|p|]]; try reflexivity. destruct (de_rep de m t o2) as [o3 [z|e|p|]]; reflexivity.
  Qed.
  Lemma de_tys_app de a b o :
    de_tys de (a ++ b) o = bbind (de_tys de a) (fun x => bbind (de_tys de b) (fun y => bret (x ++ y))) o.
  Proof.
    revert o. induction a as [|t a IH]; intro o; cbn [app de_tys].
    - unfold bbind, bret. destruct (de_tys de b o) as [o1 [v|e|p|]]; reflexivity.
    - unfold bbind, bret in *. destruct (de t o) as [o1 [v|e|p|]]; try reflexivity. rewrite IH.
      destruct (de_tys de a o1) as [o2 [w|e|p|]]; try reflexivity. destruct (de_tys de b o2) as [o3 [z|e|p|]]; reflexivity.
  Qed.
  Lemma de_fields_app de h a b o :
    de_fields de h (a ++ b) o = bbind (de_fields de h a) (fun x => bbind (de_fields de h b) (fun y => bret (x ++ y))) o.
  Proof.
    revert o. induction a as [|f a IH]; intro o; cbn [app de_fields].
    - unfold bbind, bret. destruct (de_fields de h b o) as [o1 [v|e|p|]]; reflexivity.
    - set (m := if h && f_skip f then bret (f_tydefault f) else de (f_ty f)). clearbody m.
      unfold bbind, bret in *. destruct (m o) as [o1 [v|e|p|]]; try reflexivity.
      rewrite IH. destruct (de_fields de h a o1) as [o2 [w|e|p|]]; try reflexivity. destruct (de_fields de h b o2) as [o3 [z|e|p|]]; reflexivity.
  Qed.
  Lemma de_fields_tys de h fs o : (h = false \/ existsb f_skip fs = false) -> de_fields de h fs o = de_tys de (map f_ty fs) o.
  Proof.
    intro H. revert o. induction fs as [|f fs IH]; intro o; [reflexivity|]. cbn [de_fields de_tys map].
    assert (E : h && f_skip f = false).
    { destruct H as [->|H]; [reflexivity|]. cbn [existsb] in H. apply orb_false_iff in H as [-> _]. apply andb_false_r. }
    rewrite E. unfold bbind. destruct (de (f_ty f) o) as [o1 [v|e|p|]]; try reflexivity. rewrite IH; [reflexivity|].
    destruct H as [H|H]; [left; exact H | right]. cbn [existsb] in H. apply orb_false_iff in H as [_ H]. exact H.
  Qed.
  Lemma de_variant_tys de tag b o :
    match b with BUnit => bret (VEnum tag []) | BTuple ts => bmap (VEnum tag) (de_tys de ts)
      | BStruct fs => bmap (VEnum tag) (de_fields de false fs) end o = bmap (VEnum tag) (de_tys de (body_tys b)) o.
  Proof.
    destruct b as [|ts|fs]; cbn [body_tys]; try reflexivity. unfold bmap, bbind. rewrite de_fields_tys by auto. reflexivity.
  Qed.

  Lemma FV_ext {A} (m m' : bm A) bs a : (forall o, m o = m' o) -> FV m' bs a -> FV m bs a.
  Proof. intros E H o post Ha. rewrite E. apply (H o post Ha). Qed.
  Lemma FX_ext {A} (m m' : bm A) o rest o' x : (forall o, m o = m' o) -> FX m' o rest o' x -> FX m o rest o' x.
  Proof. intros E H Ha. rewrite E. apply (H Ha). Qed.
  Lemma Inv_ext {A} (m m' : bm A) R X : (forall o, m o = m' o) -> Inv m' R X -> Inv m R X.
  Proof. intros E H o rest Ha. rewrite E. apply (H o rest Ha). Qed.

  (** ** Forwards, values *)
  Notation DE := (de_bin c G d).
  Definition ev (P : nat -> Prop) : Prop := exists N, forall n, (N <= n)%nat -> P n.
  Lemma ev_S (P : nat -> Prop) : ev (fun n => P (S n)) -> ev P.
  Proof. intros [N H]. exists (S N). intros [|n] Hn; [lia|]. apply H. lia. Qed.
  Lemma ev_now (P : nat -> Prop) : (forall n, P n) -> ev P.
  Proof. intro H. exists 0%nat. intros; apply H. Qed.
  Lemma ev_map (P Q : nat -> Prop) : (forall n, P n -> Q n) -> ev P -> ev Q.
  Proof. intros H [N HP]. exists N. auto. Qed.
  Lemma ev_map2 (P Q R : nat -> Prop) : (forall n, P n -> Q n -> R n) -> ev P -> ev Q -> ev R.
  Proof. intros H [N HP] [M HQ]. exists (N + M)%nat. intros n Hn. apply H; [apply HP | apply HQ]; lia. Qed.

  Definition V_ (t : ty) (v : val) (bs : list N) : Prop := ev (fun n => FV (DE n t) bs v).
  Definition V_items (t : ty) (ws : list val) (bs : list N) : Prop :=
    ev (fun n => (forall k acc, FV (loop_items (DE n t) k (length ws) acc) bs (seq_of k ws acc)) /\
                 FV (de_rep (DE n) (length ws) t) bs ws).
  Definition V_entries (tk tv : ty) (es : list (val * val)) (bs : list N) : Prop :=
    ev (fun n => forall k acc, FV (loop_entries (DE n tk) (DE n tv) k (length es) acc) bs (map_of k es acc)).
  Definition V_parts (ts : list ty) (ws : list val) (bs : list N) : Prop := ev (fun n => FV (de_tys (DE n) ts) bs ws).
  Definition V_fields (fs : list field) (ws : list val) (bs : list N) : Prop := ev (fun n => FV (de_fields (DE n) true fs) bs ws).

  Lemma FV_dur a b s ns sb nb : num 8 sb a -> num 4 nb b -> dur_is a b s ns -> FV (rd_dur c d) (sb ++ nb) (VDur s ns).
  Proof.
    intros H1 H2 Hd'. apply num_of in H1 as [<- L1]. apply num_of in H2 as [<- L2].
    unfold rd_dur. eapply FV_bind; [apply FV_fixed; [lia | exact L1]|].
    eapply FV_bind0; [apply FV_fixed; [lia | exact L2]|]. cbv zeta. unfold duration_new.
    destruct Hd' as [(H & -> & ->)|(H & H' & -> & ->)].
    - destruct (N.ltb_spec 1000000000 (of_le nb)); [lia|]. destruct (N.ltb_spec (of_le nb) 1000000000); [|lia]. apply FV_ret.
    - rewrite H. change (1000000000 <? 1000000000) with false. cbv iota. change (1000000000 / 1000000000) with 1. change (1000000000 mod 1000000000) with 0.
      destruct (N.ltb_spec (of_le sb + 1) (2 ^ 64)); [|lia]. apply FV_ret.
  Qed.

  Lemma len1 (x : N) : lenN [x] = 1.
  Proof. reflexivity. Qed.
  Lemma of_le1 (x : N) : of_le [x] = x.
  Proof. cbn [of_le]. lia. Qed.

  Lemma FV_room_seq {A} k t n (f : unit -> bm A) bs a : room_seq c k t n -> FV (f tt) bs a ->
    FV (bbind (match k with SVec | SHSet => with_capacity c t n | _ => bret tt end) f) bs a.
  Proof.
    intros Hr H. apply (FV_bind _ _ [] bs tt); [|exact H]. destruct k; cbn [room_seq] in Hr; try apply FV_ret;
      unfold with_capacity; destruct (N.leb_spec n (alloc_max c t)); try lia; apply FV_ret.
  Qed.
  Lemma FV_room_map {A} k t n (f : unit -> bm A) bs a : room_map c k t n -> FV (f tt) bs a ->
    FV (bbind (match k with MHash => with_capacity c t n | MBTree => bret tt end) f) bs a.
  Proof.
    intros Hr H. apply (FV_bind _ _ [] bs tt); [|exact H]. destruct k; cbn [room_map] in Hr; try apply FV_ret;
      unfold with_capacity; destruct (N.leb_spec n (alloc_max c t)); try lia; apply FV_ret.
  Qed.

  Theorem forward_v :
    (forall t v bs, spells c G t v bs -> V_ t v bs) /\
    (forall t ws bs, spells_items c G t ws bs -> V_items t ws bs) /\
    (forall tk tv es bs, spells_entries c G tk tv es bs -> V_entries tk tv es bs) /\
    (forall ts ws bs, spells_parts c G ts ws bs -> V_parts ts ws bs) /\
    (forall fs ws bs, spells_fields c G fs ws bs -> V_fields fs ws bs).
  Proof.
    apply spells_mutind; unfold V_, V_items, V_entries, V_parts, V_fields.
    - intros lb n Hn. apply ev_S, ev_now. intro m. cbn [de_bin]. apply (FV_map (fun m => VZ (Z.of_N m))), FV_usize, Hn.
    - intros k z bs Hk Hz H. apply ev_S, ev_now. intro m. destruct (int_of c k z bs Hk Hz H) as [E L].
      assert (FV (bmap (fun b => VZ (of_bits k (of_le b))) (rd_fixed c d (N.of_nat (ik_bytes k)))) bs (VZ z)).
      { rewrite <- E. apply (FV_map (fun b => VZ (of_bits k (of_le b)))), FV_fixed; [destruct k; cbn; lia | exact L]. }
      destruct k; try congruence; exact H0.
    - intros b bs H. apply ev_S, ev_now. intro m. apply num_of in H as [<- L]. apply (FV_map (fun b => VF (of_le b))), FV_fixed; [lia|exact L].
    - intros b bs H. apply ev_S, ev_now. intro m. apply num_of in H as [<- L]. apply (FV_map (fun b => VF (of_le b))), FV_fixed; [lia|exact L].
    - apply ev_S, ev_now. intro m. apply (FV_map (fun b => VBool (negb (of_le b =? 0))) _ [0] [0]), FV_fixed; [lia|apply len1].
    - intros x Hx. apply ev_S, ev_now. intro m. cbn [de_bin]. replace true with (negb (of_le [x] =? 0)).
      + apply (FV_map (fun b => VBool (negb (of_le b =? 0))) _ [x] [x]), FV_fixed; [lia|apply len1].
      + rewrite of_le1. destruct (N.eqb_spec x 0); [congruence|reflexivity].
    - intros s lb Hs Hl. apply ev_S, ev_now. intro m. apply (FV_map VStr), FV_str; assumption.
    - apply ev_S, ev_now. intro m. apply FV_ret.
    - intros t x Hx. apply ev_S, ev_now. intro m. cbn [de_bin]. eapply FV_bind0; [apply FV_fixed; [lia|apply len1]|].
      rewrite of_le1. destruct (N.eqb_spec x 1); [congruence|]. apply FV_ret.
    - intros t v bs _ IH. apply ev_S. revert IH. apply ev_map. intros n IH. cbn [de_bin].
      apply (FV_bind _ _ [1] bs [1]); [apply FV_fixed; [lia|apply len1]|]. cbn [of_le N.mul N.add N.eqb Pos.eqb]. apply FV_map, IH.
    - intros k t ws lb bs Hl Hr _ IH. apply ev_S. revert IH. apply ev_map. intros n [IH _]. cbn [de_bin].
      eapply FV_bind; [apply FV_usize, Hl|]. apply FV_room_seq; [exact Hr|]. apply FV_map.
      eapply FV_ext; [intro o; apply de_items_loop|]. unfold lenN. rewrite Nat2N.id. apply IH.
    - intros k tk tv es lb bs Hl Hr _ IH. apply ev_S. revert IH. apply ev_map. intros n IH. cbn [de_bin].
      eapply FV_bind; [apply FV_usize, Hl|]. apply FV_room_map; [exact Hr|]. apply FV_map.
      eapply FV_ext; [intro o; apply de_entries_loop|]. unfold lenN. rewrite Nat2N.id. apply IH.
    - intros n t ws bs <- _ IH. apply ev_S. revert IH. apply ev_map. intros n [_ IH]. cbn [de_bin]. apply FV_map, IH.
    - intros ts ws bs _ IH. apply ev_S. revert IH. apply ev_map. intros n IH. cbn [de_bin]. apply FV_map, IH.
    - intros t v bs _ IH. apply ev_S. exact IH.
    - intros a b s ns sb nb H1 H2 H3. apply ev_S, ev_now. intro m. apply (FV_dur a b); assumption.
    - intros s ns bs H _ Hs. inversion H; subst. apply ev_S, ev_now. intro m. cbn [de_bin]. unfold rd_time.
      match goal with |- FV _ (1 :: ?b) _ => apply (FV_bind _ _ [1] b [1]); [apply FV_fixed; [lia|apply len1]|] end.
      cbn [of_le N.mul N.add N.eqb Pos.eqb].
      eapply FV_bind0; [eapply FV_dur; eassumption|]. cbv beta iota. destruct (N.leb_spec s (time_max c)); [|lia]. apply FV_ret.
    - intros x Hx. apply ev_S, ev_now. intro m. cbn [de_bin]. unfold rd_time. eapply FV_bind0; [apply FV_fixed; [lia|apply len1]|].
      rewrite of_le1. destruct (N.eqb_spec x 1); [congruence|]. apply FV_ret.
    - intros p t v bs _ IH. apply ev_S. revert IH. apply ev_map. intros n IH. cbn [de_bin]. apply FV_map, IH.
    - intros i df nl fs ws bs E _ IH. apply ev_S. revert IH. apply ev_map. intros n IH. cbn [de_bin]. rewrite E. apply FV_map, IH.
    - intros i tr fs ws bs E Hs _ IH. apply ev_S. revert IH. apply ev_map. intros n IH. cbn [de_bin]. rewrite E, Hs.
      apply FV_map. eapply FV_ext; [intro o; apply de_fields_tys; auto|]. exact IH.
    - intros i p t v bs E _ IH. apply ev_S. revert IH. apply ev_map. intros n IH. cbn [de_bin]. rewrite E. apply FV_map, IH.
    - intros i vs tag vr tb ws bs E Ht Hv _ IH. apply ev_S. revert IH. apply ev_map. intros n IH. cbn [de_bin]. rewrite E.
      apply num_of in Ht as [<- L]. eapply FV_bind; [apply FV_fixed; [lia|exact L]|]. cbv zeta. rewrite Hv.
      eapply FV_ext; [intro o; apply de_variant_tys|]. apply FV_map, IH.
    - intro t. apply ev_now. intro n. split; [intros k acc; apply FV_ret | apply FV_ret].
    - intros t v ws b1 b2 _ IH1 _ IH2. revert IH1 IH2. apply ev_map2. intros n H1 [H2 H3]. split.
      + intros k acc. cbn [length]. eapply FV_ext; [intro o; apply loop_items_S|]. eapply FV_bind; [exact H1|].
        apply (H2 k (seq_add k v acc)).
      + cbn [length de_rep]. eapply FV_bind; [exact H1|]. eapply FV_bind0; [exact H3|]. apply FV_ret.
    - intros tk tv. apply ev_now. intros n k acc. apply FV_ret.
    - intros tk tv x y es b1 b2 b3 _ IH1 _ IH2 _ IH3. revert IH3. revert IH1 IH2. intros I1 I2.
      assert (I12 := ev_map2 _ _ (fun n => FV (DE n tk) b1 x /\ FV (DE n tv) b2 y) (fun n a b => conj a b) I1 I2). clear I1 I2.
      revert I12. apply ev_map2. intros n [H1 H2] H3 k acc. cbn [length].
      eapply FV_ext; [intro o; apply loop_entries_S|]. eapply FV_bind; [exact H1|]. eapply FV_bind; [exact H2|].
      apply (H3 k (map_add k x y acc)).
    - apply ev_now. intro n. apply FV_ret.
    - intros t ts v ws b1 b2 _ IH1 _ IH2. revert IH1 IH2. apply ev_map2. intros n H1 H2. cbn [de_tys].
      eapply FV_bind; [exact H1|]. eapply FV_bind0; [exact H2|]. apply FV_ret.
    - apply ev_now. intro n. apply FV_ret.
    - intros f fs ws bs Hf _ IH. revert IH. apply ev_map. intros n IH. cbn [de_fields]. rewrite Hf. cbn [andb].
      apply (FV_bind _ _ [] bs (f_tydefault f)); [apply FV_ret|]. eapply FV_bind0; [exact IH|]. apply FV_ret.
    - intros f fs v ws b1 b2 Hf _ IH1 _ IH2. revert IH1 IH2. apply ev_map2. intros n H1 H2. cbn [de_fields]. rewrite Hf. cbn [andb].
      eapply FV_bind; [exact H1|]. eapply FV_bind0; [exact H2|]. apply FV_ret.
  Qed.

  (** ** Forwards, the rest *)
  Lemma FX_room_seq {A} k t n (f : unit -> bm A) o rest o' x : room_seq c k t n -> FX (f tt) o rest o' x ->
    FX (bbind (match k with SVec | SHSet => with_capacity c t n | _ => bret tt end) f) o rest o' x.
  Proof.
    intros Hr H. apply (FX_bind2 _ _ [] tt); [|rewrite lenN_nil, N.add_0_r; exact H]. destruct k; cbn [room_seq] in Hr; try apply FV_ret;
      unfold with_capacity; destruct (N.leb_spec n (alloc_max c t)); try lia; apply FV_ret.
  Qed.
  Lemma FX_room_map {A} k t n (f : unit -> bm A) o rest o' x : room_map c k t n -> FX (f tt) o rest o' x ->
    FX (bbind (match k with MHash => with_capacity c t n | MBTree => bret tt end) f) o rest o' x.
  Proof.
    intros Hr H. apply (FX_bind2 _ _ [] tt); [|rewrite lenN_nil, N.add_0_r; exact H]. destruct k; cbn [room_map] in Hr; try apply FV_ret;
      unfold with_capacity; destruct (N.leb_spec n (alloc_max c t)); try lia; apply FV_ret.
  Qed.
  Lemma FX_tys de ts1 t ts2 bs ws o rest o' x : FV (de_tys de ts1) bs ws -> FX (de t) (o + lenN bs) rest o' x ->
    FX (de_tys de (ts1 ++ t :: ts2)) o (bs ++ rest) o' x.
  Proof.
    intros H1 H2. eapply FX_ext; [intro; apply de_tys_app|]. eapply FX_bind2; [exact H1|]. apply FX_bind1. cbn [de_tys].
    apply FX_bind1. exact H2.
  Qed.

  Lemma FX_str_wrap o lb rest n : count_is c lb n -> usize_mod c <= o + 8 + n ->
    FX (rd_str c d) o (lb ++ rest) (o + 8) (Panics (if overflow_checks c then POverflow else PSlice)).
  Proof.
    intros Hl Hn. unfold rd_str. eapply FX_bind2; [apply FV_usize, Hl|]. rewrite (count_len _ _ Hl). intro Ha.
    apply (body_wrap n (o + 8) rest (count_lt _ _ Hl) Ha Hn).
  Qed.
  Lemma FX_str_short o lb rest n : count_is c lb n -> o + 8 + n < usize_mod c -> lenN rest < n ->
    FX (rd_str c d) o (lb ++ rest) (o + 8) (Fails {| e_o := o + 8; e_msg := ELength 1 (o + lenN (lb ++ rest)) |}).
  Proof.
    intros Hl Hn Hr. unfold rd_str. eapply FX_bind2; [apply FV_usize, Hl|]. rewrite lenN_app, (count_len _ _ Hl), N.add_assoc. intro Ha.
    apply (body_short n (o + 8) rest Ha Hn Hr).
  Qed.
  Lemma FX_str_utf8 o lb bs rest : count_is c lb (lenN bs) -> (forall s, Forall scalar s -> utf8_enc s <> bs) ->
    FX (rd_str c d) o (lb ++ bs ++ rest) (o + 8) (Fails {| e_o := o + 8; e_msg := ELength (lenN bs) (o + lenN (lb ++ bs ++ rest)) |}).
  Proof.
    intros Hl Hs. unfold rd_str. eapply FX_bind2; [apply FV_usize, Hl|]. rewrite (lenN_app lb), (count_len _ _ Hl), N.add_assoc. intro Ha.
    assert (E := body_at bs (o + 8) rest Ha). destruct (utf8_dec bs) as [s|] eqn:Ed; [|exact E].
    exfalso. assert (Hbs := at_bytes _ _ _ Ha). destruct (utf8_dec_sound bs s Hbs Ed) as [H1 H2]. eapply Hs; eauto.
  Qed.

  Lemma spelled_ev t v bs : spells c G t v bs -> V_ t v bs.
  Proof. apply forward_v. Qed.

  Theorem forward_x t o rest o' x : stops c G t o rest o' x -> ev (fun n => FX (DE n t) o rest o' x).
  Proof.
    destruct forward_v as (Fv & Fi & Fe & Fp & Ff).
    induction 1.
    - apply ev_S, ev_now. intro n. inversion H; subst; cbn [de_bin].
      + destruct k; cbn [ik_bytes] in *; (apply FX_map, FX_fixed || apply FX_map, FX_usize); try assumption; cbn; lia.
      + apply FX_map, FX_fixed; [lia|assumption].
      + apply FX_map, FX_fixed; [lia|assumption].
      + apply FX_map, FX_fixed; [lia|assumption].
      + apply FX_map. unfold rd_str. apply FX_bind1, FX_usize; assumption.
      + apply FX_bind1, FX_fixed; [lia|assumption].
      + apply FX_bind1, FX_usize; assumption.
      + apply FX_bind1, FX_usize; assumption.
      + unfold rd_dur. apply FX_bind1, FX_fixed; [lia|assumption].
      + unfold rd_time. apply FX_bind1, FX_fixed; [lia|assumption].
      + rewrite H1. apply FX_bind1, FX_fixed; [lia|assumption].
    - apply ev_S, ev_now. intro m. apply FX_map, (FX_str_wrap _ _ _ n); assumption.
    - apply ev_S, ev_now. intro m. apply FX_map, (FX_str_short _ _ _ n); assumption.
    - apply ev_S, ev_now. intro m. apply FX_map, FX_str_utf8; assumption.
    - apply ev_S. revert IHstops. apply ev_map. intros n IH. cbn [de_bin].
      apply (FX_bind2 _ _ [1] [1]); [apply FV_fixed; [lia|apply len1]|]. cbn [of_le N.mul N.add N.eqb Pos.eqb]. apply FX_map. rewrite len1. exact IH.
    - apply ev_S, ev_now. intro m. cbn [de_bin]. eapply FX_bind2; [apply FV_usize, H|]. rewrite (count_len _ _ H). apply FX_bind1.
      destruct k; cbn [room_seq] in H0; try tauto; unfold with_capacity; destruct (N.leb_spec n (alloc_max c t)); try lia; intro; reflexivity.
    - apply ev_S. assert (I := Fi _ _ _ H2). unfold V_items in I. revert I IHstops. apply ev_map2. intros m [I _] IH. cbn [de_bin].
      eapply FX_bind2; [apply FV_usize, H|]. rewrite (count_len _ _ H). apply FX_room_seq; [assumption|]. apply FX_map.
      eapply FX_ext; [intro; apply de_items_loop|].
      replace (N.to_nat n) with (length ws + S (N.to_nat n - length ws - 1))%nat by (unfold lenN in *; lia).
      eapply FX_ext; [intro; apply loop_items_app|]. eapply FX_bind2; [apply I|].
      eapply FX_ext; [intro; apply loop_items_S|]. apply FX_bind1. exact IH.
    - apply ev_S, ev_now. intro m. cbn [de_bin]. eapply FX_bind2; [apply FV_usize, H|]. rewrite (count_len _ _ H). apply FX_bind1.
      destruct k; cbn [room_map] in H0; try tauto; unfold with_capacity; destruct (N.leb_spec n (alloc_max c tk)); try lia; intro; reflexivity.
    - apply ev_S. assert (I := Fe _ _ _ _ H2). unfold V_entries in I. revert I IHstops. apply ev_map2. intros m I IH. cbn [de_bin].
      eapply FX_bind2; [apply FV_usize, H|]. rewrite (count_len _ _ H). apply FX_room_map; [assumption|]. apply FX_map.
      eapply FX_ext; [intro; apply de_entries_loop|].
      replace (N.to_nat n) with (length es + S (N.to_nat n - length es - 1))%nat by (unfold lenN in *; lia).
      eapply FX_ext; [intro; apply loop_entries_app|]. eapply FX_bind2; [apply I|].
      eapply FX_ext; [intro; apply loop_entries_S|]. apply FX_bind1. exact IH.
    - apply ev_S. assert (I := Fe _ _ _ _ H2). assert (J := Fv _ _ _ H3). unfold V_entries in I. unfold V_ in J.
      assert (IJ := ev_map2 _ _ (fun m => (forall k acc, FV (loop_entries (DE m tk) (DE m tv) k (length es) acc) bs (map_of k es acc)) /\ FV (DE m tk) b1 y) (fun m a b => conj a b) I J).
      clear I J. revert IJ IHstops. apply ev_map2. intros m [I J] IH. cbn [de_bin].
      eapply FX_bind2; [apply FV_usize, H|]. rewrite (count_len _ _ H). apply FX_room_map; [assumption|]. apply FX_map.
      eapply FX_ext; [intro; apply de_entries_loop|].
      replace (N.to_nat n) with (length es + S (N.to_nat n - length es - 1))%nat by (unfold lenN in *; lia).
      eapply FX_ext; [intro; apply loop_entries_app|]. eapply FX_bind2; [apply I|].
      eapply FX_ext; [intro; apply loop_entries_S|]. eapply FX_bind2; [apply J|]. apply FX_bind1. exact IH.
    - apply ev_S. assert (I := Fi _ _ _ H0). unfold V_items in I. revert I IHstops. apply ev_map2. intros m [_ I] IH. cbn [de_bin].
      apply FX_map. replace n with (length ws + S (n - length ws - 1))%nat by lia.
      eapply FX_ext; [intro; apply de_rep_app|]. eapply FX_bind2; [apply I|]. apply FX_bind1. cbn [de_rep]. apply FX_bind1. exact IH.
    - apply ev_S. assert (I := Fp _ _ _ H). unfold V_parts in I. revert I IHstops. apply ev_map2. intros m I IH. cbn [de_bin].
      apply FX_map. eapply FX_tys; eassumption.
    - apply ev_S. exact IHstops.
    - apply ev_S, ev_now. intro m. cbn [de_bin]. unfold rd_dur. eapply FX_bind2; [apply FV_fixed; [lia|exact H]|]. rewrite H.
      apply FX_bind1, FX_fixed; [lia|assumption].
    - apply ev_S, ev_now. intro m. cbn [de_bin]. unfold rd_dur. apply num_of in H0 as [<- L].
      eapply FX_bind2; [apply FV_fixed; [lia|exact H]|]. eapply FX_bind2; [apply FV_fixed; [lia|exact L]|]. cbv zeta.
      destruct (N.ltb_spec 1000000000 (of_le nb)); [|lia]. rewrite H, L. intro Ha. replace (o + 8 + N.of_nat 4) with (o + 12) by lia. reflexivity.
    - apply ev_S, ev_now. intro m. cbn [de_bin]. unfold rd_dur. apply num_of in H as [E1 L1]. apply num_of in H0 as [E2 L2].
      eapply FX_bind2; [apply FV_fixed; [lia|exact L1]|]. eapply FX_bind2; [apply FV_fixed; [lia|exact L2]|]. cbv zeta.
      rewrite E1, E2, L1, L2. intro Ha. replace (o + N.of_nat 8 + N.of_nat 4) with (o + 12) by lia. reflexivity.
    - apply ev_S. revert IHstops. intros [N IH]. exists N. intros n Hn. cbn [de_bin]. unfold rd_time.
      apply (FX_bind2 _ _ [1] [1]); [apply FV_fixed; [lia|apply len1]|]. cbn [of_le N.mul N.add N.eqb Pos.eqb]. apply FX_bind1. rewrite len1.
      specialize (IH (S n) ltac:(lia)). exact IH.
    - apply ev_S, ev_now. intro m. cbn [de_bin]. unfold rd_time. inversion H; subst.
      apply (FX_bind2 _ _ [1] [1]); [apply FV_fixed; [lia|apply len1]|]. cbn [of_le N.mul N.add N.eqb Pos.eqb]. rewrite len1.
      eapply FX_bind2; [eapply FV_dur; eassumption|]. cbv beta iota. destruct (N.leb_spec s (time_max c)); [lia|]. intro; reflexivity.
    - apply ev_S. revert IHstops. apply ev_map. intros m IH. cbn [de_bin]. apply FX_map, IH.
    - apply ev_S. assert (I := Ff _ _ _ H1). unfold V_fields in I. revert I IHstops. apply ev_map2. intros m I IH. cbn [de_bin]. rewrite H.
      apply FX_map. eapply FX_ext; [intro; apply de_fields_app|]. eapply FX_bind2; [exact I|]. apply FX_bind1. cbn [de_fields]. rewrite H0. cbn [andb].
      apply FX_bind1. exact IH.
    - apply ev_S. assert (I := Fp _ _ _ H2). unfold V_parts in I. revert I IHstops. apply ev_map2. intros m I IH. cbn [de_bin]. rewrite H, H0.
      apply FX_map. eapply FX_ext; [intro; apply de_fields_tys; auto|]. rewrite H1. eapply FX_tys; eassumption.
    - apply ev_S. revert IHstops. apply ev_map. intros m IH. cbn [de_bin]. rewrite H. apply FX_map, IH.
    - apply ev_S, ev_now. intro m. cbn [de_bin]. rewrite H. apply num_of in H0 as [<- L].
      eapply FX_bind2; [apply FV_fixed; [lia|exact L]|]. cbv zeta. rewrite H1. rewrite L. intro; reflexivity.
    - apply ev_S. assert (I := Fp _ _ _ H3). unfold V_parts in I. revert I IHstops. apply ev_map2. intros m I IH. cbn [de_bin]. rewrite H.
      apply num_of in H0 as [<- L]. eapply FX_bind2; [apply FV_fixed; [lia|exact L]|]. cbv zeta. rewrite H1, L.
      eapply FX_ext; [intro; apply de_variant_tys|]. apply FX_map. rewrite H2. eapply FX_tys; eassumption.
    - apply ev_S, ev_now. intro m. cbn [de_bin]. rewrite H. intro; reflexivity.
    - apply ev_S, ev_now. intro m. cbn [de_bin]. rewrite H, H0. intro; reflexivity.
  Qed.

  (** ** Backwards *)
  Definition B_ (n : nat) : Prop := forall t, Inv (DE n t) (fun v bs => spells c G t v bs) (fun o rest o' x => stops c G t o rest o' x).

  Lemma Inv_room_seq k t n : Inv (match k with SVec | SHSet => with_capacity c t n | _ => bret tt end)
    (fun _ bs => bs = [] /\ room_seq c k t n) (fun o rest o' x => ~ room_seq c k t n /\ o' = o /\ x = Panics PCapacity).
  Proof.
    intros o rest _. unfold with_capacity, bret, bfail. destruct k; cbn [room_seq].
    all: try (destruct (N.leb_spec n (alloc_max c t))).
    all: try (exists [], rest; rewrite lenN_nil, N.add_0_r; auto; fail).
    all: split; [lia | auto].
  Qed.
  Lemma Inv_room_map k t n : Inv (match k with MHash => with_capacity c t n | MBTree => bret tt end)
    (fun _ bs => bs = [] /\ room_map c k t n) (fun o rest o' x => ~ room_map c k t n /\ o' = o /\ x = Panics PCapacity).
  Proof.
    intros o rest _. unfold with_capacity, bret, bfail. destruct k; cbn [room_map].
    all: try (destruct (N.leb_spec n (alloc_max c t))).
    all: try (exists [], rest; rewrite lenN_nil, N.add_0_r; auto; fail).
    all: split; [lia | auto].
  Qed.

  Lemma Inv_str : Inv (rd_str c d) (fun s bs => spells c G TStr (VStr s) bs) (fun o rest o' x => stops c G TStr o rest o' x).
  Proof.
    intros o rest Ha. unfold rd_str, bbind. assert (H := Inv_usize o rest Ha). destruct (rd_usize c d o) as [o1 [n|e|p|]]; auto.
    - destruct H as (lb & r & -> & -> & Hl). change (match body n (o + lenN lb) with
        | (o', Ok a) => exists bs post, lb ++ r = bs ++ post /\ o' = o + lenN bs /\ spells c G TStr (VStr a) bs
        | (o', Err e) => stops c G TStr o (lb ++ r) o' (Fails e) | (o', Panic p) => stops c G TStr o (lb ++ r) o' (Panics p) | (_, NoFuel) => True end).
      assert (Ha' := at_app _ _ _ Ha). assert (L8 := count_len _ _ Hl). rewrite L8 in *.
      destruct (N.lt_ge_cases (o + 8 + n) (usize_mod c)) as [Hw|Hw].
      + destruct (N.lt_ge_cases (lenN r) n) as [Hr|Hr].
        * rewrite (body_short n (o + 8) r Ha' Hw Hr). rewrite <- L8, <- N.add_assoc, <- lenN_app, L8. apply (x_str_short c G o lb r n); assumption.
        * destruct (cut n r Hr) as (bs & post & -> & <-). rewrite (body_at bs (o + 8) post Ha').
          destruct (utf8_dec bs) as [s|] eqn:Ed.
          -- assert (Hbs := at_bytes _ _ _ Ha'). destruct (utf8_dec_sound bs s Hbs Ed) as [H1 H2]. exists (lb ++ bs), post.
             rewrite <- app_assoc. split; [reflexivity|]. rewrite lenN_app, L8. split; [lia|]. rewrite <- H2. constructor; [exact H1 | rewrite H2; exact Hl].
          -- rewrite <- L8, <- (N.add_assoc o), <- lenN_app, L8. apply (x_str_utf8 c G o lb bs post Hl). intros s Hs E. rewrite <- E, utf8_dec_enc in Ed by exact Hs. discriminate.
      + rewrite (body_wrap n (o + 8) r (count_lt _ _ Hl) Ha' Hw). apply (x_str_wrap c G o lb r n); assumption.
    - destruct H as (H & -> & E). injection E as ->. apply x_head; [constructor | exact H].
    - destruct H as (H & -> & E). discriminate E.
  Qed.

  Lemma Inv_dur : Inv (rd_dur c d) (fun v bs => exists s ns, v = VDur s ns /\ spells c G TDur v bs) (fun o rest o' x => stops c G TDur o rest o' x).
  Proof.
    unfold rd_dur.
    eapply Inv_weak.
    { apply (Inv_bind _ _ _ _ (fun bs v b => exists nb s ns, b = nb /\ v = VDur s ns /\ lenN nb = 4 /\ bytes_ok nb /\ dur_is (of_le bs) (of_le nb) s ns)
        (fun bs o rest o' x => short_at 4 o rest o' x \/ exists nb r, rest = nb ++ r /\ lenN nb = 4 /\ bytes_ok nb /\ o' = o + 4 /\
           (1000000000 < of_le nb /\ x = Fails {| e_o := o + 4; e_msg := ERange |} \/ of_le nb = 1000000000 /\ 2 ^ 64 <= of_le bs + 1 /\ x = Panics PDuration)) (Inv_fixed 8 ltac:(lia))).
      intro bs. eapply Inv_weak.
      { apply (Inv_bind _ _ _ _ (fun nb v b => b = [] /\ exists s ns, v = VDur s ns /\ dur_is (of_le bs) (of_le nb) s ns)
          (fun nb o rest o' x => o' = o /\ (1000000000 < of_le nb /\ x = Fails {| e_o := o; e_msg := ERange |} \/
             of_le nb = 1000000000 /\ 2 ^ 64 <= of_le bs + 1 /\ x = Panics PDuration)) (Inv_fixed 4 ltac:(lia))).
        intros nb o rest Ha. cbv zeta. unfold duration_new. destruct (N.ltb_spec 1000000000 (of_le nb)); [auto|].
        destruct (N.ltb_spec (of_le nb) 1000000000).
        { exists [], rest. rewrite lenN_nil, N.add_0_r. split; [reflexivity|]. split; [reflexivity|]. split; [reflexivity|]. exists (of_le bs), (of_le nb). split; [reflexivity|]. left. auto. }
        assert (E : of_le nb = 1000000000) by lia. rewrite E. change (1000000000 / 1000000000) with 1. change (1000000000 mod 1000000000) with 0.
        destruct (N.ltb_spec (of_le bs + 1) (2 ^ 64)).
        { exists [], rest. rewrite lenN_nil, N.add_0_r. split; [reflexivity|]. split; [reflexivity|]. split; [reflexivity|]. exists (of_le bs + 1), 0. split; [reflexivity|]. right. auto. }
        cbn [bfail]. auto 8. }
      - intros v b (nb & b1 & b2 & -> & (-> & L & Hy) & -> & s & ns & -> & Hdur). rewrite app_nil_r. exists b1, s, ns. auto 6.
      - intros o rest o' x _ [H | (a & b1 & r' & -> & (-> & L & Hy) & -> & H)]; [left; exact H|]. right. exists b1, r'. rewrite L in *. auto 8. }
    - intros v bs (a & b1 & b2 & -> & (-> & L & Hy) & nb & s & ns & -> & -> & L' & Hy' & Hdur). exists s, ns. split; [reflexivity|].
      apply (s_dur c G (of_le b1) (of_le nb)); [apply of_num; assumption | apply of_num; assumption | exact Hdur].
    - intros o rest o' x _ [(H & -> & ->) | (a & b1 & r' & -> & (-> & L & Hy) & H)].
      { apply x_head; [constructor | exact H]. }
      rewrite L in H. destruct H as [(H & -> & ->) | (nb & r & -> & L' & Hy' & -> & [(H & ->)|(H & H' & ->)])].
      + apply x_dur_short; assumption.
      + replace (o + 8 + 4) with (o + 12) by lia. apply (x_dur_range c G o b1 nb (of_le nb)); [exact L | apply of_num; assumption | exact H].
      + replace (o + 8 + 4) with (o + 12) by lia. assert (N8 := of_num 8 b1 Hy L). assert (N4 := of_num 4 nb Hy' L'). rewrite H in N4.
        assert (E : of_le b1 = 2 ^ 64 - 1). { destruct N8 as [_ X]. change (256 ^ N.of_nat 8) with (2 ^ 64) in X. lia. } rewrite E in N8.
        apply x_dur_carry; assumption.
  Qed.

  Lemma Inv_loop_items t (m : bm val) k n : Inv m (fun v bs => spells c G t v bs) (fun o rest o' x => stops c G t o rest o' x) ->
    forall acc, Inv (loop_items m k n acc)
      (fun l bs => exists ws, length ws = n /\ l = seq_of k ws acc /\ spells_items c G t ws bs)
      (fun o rest o' x => exists ws bs r, rest = bs ++ r /\ (length ws < n)%nat /\ spells_items c G t ws bs /\ stops c G t (o + lenN bs) r o' x).
  Proof.
    intro Hm. induction n as [|n IH]; intro acc.
    - eapply Inv_weak; [apply (Inv_ret acc)| |]; [|intros ? ? ? ? ? []]. intros a bs [-> ->]. exists []. repeat split. constructor.
    - eapply Inv_ext; [intro; apply loop_items_S|].
      eapply Inv_weak; [apply (Inv_bind _ _ _ _ _ _ Hm (fun v => IH (seq_add k v acc)))| |]; cbv beta.
      + intros l bs (v & b1 & b2 & -> & Hv & ws & L & -> & Hws). exists (v :: ws). split; [cbn; lia|]. split; [reflexivity|]. constructor; assumption.
      + intros o rest o' x _ [H | (v & b1 & r' & -> & Hv & ws & bs & r & -> & L & Hws & Hs)].
        * exists [], [], rest. rewrite lenN_nil, N.add_0_r. split; [reflexivity|]. split; [cbn; lia|]. split; [constructor | exact H].
        * exists (v :: ws), (b1 ++ bs), r. rewrite <- app_assoc, lenN_app, N.add_assoc. split; [reflexivity|]. split; [cbn; lia|]. split; [constructor; assumption | exact Hs].
  Qed.
  Lemma Inv_rep n t : B_ n -> forall k, Inv (de_rep (DE n) k t)
      (fun ws bs => length ws = k /\ spells_items c G t ws bs)
      (fun o rest o' x => exists ws bs r, rest = bs ++ r /\ (length ws < k)%nat /\ spells_items c G t ws bs /\ stops c G t (o + lenN bs) r o' x).
  Proof.
    intros Hn. induction k as [|k IH].
    - eapply Inv_weak; [apply (Inv_ret [])| |]; [|intros ? ? ? ? ? []]. intros a bs [-> ->]. split; [reflexivity | constructor].
    - cbn [de_rep]. eapply Inv_weak; [apply (Inv_bind _ _ _ _ _ _ (Hn t) (fun v => Inv_bind _ _ _ _ _ _ IH (fun r => Inv_ret (v :: r))))| |]; cbv beta.
      + intros l bs (v & b1 & b2 & -> & Hv & ws & b3 & b4 & -> & (L & Hws) & -> & ->). rewrite app_nil_r. split; [cbn; lia|]. constructor; assumption.
      + intros o rest o' x _ [H | (v & b1 & r' & -> & Hv & [(ws & bs & r & -> & L & Hws & Hs) | (? & ? & ? & _ & _ & [])])].
        * exists [], [], rest. rewrite lenN_nil, N.add_0_r. split; [reflexivity|]. split; [cbn; lia|]. split; [constructor | exact H].
        * exists (v :: ws), (b1 ++ bs), r. rewrite <- app_assoc, lenN_app, N.add_assoc. split; [reflexivity|]. split; [cbn; lia|]. split; [constructor; assumption | exact Hs].
  Qed.
  Lemma Inv_loop_entries tk tv (mk mv : bm val) k n : Inv mk (fun v bs => spells c G tk v bs) (fun o rest o' x => stops c G tk o rest o' x) ->
    Inv mv (fun v bs => spells c G tv v bs) (fun o rest o' x => stops c G tv o rest o' x) ->
    forall acc, Inv (loop_entries mk mv k n acc)
      (fun l bs => exists es, length es = n /\ l = map_of k es acc /\ spells_entries c G tk tv es bs)
      (fun o rest o' x => exists es bs r, rest = bs ++ r /\ (length es < n)%nat /\ spells_entries c G tk tv es bs /\
         (stops c G tk (o + lenN bs) r o' x \/ exists y b1 r', r = b1 ++ r' /\ spells c G tk y b1 /\ stops c G tv (o + lenN bs + lenN b1) r' o' x)).
  Proof.
    intros Hk Hv. induction n as [|n IH]; intro acc.
    - eapply Inv_weak; [apply (Inv_ret acc)| |]; [|intros ? ? ? ? ? []]. intros a bs [-> ->]. exists []. repeat split. constructor.
    - eapply Inv_ext; [intro; apply loop_entries_S|].
      eapply Inv_weak; [apply (Inv_bind _ _ _ _ _ _ Hk (fun x => Inv_bind _ _ _ _ _ _ Hv (fun y => IH (map_add k x y acc))))| |]; cbv beta.
      + intros l bs (x & b1 & b2 & -> & Hx & y & b3 & b4 & -> & Hy & es & L & -> & Hes). exists ((x, y) :: es). split; [cbn; lia|]. split; [reflexivity|]. constructor; assumption.
      + intros o rest o' x _ [H | (v & b1 & r' & -> & Hx & [H | (y & b2 & r2 & -> & Hy & es & bs & r & -> & L & Hes & Hs)])].
        * exists [], [], rest. rewrite lenN_nil, N.add_0_r. split; [reflexivity|]. split; [cbn; lia|]. split; [constructor | left; exact H].
        * exists [], [], (b1 ++ r'). rewrite lenN_nil, N.add_0_r. split; [reflexivity|]. split; [cbn; lia|]. split; [constructor | right]. exists v, b1, r'. auto.
        * exists ((v, y) :: es), (b1 ++ b2 ++ bs), r. rewrite <- !app_assoc, !lenN_app, !N.add_assoc. split; [reflexivity|]. split; [cbn; lia|]. split; [constructor; assumption | exact Hs].
  Qed.
  Lemma Inv_tys n : B_ n -> forall ts, Inv (de_tys (DE n) ts) (fun ws bs => spells_parts c G ts ws bs)
      (fun o rest o' x => exists ts1 t ts2 ws bs r, ts = ts1 ++ t :: ts2 /\ rest = bs ++ r /\ spells_parts c G ts1 ws bs /\ stops c G t (o + lenN bs) r o' x).
  Proof.
    intros Hn. induction ts as [|t ts IH].
    - eapply Inv_weak; [apply (Inv_ret [])| |]; [|intros ? ? ? ? ? []]. intros a bs [-> ->]. constructor.
    - cbn [de_tys]. eapply Inv_weak; [apply (Inv_bind _ _ _ _ _ _ (Hn t) (fun v => Inv_bind _ _ _ _ _ _ IH (fun r => Inv_ret (v :: r))))| |]; cbv beta.
      + intros l bs (v & b1 & b2 & -> & Hv & ws & b3 & b4 & -> & Hws & -> & ->). rewrite app_nil_r. constructor; assumption.
      + intros o rest o' x _ [H | (v & b1 & r' & -> & Hv & [(ts1 & t' & ts2 & ws & bs & r & -> & -> & Hws & Hs) | (? & ? & ? & _ & _ & [])])].
        * exists [], t, ts, [], [], rest. rewrite lenN_nil, N.add_0_r. repeat split; [constructor | exact H].
        * exists (t :: ts1), t', ts2, (v :: ws), (b1 ++ bs), r. rewrite <- app_assoc, lenN_app, N.add_assoc. repeat split; [constructor; assumption | exact Hs].
  Qed.
  Lemma Inv_fields n : B_ n -> forall fs, Inv (de_fields (DE n) true fs) (fun ws bs => spells_fields c G fs ws bs)
      (fun o rest o' x => exists fs1 f fs2 ws bs r, fs = fs1 ++ f :: fs2 /\ f_skip f = false /\ rest = bs ++ r /\ spells_fields c G fs1 ws bs /\ stops c G (f_ty f) (o + lenN bs) r o' x).
  Proof.
    intros Hn. induction fs as [|f fs IH].
    - eapply Inv_weak; [apply (Inv_ret [])| |]; [|intros ? ? ? ? ? []]. intros a bs [-> ->]. constructor.
    - cbn [de_fields]. destruct (f_skip f) eqn:Ef; cbn [andb].
      + eapply Inv_weak; [apply (Inv_bind _ _ _ _ _ _ (Inv_ret (f_tydefault f)) (fun v => Inv_bind _ _ _ _ _ _ IH (fun r => Inv_ret (v :: r))))| |]; cbv beta.
        * intros l bs (v & b1 & b2 & -> & (-> & ->) & ws & b3 & b4 & -> & Hws & -> & ->). rewrite app_nil_r. cbn [app]. constructor; assumption.
        * intros o rest o' x _ [[] | (v & b1 & r' & -> & (-> & ->) & [(fs1 & f' & fs2 & ws & bs & r & -> & Hf' & -> & Hws & Hs) | (? & ? & ? & _ & _ & [])])].
          rewrite lenN_nil, N.add_0_r in Hs. exists (f :: fs1), f', fs2, (f_tydefault f :: ws), bs, r. repeat split; [exact Hf' | constructor; assumption | exact Hs].
      + eapply Inv_weak; [apply (Inv_bind _ _ _ _ _ _ (Hn (f_ty f)) (fun v => Inv_bind _ _ _ _ _ _ IH (fun r => Inv_ret (v :: r))))| |]; cbv beta.
        * intros l bs (v & b1 & b2 & -> & Hv & ws & b3 & b4 & -> & Hws & -> & ->). rewrite app_nil_r. constructor; assumption.
        * intros o rest o' x _ [H | (v & b1 & r' & -> & Hv & [(fs1 & f' & fs2 & ws & bs & r & -> & Hf' & -> & Hws & Hs) | (? & ? & ? & _ & _ & [])])].
          -- exists [], f, fs, [], [], rest. rewrite lenN_nil, N.add_0_r. repeat split; [exact Ef | constructor | exact H].
          -- exists (f :: fs1), f', fs2, (v :: ws), (b1 ++ bs), r. rewrite <- app_assoc, lenN_app, N.add_assoc. repeat split; [exact Hf' | constructor; assumption | exact Hs].
  Qed.

  Lemma head_stop t w o rest o' x : head G t w -> short_at w o rest o' x -> stops c G t o rest o' x.
  Proof. intros H (H1 & -> & ->). apply x_head; assumption. Qed.
  Lemma one_byte (bs : list N) : lenN bs = 1 -> bs = [of_le bs].
  Proof. intro H. destruct bs as [|x [|y r]]; try discriminate H; [|rewrite !lenN_cons in H; lia]. rewrite of_le1. reflexivity. Qed.
  Lemma one_byte_1 (bs : list N) : lenN bs = 1 -> of_le bs = 1 -> bs = [1].
  Proof. intros H E. rewrite (one_byte bs H), E. reflexivity. Qed.

  Theorem backward n : B_ n.
  Proof.
    induction n as [|n IH]; intro t; [intros o rest _; exact I|].
    destruct t as [k| | | | | |t|k t|k tk tv|m t|ts|t| | |p t|i].
    - destruct (match k with Usize => true | _ => false end) eqn:Ek.
      + destruct k; try discriminate Ek. cbn [de_bin]. eapply Inv_weak; [apply Inv_map, Inv_usize| |]; cbv beta.
        * intros v bs (a & -> & H). constructor. exact H.
        * intros o rest o' x _. apply head_stop. apply (h_int G Usize).
      + assert (Hk : k <> Usize) by (intros ->; discriminate Ek).
        apply (Inv_ext _ (bmap (fun b => VZ (of_bits k (of_le b))) (rd_fixed c d (N.of_nat (ik_bytes k))))); [destruct k; try congruence; reflexivity|].
        eapply Inv_weak; [apply Inv_map, Inv_fixed; destruct k; cbn; lia| |]; cbv beta.
        * intros v bs (a & -> & -> & L & Hy). destruct (of_int c k bs Hk Hy L). constructor; assumption.
        * intros o rest o' x _. apply head_stop. constructor.
    - cbn [de_bin]. eapply Inv_weak; [apply Inv_map, Inv_fixed; lia| |]; cbv beta.
      + intros v bs (a & -> & -> & L & Hy). constructor. apply of_num; assumption.
      + intros o rest o' x _. apply head_stop. constructor.
    - cbn [de_bin]. eapply Inv_weak; [apply Inv_map, Inv_fixed; lia| |]; cbv beta.
      + intros v bs (a & -> & -> & L & Hy). constructor. apply of_num; assumption.
      + intros o rest o' x _. apply head_stop. constructor.
    - cbn [de_bin]. eapply Inv_weak; [apply Inv_map, Inv_fixed; lia| |]; cbv beta.
      + intros v bs (a & -> & -> & L & Hy). rewrite (one_byte bs L) at 2. destruct (N.eqb_spec (of_le bs) 0) as [E|E]; [rewrite E; constructor | constructor; exact E].
      + intros o rest o' x _. apply head_stop. constructor.
    - cbn [de_bin]. eapply Inv_weak; [apply Inv_map, Inv_str| |]; cbv beta; [|auto]. intros v bs (s & -> & H). exact H.
    - cbn [de_bin]. eapply Inv_weak; [apply (Inv_ret VUnit)| |]; [|intros ? ? ? ? ? []]. intros a bs [-> ->]. constructor.
    - cbn [de_bin]. eapply Inv_weak.
      { apply (Inv_bind _ _ _ _ (fun b v bs => of_le b = 1 /\ (exists a, v = VSome a /\ spells c G t a bs) \/ of_le b <> 1 /\ v = VNone /\ bs = [])
          (fun b o rest o' x => of_le b = 1 /\ stops c G t o rest o' x) (Inv_fixed 1 ltac:(lia))).
        intro b. destruct (N.eqb_spec (of_le b) 1) as [E|E].
        - eapply Inv_weak; [apply Inv_map, IH| |]; cbv beta; auto.
        - eapply Inv_weak; [apply (Inv_ret VNone)| |]; cbv beta; [|tauto]. intros a bs [-> ->]. auto. }
      + cbv beta. intros v bs (b & b1 & b2 & -> & (-> & L & Hy) & [(E & a & -> & H)|(E & -> & ->)]).
        * rewrite (one_byte_1 b1 L E). apply (s_some c G t a b2). exact H.
        * rewrite app_nil_r, (one_byte b1 L). constructor. exact E.
      + cbv beta. intros o rest o' x _ [H | (b & b1 & r' & -> & (-> & L & Hy) & E & H)].
        * eapply head_stop; [|exact H]. constructor.
        * rewrite L in H. rewrite (one_byte_1 b1 L E). apply (x_some c G t o r'). exact H.
    - cbn [de_bin]. eapply Inv_weak.
      { apply (Inv_bind _ _ _ _ (fun m v bs => exists ws, lenN ws = m /\ room_seq c k t m /\ v = VSeq (seq_of k ws []) /\ spells_items c G t ws bs)
          (fun m o rest o' x => ~ room_seq c k t m /\ o' = o /\ x = Panics PCapacity \/
             room_seq c k t m /\ exists ws bs r, rest = bs ++ r /\ lenN ws < m /\ spells_items c G t ws bs /\ stops c G t (o + lenN bs) r o' x) Inv_usize).
        intro m. eapply Inv_weak.
        { apply (Inv_bind _ _ _ _ _ _ (Inv_room_seq k t m) (fun _ => Inv_map VSeq _ _ _ (Inv_ext _ _ _ _ (fun o => de_items_loop (DE n) k t m o) (Inv_loop_items t (DE n t) k (N.to_nat m) (IH t) [])))). }
        - cbv beta. intros v bs (_ & b1 & b2 & -> & (-> & Hr) & l & -> & ws & L & -> & H). exists ws. split; [unfold lenN; lia|]. auto.
        - cbv beta. intros o rest o' x _ [H | (_ & b1 & r' & -> & (-> & Hr) & ws & bs & r & -> & L & Hw & H)]; [left; exact H|]. right. split; [exact Hr|].
          rewrite lenN_nil, N.add_0_r in H. exists ws, bs, r. split; [reflexivity|]. split; [unfold lenN; lia|]. auto. }
      + cbv beta. intros v bs (m & b1 & b2 & -> & Hl & ws & <- & Hr & -> & H). constructor; assumption.
      + cbv beta. intros o rest o' x _ [H | (m & b1 & r' & -> & Hl & [(Hr & -> & ->)|(Hr & ws & bs & r & -> & L & Hw & H)])].
        * eapply head_stop; [|exact H]. constructor.
        * rewrite (count_len _ _ Hl). apply (x_seq_room c G k t o b1 r' m); assumption.
        * rewrite (count_len _ _ Hl) in H. apply (x_seq c G k t o b1 m ws bs r); assumption.
    - cbn [de_bin]. eapply Inv_weak.
      { apply (Inv_bind _ _ _ _ (fun m v bs => exists es, lenN es = m /\ room_map c k tk m /\ v = VMap (map_of k es []) /\ spells_entries c G tk tv es bs)
          (fun m o rest o' x => ~ room_map c k tk m /\ o' = o /\ x = Panics PCapacity \/
             room_map c k tk m /\ exists es bs r, rest = bs ++ r /\ lenN es < m /\ spells_entries c G tk tv es bs /\
               (stops c G tk (o + lenN bs) r o' x \/ exists y b1 r', r = b1 ++ r' /\ spells c G tk y b1 /\ stops c G tv (o + lenN bs + lenN b1) r' o' x)) Inv_usize).
        intro m. eapply Inv_weak.
        { apply (Inv_bind _ _ _ _ _ _ (Inv_room_map k tk m) (fun _ => Inv_map VMap _ _ _ (Inv_ext _ _ _ _ (fun o => de_entries_loop (DE n) k tk tv m o) (Inv_loop_entries tk tv (DE n tk) (DE n tv) k (N.to_nat m) (IH tk) (IH tv) [])))). }
        - cbv beta. intros v bs (_ & b1 & b2 & -> & (-> & Hr) & l & -> & es & L & -> & H). exists es. split; [unfold lenN; lia|]. auto.
        - cbv beta. intros o rest o' x _ [H | (_ & b1 & r' & -> & (-> & Hr) & es & bs & r & -> & L & Hw & H)]; [left; exact H|]. right. split; [exact Hr|].
          rewrite lenN_nil, N.add_0_r in H. exists es, bs, r. split; [reflexivity|]. split; [unfold lenN; lia|]. auto. }
      + cbv beta. intros v bs (m & b1 & b2 & -> & Hl & es & <- & Hr & -> & H). constructor; assumption.
      + cbv beta. intros o rest o' x _ [H | (m & b1 & r' & -> & Hl & [(Hr & -> & ->)|(Hr & es & bs & r & -> & L & Hw & [H|(y & b2 & r2 & -> & Hy & H)])])].
        * eapply head_stop; [|exact H]. constructor.
        * rewrite (count_len _ _ Hl). apply (x_map_room c G k tk tv o b1 r' m); assumption.
        * rewrite (count_len _ _ Hl) in H. apply (x_map_key c G k tk tv o b1 m es bs r); assumption.
        * rewrite (count_len _ _ Hl) in H. apply (x_map_val c G k tk tv o b1 m es bs y b2 r2); assumption.
    - cbn [de_bin]. eapply Inv_weak; [apply Inv_map, (Inv_rep n t IH)| |]; cbv beta.
      + intros v bs (ws & -> & L & H). constructor; assumption.
      + intros o rest o' x _ (ws & bs & r & -> & L & H & Hs). apply (x_arr c G m t o ws bs r); assumption.
    - cbn [de_bin]. eapply Inv_weak; [apply Inv_map, (Inv_tys n IH)| |]; cbv beta.
      + intros v bs (ws & -> & H). constructor; assumption.
      + intros o rest o' x _ (ts1 & t & ts2 & ws & bs & r & -> & -> & H & Hs). apply (x_tup c G ts1 t ts2 o ws bs r); assumption.
    - cbn [de_bin]. eapply Inv_weak; [apply IH| |]; cbv beta; [intros; constructor; assumption | intros; apply x_box; assumption].
    - cbn [de_bin]. eapply Inv_weak; [apply Inv_dur| |]; cbv beta; [|auto]. intros v bs (s & ns & _ & H). exact H.
    - cbn [de_bin]. unfold rd_time. eapply Inv_weak.
      { apply (Inv_bind _ _ _ _ (fun b v bs => of_le b = 1 /\ (exists s ns, v = VTime (Z.of_N s) ns /\ s <= time_max c /\ spells c G TDur (VDur s ns) bs) \/ of_le b <> 1 /\ v = VTime 0 0 /\ bs = [])
          (fun b o rest o' x => of_le b = 1 /\ (stops c G TDur o rest o' x \/ exists s ns bs r, rest = bs ++ r /\ spells c G TDur (VDur s ns) bs /\ time_max c < s /\ o' = o + lenN bs /\ x = Panics PTime)) (Inv_fixed 1 ltac:(lia))).
        intro b. destruct (N.eqb_spec (of_le b) 1) as [E|E].
        - eapply Inv_weak.
          { apply (Inv_bind _ _ _ _ (fun v w bs => bs = [] /\ exists s ns, v = VDur s ns /\ w = VTime (Z.of_N s) ns /\ s <= time_max c)
              (fun v o rest o' x => match v with VDur s ns => time_max c < s /\ o' = o /\ x = Panics PTime | _ => True end) Inv_dur).
            intros v o rest _. destruct v; try (cbn; auto; fail). destruct (N.leb_spec secs (time_max c)); cbn [bret bfail]; [|auto].
            exists [], rest. rewrite lenN_nil, N.add_0_r. eauto 10. }
          + cbv beta. intros w bs (v & b1 & b2 & -> & (s & ns & -> & H) & -> & s' & ns' & Es & -> & Hs). injection Es as <- <-. rewrite app_nil_r. left. eauto 8.
          + cbv beta. intros o rest o' x _ [H | (v & b1 & r' & -> & (s & ns & -> & H) & Ht & -> & ->)]; [auto|]. split; [exact E|]. right. exists s, ns, b1, r'. auto.
        - eapply Inv_weak; [apply (Inv_ret (VTime 0 0))| |]; cbv beta; [|tauto]. intros a bs [-> ->]. auto. }
      + cbv beta. intros v bs (b & b1 & b2 & -> & (-> & L & Hy) & [(E & s & ns & -> & Hs & H)|(E & -> & ->)]).
        * rewrite (one_byte_1 b1 L E). apply (s_time c G s ns b2); assumption.
        * rewrite app_nil_r, (one_byte b1 L). constructor. exact E.
      + cbv beta. intros o rest o' x _ [H | (b & b1 & r' & -> & (-> & L & Hy) & E & [H|(s & ns & bs & r & -> & H & Ht & -> & ->)])].
        * eapply head_stop; [|exact H]. constructor.
        * rewrite L in H. rewrite (one_byte_1 b1 L E). apply (x_time c G o r'). exact H.
        * rewrite L. rewrite (one_byte_1 b1 L E). apply (x_time_late c G s ns o bs r); assumption.
    - cbn [de_bin]. eapply Inv_weak; [apply Inv_map, IH| |]; cbv beta.
      + intros v bs (a & -> & H). constructor. exact H.
      + intros o rest o' x _ H. apply x_proxy. exact H.
    - cbn [de_bin]. destruct (nth_error G i) as [[df nl fs|tr fs|vs|p t]|] eqn:Ei.
      + eapply Inv_weak; [apply Inv_map, (Inv_fields n IH)| |]; cbv beta.
        * intros v bs (ws & -> & H). eapply s_struct; eassumption.
        * intros o rest o' x _ (fs1 & f & fs2 & ws & bs & r & -> & Hf & -> & H & Hs). eapply x_struct; eassumption.
      + destruct (existsb f_skip fs) eqn:Es.
        * eapply Inv_weak; [apply Inv_panic| |]; cbv beta; [tauto|]. intros o rest o' x _ [-> ->]. eapply x_tuple_skip; eassumption.
        * eapply Inv_weak; [apply Inv_map, (Inv_ext _ _ _ _ (fun o => de_fields_tys (DE n) true fs o (or_intror Es)) (Inv_tys n IH (map f_ty fs)))| |]; cbv beta.
          -- intros v bs (ws & -> & H). eapply s_tuple; eassumption.
          -- intros o rest o' x _ (ts1 & t & ts2 & ws & bs & r & Et & -> & H & Hs). eapply x_tuple; eassumption.
      + eapply Inv_weak.
        { apply (Inv_bind _ _ _ _ (fun b v bs => exists vr ws, nth_error vs (N.to_nat (of_le b)) = Some vr /\ v = VEnum (of_le b) ws /\ spells_parts c G (body_tys (v_body vr)) ws bs)
            (fun b o rest o' x => nth_error vs (N.to_nat (of_le b)) = None /\ o' = o /\ x = Fails {| e_o := 0; e_msg := EDiscriminant (of_le b) |} \/
               exists vr ts1 t ts2 ws bs r, nth_error vs (N.to_nat (of_le b)) = Some vr /\ body_tys (v_body vr) = ts1 ++ t :: ts2 /\ rest = bs ++ r /\ spells_parts c G ts1 ws bs /\ stops c G t (o + lenN bs) r o' x)
            (Inv_fixed 2 ltac:(lia))).
          intro b. cbv zeta. destruct (nth_error vs (N.to_nat (of_le b))) as [vr|] eqn:Ev.
          - eapply Inv_ext; [intro; apply de_variant_tys|]. eapply Inv_weak; [apply Inv_map, (Inv_tys n IH)| |]; cbv beta.
            + intros v bs (ws & -> & H). exists vr, ws. auto.
            + intros o rest o' x _ (ts1 & t & ts2 & ws & bs & r & Et & -> & H & Hs). right. exists vr, ts1, t, ts2, ws, bs, r. auto 6.
          - eapply Inv_weak; [apply Inv_err| |]; cbv beta; [tauto|]. intros o rest o' x _ [-> ->]. left. auto. }
        * cbv beta. intros v bs (b & b1 & b2 & -> & (-> & L & Hy) & vr & ws & Ev & -> & H). eapply s_enum; [exact Ei | apply of_num; assumption | exact Ev | exact H].
        * cbv beta. intros o rest o' x _ [H | (b & b1 & r' & -> & (-> & L & Hy) & [(Ev & -> & ->)|(vr & ts1 & t & ts2 & ws & bs & r & Ev & Et & -> & H & Hs)])].
          -- eapply head_stop; [|exact H]. econstructor. exact Ei.
          -- rewrite L. eapply x_tag; [exact Ei | apply of_num; assumption | exact Ev].
          -- rewrite L in Hs. eapply x_enum; [exact Ei | apply of_num; assumption | exact Ev | exact Et | exact H | exact Hs].
      + eapply Inv_weak; [apply Inv_map, IH| |]; cbv beta.
        * intros v bs (a & -> & H). eapply s_dproxy; eassumption.
        * intros o rest o' x _ H. eapply x_dproxy; eassumption.
      + eapply Inv_weak; [apply Inv_panic| |]; cbv beta; [tauto|]. intros o rest o' x _ [-> ->]. apply x_undeclared. exact Ei.
  Qed.
End Acc.
