(** C64: serialize_ron writes the document that represents the value.
    C65: what a value written as RON by one program is for another one. *)
From Verif Require Import Base Utf8 Types BinModel TyAll PropsBin Text TextModel TextFuel TextRun TextMain SpecText SpecGram SpecRfc TextEx PropsText PropsRfc Doc SpecDoc PropsDoc SpecShow Show ShowAll Carry PropsShow SpecRon RonDoc PropsRon SpecRonShow RonShow RonShowAll RonCarry.
Local Open Scope N_scope.

Lemma rshows_writes F c G n t v d : flt_ok F -> cfg_ok c -> rshows F c G n t v d -> exists text, writes F c G Ron t v text /\ rdenotes F d text.
Proof.
  intros HF Hc H. destruct (rshows_written F c G HF Hc n t v d H) as (out & E & D). exists out. split; [|exact D].
  apply (ser_text_returns F c G Ron n t v); [exact E | discriminate].
Qed.

(** C64: a value that is shown as the document [d] is written, and what is written is a text of [d]. *)
Theorem C64_written F c G n t v d : flt_ok F -> cfg_ok c -> rshows F c G n t v d ->
  (exists text, writes F c G Ron t v text) /\ forall text, writes F c G Ron t v text -> rdocument F d text.
Proof.
  intros HF Hc H. destruct (rshows_writes F c G n t v d HF Hc H) as (out & W & D). split; [eauto|].
  intros text W'. rewrite (writes_one _ _ _ _ _ _ _ _ W' W). apply rdenotes_document. exact D.
Qed.
(** Every value with a round trip has such a document, and only one. *)
Theorem C64_values F c G t v : text_typed c G Ron t v -> exists n d, rshows F c G n t v d.
Proof. intros [n Hv]. destruct (all_rshown F c G n t v Hv) as [d Hd]. exists n, d. exact Hd. Qed.
Theorem C64_one_document F c G n m t v d d' : rshows F c G n t v d -> rshows F c G m t v d' -> d = d'.
Proof. apply rshows_one. Qed.

(** C65: program 2 reads what program 1 wrote as [v'] exactly if the document carries
    over to [v'] (or, at the top, the name of the variant does). *)
Theorem C65_between_programs F c G c' G' n t v d text t' v' : flt_ok F -> cfg_ok c -> Forall distinct_ron G' ->
  rshows F c G n t v d -> writes F c G Ron t v text ->
  (parses F c' G' Ron t' text (Ok v') <-> rcarries F c G c' G' t v t' v' \/ rcarries_name F c G c' G' t v t' v').
Proof.
  intros HF Hc HG H W. pose proof (proj2 (C64_written F c G n t v d HF Hc H) text W) as D.
  rewrite (C63_ron_document F c' G' t' d text v' HG D). split.
  - intros (m & [M|(w & p & -> & M)]); [left; exists n, m, d; auto | right; exists n, m, w, p; auto].
  - intros [(n1 & m & d1 & A & B)|(n1 & m & w & p & A & B)].
    + rewrite (rshows_one F c G n1 n t v d1 d A H) in B. eauto.
    + exists m. right. exists w, p. split; [eapply rshows_one; eassumption | exact B].
Qed.
Theorem C65_carries F c G c' G' t v t' v' : flt_ok F -> cfg_ok c -> Forall distinct_ron G' -> rcarries F c G c' G' t v t' v' ->
  exists text, writes F c G Ron t v text /\ parses F c' G' Ron t' text (Ok v').
Proof.
  intros HF Hc HG H. pose proof H as (n & m & d & A & B). destruct (rshows_writes F c G n t v d HF Hc A) as (text & W & _).
  exists text. split; [exact W|]. apply (C65_between_programs F c G c' G' n t v d text t' v' HF Hc HG A W). left. exact H.
Qed.
(** The same program on both sides: every value with a round trip carries over to
    itself, and no value is read from the name of a variant alone. *)
Lemma name_other F c G n : forall m t v w p, rshows F c G n t v (RVar w p) -> rmeans F c G m t (RWord w) v -> False.
Proof.
  induction n as [|n IH]; intros m t v w p A B; [contradiction|]. destruct m as [|m]; [contradiction|]. cbn [rshows rmeans] in A, B.
  destruct t as [k| | | | | |t'|k t'|k tk tv|k t'|ts|t'| | |q t'|i]; cbn [rmeans1] in B.
  - destruct B as (s & z & B & _). discriminate.
  - destruct B as (s & z & B & _). discriminate.
  - destruct B as (s & z & B & _). discriminate.
  - destruct B as [(b & B & _)|(s & z & B & _)]; discriminate.
  - destruct B as (s & B & _). discriminate.
  - destruct B as [B _]. discriminate.
  - destruct B as [[B ->]|(_ & u & -> & B)]; cbn [rshows1] in A; [discriminate | eapply IH; eassumption].
  - destruct B as (ds & ws & B & _). discriminate.
  - destruct B as (ds & ws & B & _). discriminate.
  - destruct B as (ds & ws & B & _). discriminate.
  - destruct B as (_ & ds & ws & B & _). discriminate.
  - assert (A' : rshows F c G n t' v (RVar w p)) by (destruct v; exact A). eapply IH; eassumption.
  - destruct B as (s & ns & (es & a & b & B & _) & _). discriminate.
  - destruct v; try contradiction. destruct A as [[_ A]|(_ & _ & a & b & _ & _ & A)]; discriminate.
  - contradiction.
  - cbn [rshows1] in A. destruct (nth_error G i) as [[dflt cn fs|tr fs|vs|q t']|]; try contradiction.
    + destruct B as (ms & l & [[B _]|B] & _); discriminate.
    + destruct B as (_ & _ & ds & ws & B & _). discriminate.
    + destruct B as (tag & vr & Hv & B). destruct (v_body vr) as [|ts|fs] eqn:Eb.
      * destruct B as [_ ->]. rewrite Nat2N.id, Hv, Eb in A. destruct A as (_ & _ & A). discriminate.
      * destruct B as (ds & ws & B & _). discriminate.
      * destruct B as (p0 & ms & ws & B & _). discriminate.
Qed.
Theorem C65_same F c G t v : flt_ok F -> cfg_ok c -> Forall distinct_ron G -> text_typed c G Ron t v -> rcarries F c G c G t v t v.
Proof.
  intros HF Hc HD Hv. destruct (C64_values F c G t v Hv) as (n & d & Hd). destruct (C35_ron_roundtrip F c G t v HF Hc Hv) as (text & W & P).
  apply (C65_between_programs F c G c G n t v d text t v HF Hc HD Hd W) in P as [P|(n1 & m & w & p & A & B)]; [exact P|].
  exfalso. eapply name_other; eassumption.
Qed.

(** ** Changes of a type *)
Section Changes.
  Variables (F : flt) (c : cfg) (G : env) (c' : cfg) (G' : env).
  Notation car := (rcarries F c G c' G').

  (** An integer of another width: any value both types have. *)
  Theorem C65_integer k k' z : k <> U128 -> k <> I128 -> k' <> U128 -> k' <> I128 -> int_ok c k z -> int_ok c' k' z ->
    car (TInt k) (VZ z) (TInt k') (VZ z).
  Proof.
    intros A B A' B' H H'. exists 1%nat, 1%nat, (RNum (dec_z z)). pose proof (dec_literal z) as L. split.
    - split; [exact A|]. split; [exact B|]. split; [exact H|]. exists (dec_z z). auto.
    - exists (dec_z z), z. split; [reflexivity|]. split; [reflexivity|]. split; [exact A'|]. split; [exact B'|]. split; [exact H'|].
      destruct L as (sg & d & -> & Hs & Hd & _ & Hv). exists sg, d. split; [split; [reflexivity|]; split; [destruct Hs as [-> |[-> _]]; auto | exact Hd]|].
      destruct (ik_signed k') eqn:Ek; [auto|]. split; [|auto]. destruct Hs as [-> |[-> Hn]]; [reflexivity|].
      destruct H' as [H' _]. unfold ik_min in H'. rewrite Ek in H'. lia.
  Qed.
  (** [T] becomes [Option<T'>] (unless written as something starting with None). *)
  Theorem C65_to_option t v t' v' : rcarries_full F c G c' G' t v t' v' -> car t v (TOpt t') (VSome v').
  Proof. intros (n & m & d & Hn & A & B). exists n, (S m), d. split; [exact A|]. right. split; [exact Hn|]. exists v'. auto. Qed.
  (** [Option<T>] becomes [T']: every [Some]. *)
  Theorem C65_from_option t v t' v' : car t v t' v' -> car (TOpt t) (VSome v) t' v'.
  Proof. intros (n & m & d & A & B). exists (S n), m, d. auto. Qed.
  Theorem C65_none t t' : car (TOpt t) VNone (TOpt t') VNone.
  Proof. exists 1%nat, 1%nat, (RWord (chars "None")). split; [reflexivity | left; auto]. Qed.
  (** Sequences: Vec, LinkedList, sets (which drop duplicates); not arrays. *)
  Theorem C65_sequence k k' t t' l l' : Forall2 (fun v v' => car t v t' v') l l' ->
    car (TSeq k t) (VSeq l) (TSeq k' t') (VSeq (seq_of k' l' [])).
  Proof. intro H. destruct (rlist_carry _ _ _ _ _ _ _ _ _ H) as (n & m & ds & A & B). exists (S n), (S m), (RList ds). split; [exists ds; auto | exists ds, l'; auto]. Qed.
  Theorem C65_tuple ts l ts' l' : (2 <= length ts <= 4)%nat -> (2 <= length ts' <= 4)%nat -> rtuple_carries F c G c' G' ts l ts' l' ->
    car (TTup ts) (VSeq l) (TTup ts') (VSeq l').
  Proof.
    intros H1 H2 H. destruct (rtuple_carry _ _ _ _ _ _ _ _ _ H) as (n & m & ds & A & B). exists (S n), (S m), (RTup ds).
    split; (split; [assumption|]); [exists ds; auto | exists ds, l'; auto].
  Qed.
  (** An array becomes a tuple, and the other way round. *)
  Lemma tuple_means_list (mean : ty -> rdoc -> val -> Prop) t ds ws : tuple_means mean (repeat t (length ds)) ds ws <-> Forall2 (mean t) ds ws.
  Proof.
    split.
    - revert ws. induction ds as [|d ds IH]; intros ws H; cbn [length repeat] in H; inversion H; subst; constructor; auto.
    - induction 1; cbn [length repeat]; constructor; auto.
  Qed.
  Theorem C65_array_tuple t t' l l' : (2 <= length l <= 4)%nat -> Forall2 (fun v v' => car t v t' v') l l' ->
    car (TArr (length l) t) (VSeq l) (TTup (repeat t' (length l))) (VSeq l').
  Proof.
    intros Hl H. destruct (rlist_carry _ _ _ _ _ _ _ _ _ H) as (n & m & ds & A & B). exists (S n), (S m), (RTup ds).
    assert (E : length ds = length l) by (clear - A; induction A; cbn; auto). split.
    - split; [reflexivity|]. split; [intro X; rewrite X in Hl; lia|]. exists ds. auto.
    - split; [rewrite repeat_length; exact Hl|]. exists ds, l'. split; [reflexivity|]. split; [|reflexivity]. rewrite <- E. apply tuple_means_list. exact B.
  Qed.
  (** Maps; keys of any type. *)
  Theorem C65_map k k' tk tk' tv tv' l l' :
    Forall2 (fun e e' => car tk (fst e) tk' (fst e') /\ car tv (snd e) tv' (snd e')) l l' ->
    car (TMap k tk tv) (VMap l) (TMap k' tk' tv') (VMap (map_of k' l' [])).
  Proof. intro H. destruct (rmap_carry _ _ _ _ _ _ _ _ _ _ _ H) as (n & m & ms & A & B). exists (S n), (S m), (RMap ms). split; [exists ms; auto | exists ms, l'; auto]. Qed.
  Theorem C65_box t v t' v' : car t v t' v' -> car (TBox t) v (TBox t') v' /\ car (TBox t) v t' v' /\ car t v (TBox t') v'.
  Proof.
    intros (n & m & d & A & B). assert (A' : rshows F c G (S n) (TBox t) v d) by (cbn [rshows rshows1]; destruct v; exact A).
    split; [exists (S n), (S m), d; auto|]. split; [exists (S n), m, d; auto | exists n, (S m), d; auto].
  Qed.
  (** A struct whose fields were added (with a default), reordered, renamed in Rust or
      changed in type (but none that was written is gone). *)
  Theorem C65_struct i j dflt cn fs dflt' cn' fs' n l d l' :
    nth_error G i = Some (DStruct dflt cn fs) -> nth_error G' j = Some (DStruct dflt' cn' fs') ->
    distinct_fields fs -> rshows F c G n (TNamed i) (VSeq l) d ->
    rfields_kept f_skip key_of_field fs l fs' ->
    Forall2 (rfield_moved F c G c' G' f_skip key_of_field fs l dflt') fs' l' ->
    car (TNamed i) (VSeq l) (TNamed j) (VSeq l').
  Proof.
    intros Hi Hj Hd Hs Hk Hm. destruct n as [|n]; [contradiction|]. cbn [rshows rshows1] in Hs. pose proof Hs as Hs0. rewrite Hi in Hs. destruct Hs as (ms & -> & Hs).
    destruct (rfields_carry F c G c' G' n _ _ fs l ms dflt' fs' l' Hs Hd Hk Hm) as [m M].
    exists (S n), (S m), (members_rdoc ms). split; [exact Hs0|]. cbn [rmeans rmeans1]. rewrite Hj. exists ms, l'. split; [|auto].
    destruct ms; [left | right]; auto.
  Qed.
  (** ... and it is an error if the new struct lacks a field that was written. *)
  Theorem C65_field_gone i j dflt cn fs dflt' cn' fs' n l d f v v' :
    nth_error G i = Some (DStruct dflt cn fs) -> nth_error G' j = Some (DStruct dflt' cn' fs') ->
    rshows F c G n (TNamed i) (VSeq l) d ->
    In (f, v) (combine fs l) -> f_skip f = false -> ~ (f_isopt f = true /\ v = VNone) ->
    (forall f', In f' fs' -> f_skip f' = false -> key_of_field f' <> key_of_field f) ->
    ~ car (TNamed i) (VSeq l) (TNamed j) v'.
  Proof.
    intros Hi Hj Hs Hin Hsk Hw Hno (n1 & m & d1 & A & B). destruct n1 as [|n1]; [contradiction|]. destruct m as [|m]; [contradiction|].
    cbn [rshows rshows1] in A. rewrite Hi in A. destruct A as (ms & -> & A). cbn [rmeans rmeans1] in B. rewrite Hj in B.
    destruct B as (ms' & vs & Hms & -> & (_ & _ & B)).
    assert (E : ms' = ms) by (destruct ms as [|x ms]; cbn [members_rdoc] in Hms; destruct Hms as [[Q ->]|Q]; congruence). subst ms'.
    destruct (rmember_of_field _ _ _ _ _ _ A _ _ Hin Hsk) as [(e & _ & Hm)|Q]; [|contradiction].
    destruct (B _ _ Hm) as (f' & X & Y & Z). apply (Hno f' X Y Z).
  Qed.
  (** Enums whose variants were reordered, added or removed: by name. *)
  Theorem C65_unit_variant i j vs vs' tag tag' vr vr' :
    nth_error G i = Some (DEnum vs) -> nth_error G' j = Some (DEnum vs') ->
    nth_error vs (N.to_nat tag) = Some vr -> nth_error vs' (N.to_nat tag') = Some vr' ->
    SpecRon.ron_name (key_of_variant Ron vr) -> key_of_variant Ron vr = key_of_variant Ron vr' ->
    v_body vr = BUnit -> v_body vr' = BUnit -> car (TNamed i) (VEnum tag []) (TNamed j) (VEnum tag' []).
  Proof.
    intros Hi Hj Hv Hv' Hn Hk Hb Hb'. exists 1%nat, 1%nat, (RWord (key_of_variant Ron vr)). cbn [rshows rshows1 rmeans rmeans1]. rewrite Hi, Hj, Hv, Hb. split; [auto|].
    exists (N.to_nat tag'), vr'. split; [exact Hv'|]. rewrite Hb', N2Nat.id, Hk. auto.
  Qed.
  Theorem C65_tuple_variant i j vs vs' tag tag' vr vr' ts ts' l l' :
    nth_error G i = Some (DEnum vs) -> nth_error G' j = Some (DEnum vs') ->
    nth_error vs (N.to_nat tag) = Some vr -> nth_error vs' (N.to_nat tag') = Some vr' ->
    SpecRon.ron_name (key_of_variant Ron vr) -> key_of_variant Ron vr = key_of_variant Ron vr' ->
    v_body vr = BTuple ts -> v_body vr' = BTuple ts' -> ts <> [] -> rtuple_carries F c G c' G' ts l ts' l' ->
    car (TNamed i) (VEnum tag l) (TNamed j) (VEnum tag' l').
  Proof.
    intros Hi Hj Hv Hv' Hn Hk Hb Hb' Hne H. destruct (rtuple_carry _ _ _ _ _ _ _ _ _ H) as (n & m & ds & A & B).
    exists (S n), (S m), (RVar (key_of_variant Ron vr) (RTup ds)). cbn [rshows rshows1 rmeans rmeans1]. rewrite Hi, Hj, Hv, Hb. split; [split; [exact Hn|]; split; [exact Hne|]; exists ds; auto|].
    exists (N.to_nat tag'), vr'. split; [exact Hv'|]. rewrite Hb', N2Nat.id, Hk. exists ds, l'. auto.
  Qed.
  Theorem C65_struct_variant i j vs vs' tag tag' vr vr' fs fs' n l d l' :
    nth_error G i = Some (DEnum vs) -> nth_error G' j = Some (DEnum vs') ->
    nth_error vs (N.to_nat tag) = Some vr -> nth_error vs' (N.to_nat tag') = Some vr' ->
    key_of_variant Ron vr = key_of_variant Ron vr' ->
    v_body vr = BStruct fs -> v_body vr' = BStruct fs' -> NoDup (map f_name fs) ->
    rshows F c G n (TNamed i) (VEnum tag l) d ->
    rfields_kept (fun _ => false) f_name fs l fs' ->
    Forall2 (rfield_moved F c G c' G' (fun _ => false) f_name fs l false) fs' l' ->
    car (TNamed i) (VEnum tag l) (TNamed j) (VEnum tag' l').
  Proof.
    intros Hi Hj Hv Hv' Hk Hb Hb' Hd Hs Hke Hm. destruct n as [|n]; [contradiction|]. cbn [rshows rshows1] in Hs. pose proof Hs as Hs0. rewrite Hi, Hv in Hs.
    rewrite Hb in Hs. destruct Hs as (_ & ms & -> & Hs).
    assert (Hd' : NoDup (map f_name (filter (fun f => negb ((fun _ => false) f)) fs))).
    { cbn [negb]. assert (filter (fun _ : field => true) fs = fs) as -> by (clear; induction fs as [|f fs IH]; cbn; congruence). exact Hd. }
    destruct (rfields_carry F c G c' G' n _ _ fs l ms false fs' l' Hs Hd' Hke Hm) as [m M].
    exists (S n), (S m), (RVar (key_of_variant Ron vr) (members_rdoc ms)). split; [exact Hs0|]. cbn [rmeans rmeans1]. rewrite Hj.
    exists (N.to_nat tag'), vr'. split; [exact Hv'|]. rewrite Hb', N2Nat.id, Hk. exists (members_rdoc ms), ms, l'. split; [reflexivity|]. split; [|auto].
    destruct ms; [left | right]; auto.
  Qed.
  (** A variant that lost its contents: at the top the contents are dropped silently. *)
  Theorem C65_contents_dropped i j vs vs' tag tag' vr vr' ts n l d :
    nth_error G i = Some (DEnum vs) -> nth_error G' j = Some (DEnum vs') ->
    nth_error vs (N.to_nat tag) = Some vr -> nth_error vs' (N.to_nat tag') = Some vr' ->
    key_of_variant Ron vr = key_of_variant Ron vr' -> v_body vr = BTuple ts -> v_body vr' = BUnit ->
    rshows F c G n (TNamed i) (VEnum tag l) d -> rcarries_name F c G c' G' (TNamed i) (VEnum tag l) (TNamed j) (VEnum tag' []).
  Proof.
    intros Hi Hj Hv Hv' Hk Hb Hb' Hs. pose proof Hs as Hs0. destruct n as [|n]; [contradiction|]. cbn [rshows rshows1] in Hs. rewrite Hi, Hv, Hb in Hs.
    destruct Hs as (_ & _ & ds & -> & _). exists (S n), 1%nat, (key_of_variant Ron vr), (RTup ds). split; [exact Hs0|].
    cbn [rmeans rmeans1]. rewrite Hj. exists (N.to_nat tag'), vr'. split; [exact Hv'|]. rewrite Hb', N2Nat.id, Hk. auto.
  Qed.
End Changes.

(** *** Examples *)
Example C64_ex : exists n d, rshows toy c64 Gtx n (TNamed 1) vtx d.
Proof. apply C64_values. exists 6%nat. apply vtx_typed. Qed.
Example C65_ex_same : rcarries toy c64 Gtx c64 Gtx (TNamed 1) vtx (TNamed 1) vtx.
Proof. apply C65_same; [apply toy_ok | apply c64_ok | apply Gtx_ron | exists 6%nat; apply vtx_typed]. Qed.
(** Old: [enum Kind { A, B(u8) }], [struct User { id: u32, name: String ("Name"), tags: Vec<String>, kind: Kind }]
    New: [enum Kind { B(i64), C, A }], [struct User { email: Option<String>, user_name: String ("Name"), level: u8 (default 3),
    id: u64, tags: BTreeSet<String>, kind: Option<Kind> }] *)
Definition R1 : env :=
  [ DEnum [ {| v_name := chars "A"; v_rename := None; v_body := BUnit |}; {| v_name := chars "B"; v_rename := None; v_body := BTuple [TInt U8] |} ];
    DStruct false false
      [ fld (chars "id") false (VZ 0) (TInt U32); renamed (chars "Name") (fld (chars "name") false (VStr []) TStr);
        fld (chars "tags") false (VSeq []) (TSeq SVec TStr); fld (chars "kind") false VUnit (TNamed 0) ] ].
Definition R2 : env :=
  [ DStruct false false
      [ opt_field (chars "email") TStr; renamed (chars "Name") (fld (chars "user_name") false (VStr []) TStr);
        defaulted (VZ 3) (fld (chars "level") false (VZ 0) (TInt U8)); fld (chars "id") false (VZ 0) (TInt U64);
        fld (chars "tags") false (VSeq []) (TSeq SBSet TStr); opt_field (chars "kind") (TNamed 1) ];
    DEnum [ {| v_name := chars "B"; v_rename := None; v_body := BTuple [TInt I64] |}; {| v_name := chars "C"; v_rename := None; v_body := BUnit |};
            {| v_name := chars "A"; v_rename := None; v_body := BUnit |} ] ].
Definition w1 : val := VSeq [VZ 7; VStr (chars "Ann"); VSeq [VStr (chars "y"); VStr (chars "x"); VStr (chars "y")]; VEnum 1 [VZ 200]].
Definition w2 : val := VSeq [VNone; VStr (chars "Ann"); VZ 3; VZ 7; VSeq [VStr (chars "x"); VStr (chars "y")]; VSome (VEnum 0 [VZ 200])].
Definition e1 : rdoc := RObj [(chars "id", RNum (chars "7")); (chars "Name", RStr (chars "Ann"));
  (chars "tags", RList [RStr (chars "y"); RStr (chars "x"); RStr (chars "y")]); (chars "kind", RVar (chars "B") (RTup [RNum (chars "200")]))].
Lemma rsh_struct F c G n i dflt cn fs l ms : nth_error G i = Some (DStruct dflt cn fs) ->
  rmembers_shown (rshows F c G n) f_skip key_of_field fs l ms -> rshows F c G (S n) (TNamed i) (VSeq l) (members_rdoc ms).
Proof. intros H X. cbn [rshows rshows1]. rewrite H. eauto. Qed.
Lemma rsh_tvariant F c G n i vs tag vr ts l ds : nth_error G i = Some (DEnum vs) -> nth_error vs (N.to_nat tag) = Some vr -> v_body vr = BTuple ts ->
  SpecRon.ron_name (key_of_variant Ron vr) -> ts <> [] -> tuple_shown (rshows F c G n) ts l ds ->
  rshows F c G (S n) (TNamed i) (VEnum tag l) (RVar (key_of_variant Ron vr) (RTup ds)).
Proof. intros H1 H2 H3 H4 H5 H6. cbn [rshows rshows1]. rewrite H1, H2, H3. eauto. Qed.
Lemma rsh_int F c G n k z s : k <> U128 -> k <> I128 -> int_ok c k z -> dec_z z = s -> rshows F c G (S n) (TInt k) (VZ z) (RNum s).
Proof. intros H1 H2 H3 H4. cbn [rshows rshows1]. split; [exact H1|]. split; [exact H2|]. split; [exact H3|]. subst s. exists (dec_z z). split; [apply dec_literal | reflexivity]. Qed.
Lemma rsh_str F c G n s : rshows F c G (S n) TStr (VStr s) (RStr s). Proof. reflexivity. Qed.
Lemma rsh_seq F c G n k t l ds : Forall2 (rshows F c G n t) l ds -> rshows F c G (S n) (TSeq k t) (VSeq l) (RList ds).
Proof. intro H. exists ds. auto. Qed.
Lemma rsh_plain (sh : ty -> val -> rdoc -> Prop) f v d : f_isopt f = false -> sh (f_ty f) v d -> rfield_shown sh f v d.
Proof. intros H X. unfold rfield_shown. rewrite H. exact X. Qed.
Ltac rname_tac := apply good_ron_name; repeat split; discriminate.
Ltac rmember_tac f := apply (rmsh_member _ f_skip key_of_field f); [reflexivity | rname_tac | apply rsh_plain; [reflexivity|] |].
Lemma w1_shown : rshows toy c64 R1 4 (TNamed 1) w1 e1.
Proof.
  apply (rsh_struct toy c64 R1 3 1 _ _ _ _ [(chars "id", RNum (chars "7")); (chars "Name", RStr (chars "Ann"));
    (chars "tags", RList [RStr (chars "y"); RStr (chars "x"); RStr (chars "y")]); (chars "kind", RVar (chars "B") (RTup [RNum (chars "200")]))] eq_refl).
  rmember_tac (fld (chars "id") false (VZ 0) (TInt U32)).
  { apply rsh_int; [discriminate | discriminate | range_tac | reflexivity]. }
  rmember_tac (renamed (chars "Name") (fld (chars "name") false (VStr []) TStr)). { apply rsh_str. }
  rmember_tac (fld (chars "tags") false (VSeq []) (TSeq SVec TStr)).
  { apply rsh_seq. repeat apply Forall2_cons; try apply Forall2_nil; apply rsh_str. }
  rmember_tac (fld (chars "kind") false VUnit (TNamed 0)); [|constructor].
  apply (rsh_tvariant toy c64 R1 2 0 _ 1 {| v_name := chars "B"; v_rename := None; v_body := BTuple [TInt U8] |} [TInt U8] [VZ 200] [RNum (chars "200")] eq_refl eq_refl eq_refl); [rname_tac | discriminate |].
  constructor; [|constructor]. apply rsh_int; [discriminate | discriminate | range_tac | reflexivity].
Qed.
Lemma rfield_car F c G c' G' f v f' v' : f_isopt f = false -> f_isopt f' && f_hasproxy f' = false -> rcarries F c G c' G' (f_ty f) v (f_ty f') v' ->
  rfield_carries F c G c' G' f v f' v'.
Proof. intros A B (n & m & d & X & Y). exists n, m, d. unfold rfield_shown, field_means. rewrite A, B. auto. Qed.
Lemma rstr_car F c G c' G' s : rcarries F c G c' G' TStr (VStr s) TStr (VStr s).
Proof. exists 1%nat, 1%nat, (RStr s). split; [reflexivity | exists s; auto]. Qed.
Lemma rkind_car : rcarries_full toy c64 R1 c32 R2 (TNamed 0) (VEnum 1 [VZ 200]) (TNamed 1) (VEnum 0 [VZ 200]).
Proof.
  assert (C : rcarries toy c64 R1 c32 R2 (TNamed 0) (VEnum 1 [VZ 200]) (TNamed 1) (VEnum 0 [VZ 200])).
  { eapply (C65_tuple_variant toy c64 R1 c32 R2 0 1 _ _ 1 0 _ _ [TInt U8] [TInt I64]); try reflexivity; [rname_tac | discriminate |].
    constructor; [|constructor]. apply C65_integer; try discriminate; range_tac. }
  destruct C as (n & m & d & A & B). exists n, m, d. split; [|auto]. pose proof A as A0. destruct n; [contradiction|].
  cbn in A. destruct A as (_ & _ & ds & A & _). rewrite A. intros [X|[p X]]; [discriminate|]. injection X as X _. discriminate.
Qed.
Example C65_ex : rcarries toy c64 R1 c32 R2 (TNamed 1) w1 (TNamed 0) w2 /\
  exists text, writes toy c64 R1 Ron (TNamed 1) w1 text /\ parses toy c32 R2 Ron (TNamed 0) text (Ok w2).
Proof.
  assert (C : rcarries toy c64 R1 c32 R2 (TNamed 1) w1 (TNamed 0) w2).
  { assert (N : forall (f : field) (v : val) fs l, In (f, v) (combine fs l) -> In f fs) by (intros f v fs l H; apply in_combine_l in H; exact H).
    eapply (C65_struct toy c64 R1 c32 R2 1 0); [reflexivity | reflexivity | repeat constructor; cbn; intuition discriminate | apply w1_shown | |].
    { intros f v H _ _. apply N in H. cbn in H.
      destruct H as [<-|[<-|[<-|[<-|[]]]]];
      [exists (fld (chars "id") false (VZ 0) (TInt U64)) | exists (renamed (chars "Name") (fld (chars "user_name") false (VStr []) TStr))
      | exists (fld (chars "tags") false (VSeq []) (TSeq SBSet TStr)) | exists (opt_field (chars "kind") (TNamed 1))];
      (split; [cbn; tauto | split; reflexivity]). }
    constructor; [right; split; [reflexivity|]; intros f v H; apply N in H; cbn in H; intuition (subst; discriminate)|].
    constructor.
    { left. eexists _, _. split; [right; left; reflexivity|]. split; [reflexivity|]. split; [reflexivity|]. apply rfield_car; [reflexivity | reflexivity | apply rstr_car]. }
    constructor; [right; split; [reflexivity|]; intros f v H; apply N in H; cbn in H; intuition (subst; discriminate)|].
    constructor.
    { left. eexists _, _. split; [left; reflexivity|]. split; [reflexivity|]. split; [reflexivity|]. apply rfield_car; [reflexivity | reflexivity|].
      apply C65_integer; try discriminate; range_tac. }
    constructor.
    { left. eexists _, _. split; [right; right; left; reflexivity|]. split; [reflexivity|]. split; [reflexivity|]. apply rfield_car; [reflexivity | reflexivity|].
      apply (C65_sequence toy c64 R1 c32 R2 SVec SBSet TStr TStr _ [VStr (chars "y"); VStr (chars "x"); VStr (chars "y")]).
      repeat apply Forall2_cons; try apply Forall2_nil; apply rstr_car. }
    constructor; [|constructor].
    { left. eexists _, _. split; [do 3 right; left; reflexivity|]. split; [reflexivity|]. split; [reflexivity|]. apply rfield_car; [reflexivity | reflexivity|].
      apply C65_to_option, rkind_car. } }
  split; [exact C|]. apply C65_carries; [apply toy_ok | right; reflexivity | repeat constructor; cbn; intuition discriminate | exact C].
Qed.
(** [B(200)] read by a program with [enum Kind { B }]: the 200 is gone. *)
Definition R3 : env := [ DEnum [ {| v_name := chars "B"; v_rename := None; v_body := BUnit |} ];
  DStruct false false [ fld (chars "id") false (VZ 0) (TInt U32) ] ].
Example C65_ex_dropped : rcarries_name toy c64 R1 c64 R3 (TNamed 0) (VEnum 1 [VZ 200]) (TNamed 0) (VEnum 0 []) /\
  exists text, writes toy c64 R1 Ron (TNamed 0) (VEnum 1 [VZ 200]) text /\ parses toy c64 R3 Ron (TNamed 0) text (Ok (VEnum 0 [])).
Proof.
  assert (S : rshows toy c64 R1 3 (TNamed 0) (VEnum 1 [VZ 200]) (RVar (chars "B") (RTup [RNum (chars "200")]))).
  { apply (rsh_tvariant toy c64 R1 2 0 _ 1 {| v_name := chars "B"; v_rename := None; v_body := BTuple [TInt U8] |} [TInt U8] [VZ 200] [RNum (chars "200")] eq_refl eq_refl eq_refl); [rname_tac | discriminate |].
    constructor; [|constructor]. apply rsh_int; [discriminate | discriminate | range_tac | reflexivity]. }
  assert (C : rcarries_name toy c64 R1 c64 R3 (TNamed 0) (VEnum 1 [VZ 200]) (TNamed 0) (VEnum 0 [])).
  { eapply (C65_contents_dropped toy c64 R1 c64 R3 0 0 _ _ 1 0); try reflexivity. apply S. }
  split; [exact C|]. destruct (C64_written toy c64 R1 3 _ _ _ toy_ok c64_ok S) as [[text W] _]. exists text. split; [exact W|].
  apply (C65_between_programs toy c64 R1 c64 R3 3 _ _ _ text (TNamed 0) _ toy_ok c64_ok) with (2 := S) (3 := W); [repeat constructor; cbn; intuition discriminate | right; exact C].
Qed.
(** [User] read by a program with [struct User { id: u32 }]: no value. *)
Example C65_ex_gone v' : ~ rcarries toy c64 R1 c64 R3 (TNamed 1) w1 (TNamed 1) v'.
Proof.
  eapply (C65_field_gone toy c64 R1 c64 R3 1 1) with (f := fld (chars "kind") false VUnit (TNamed 0)); [reflexivity | reflexivity | apply w1_shown | right; right; right; left; reflexivity | reflexivity | intros [X _]; discriminate |].
  intros f' [<-|[]] _. discriminate.
Qed.
