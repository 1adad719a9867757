(** Concrete settings used by the examples beside the theorems on text. *)
From Verif Require Import Base Utf8 Types BinModel Text TextModel TextLex SpecText PropsBin.
Local Open Scope N_scope.

(** A float printing that meets the assumptions [flt_ok]: the bit pattern in
    decimal followed by ".0". *)
Definition toy_show (b : N) : str := dec b ++ chars ".0".
Definition toy : flt := {|
  f64_parse := fun s =>
    match take_while is_digit s with [] => None | d => Some (digits_val d) end;
  f64_show := toy_show;
  f32_show := toy_show;
  f64_of_z := Z.to_N;
  f32_of_f64 := fun b => b
|}.
Lemma toy_text b : float_text (toy_show b).
Proof.
  exists [], (dec b), (chars ".0"), []. split; [rewrite app_nil_r; reflexivity|].
  split; [left; reflexivity|]. split.
  - split; [apply dec_nonempty|]. pose proof (dec_digits b) as H. rewrite forallb_forall in H. apply Forall_forall.
    intros x Hx. apply H in Hx. unfold is_digit in Hx. apply andb_prop in Hx as [H1 H2].
    apply N.leb_le in H1. apply N.leb_le in H2. lia.
  - split; [apply dec_nozero|]. split; [right; exists (chars "0"); split; [reflexivity|]|].
    + split; [discriminate|]. repeat constructor; discriminate.
    + split; [left; reflexivity|]. left. discriminate.
Qed.
Lemma toy_parse b : f64_parse toy (toy_show b) = Some b.
Proof.
  cbn [f64_parse toy]. unfold toy_show.
  rewrite (take_while_app is_digit (dec b) (chars ".0") (dec_digits b) ltac:(right; reflexivity)).
  destruct (dec b) eqn:E; [apply dec_nonempty in E; contradiction|]. rewrite <- E, dec_val. reflexivity.
Qed.
Lemma toy_ok : flt_ok toy.
Proof.
  split.
  - intros; apply toy_text.
  - intros; apply toy_parse.
  - intros; apply toy_text.
  - intros b _. exists b. split; [apply toy_parse | reflexivity].
Qed.

Definition opt_field (name : str) (t : ty) : field :=
  {| f_name := name; f_rename := None; f_skip := false; f_isopt := true; f_default := None;
     f_tydefault := VNone; f_null := false; f_hasproxy := false; f_ty := TOpt t |}.
Definition renamed (r : str) (f : field) : field :=
  {| f_name := f_name f; f_rename := Some r; f_skip := f_skip f; f_isopt := f_isopt f; f_default := f_default f;
     f_tydefault := f_tydefault f; f_null := f_null f; f_hasproxy := f_hasproxy f; f_ty := f_ty f |}.
Definition defaulted (d : val) (f : field) : field :=
  {| f_name := f_name f; f_rename := f_rename f; f_skip := f_skip f; f_isopt := f_isopt f; f_default := Some d;
     f_tydefault := f_tydefault f; f_null := f_null f; f_hasproxy := f_hasproxy f; f_ty := f_ty f |}.

(** 0: [enum Tree { Leaf, Node(Box<Tree>, u8), Tagged { name: String, w: Option<i8> } }]
    1: [struct Rec { id: i16, #[nserde(skip)] cache: u8, #[nserde(rename = "Tree")] tree: Tree,
                     m: BTreeMap<String, bool>, o: Option<u8>, x: f64,
                     #[nserde(default = "7")] d: u8, at: SystemTime }]
    2: [struct Pair(u8, String)] *)
Definition Gtx : env :=
  [ DEnum [ {| v_name := chars "Leaf"; v_rename := None; v_body := BUnit |};
            {| v_name := chars "Node"; v_rename := None; v_body := BTuple [TBox (TNamed 0); TInt U8] |};
            {| v_name := chars "Tagged"; v_rename := None;
               v_body := BStruct [fld (chars "name") false (VStr []) TStr; opt_field (chars "w") (TInt I8)] |} ];
    DStruct false false
      [ fld (chars "id") false (VZ 0) (TInt I16);
        fld (chars "cache") true (VZ 0) (TInt U8);
        renamed (chars "Tree") (fld (chars "tree") false VUnit (TNamed 0));
        fld (chars "m") false (VMap []) (TMap MBTree TStr TBool);
        opt_field (chars "o") (TInt U8);
        fld (chars "x") false (VF 0) TF64;
        defaulted (VZ 7) (fld (chars "d") false (VZ 0) (TInt U8));
        fld (chars "at") false (VTime 0 0) TTime ];
    DTuple false [fld [] false (VZ 0) (TInt U8); fld [] false (VStr []) TStr] ].
Definition vtx : val :=
  VSeq [VZ (-5); VZ 0; VEnum 1 [VEnum 2 [VStr [233; 34]; VNone]; VZ 7];
        VMap [(VStr (chars "a"), VBool true); (VStr (chars "b"), VBool false)]; VSome (VZ 3); VF 1; VZ 9; VTime 5 6].

Ltac tv_step :=
  match goal with
  | |- text_value ?c ?G ?fm (S ?n) ?t ?v =>
    let m := fresh "m" in let H := fresh "H" in
    remember n as m eqn:H; cbn -[int_ok map_inv seq_inv N.pow N.lt Z.pow Z.le Z.lt looks_none good_name finite64 finite32 field_value]; subst m
  | |- context [Pos.to_nat ?p] => let q := eval vm_compute in (Pos.to_nat p) in
      change (Pos.to_nat p) with q; cbn [nth_error v_body]
  | |- field_value _ _ _ _ _ => unfold field_value; cbn -[text_value looks_none]
  | |- Forall2 _ _ _ => constructor
  | |- Forall _ _ => constructor
  | |- _ /\ _ => split
  | |- NoDup _ => constructor
  | |- ~ In _ _ => cbn; intuition discriminate
  | |- looks_none _ _ _ _ _ = false => vm_compute; reflexivity
  end.
Lemma vtx_typed fm : text_value c64 Gtx fm 6 (TNamed 1) vtx.
Proof.
  unfold vtx.
  repeat tv_step; auto; try reflexivity; try discriminate; try (cbv; intuition congruence).
  all: try (destruct fm; cbn; repeat constructor; cbv; intuition congruence).
  all: try (intros _; destruct fm; cbn; repeat constructor; cbv; intuition congruence).
  all: try (cbn; repeat constructor; fail).
Qed.
