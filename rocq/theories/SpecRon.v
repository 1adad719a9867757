(** Specification side of "a RON text is read as the document it denotes": RON
    documents as trees, the texts that denote them, and what a document means for
    a type.  Nothing here refers to the model of the parsers. *)
From Verif Require Import Base Utf8 Types BinModel Text SpecText SpecGram SpecDoc.
Local Open Scope N_scope.

(** ** Documents *)
(** A number is kept as its literal.  [RWord] is a name alone ([None], a variant
    without fields), [RVar] a name with round brackets after it; [RTup] is what has
    values in round brackets, [RObj] what has [name: value] there (at least one). *)
Inductive rdoc :=
| RBool (b : bool) | RNum (s : str) | RStr (s : str) | RWord (w : str)
| RList (l : list rdoc) | RTup (l : list rdoc) | RObj (ms : list (str * rdoc)) | RMap (es : list (rdoc * rdoc))
| RVar (w : str) (p : rdoc).

(** ** The texts of a document *)
Definition ron_name (w : str) : Prop := ron_word w /\ w <> chars "true" /\ w <> chars "false".
Definition in_parens (d : rdoc) : Prop := match d with RTup _ | RObj _ => True | _ => False end.
Section Texts.
  Variable F : flt.
  Inductive rdenotes : rdoc -> str -> Prop :=
  | rn_true : rdenotes (RBool true) (chars "true")
  | rn_false : rdenotes (RBool false) (chars "false")
  | rn_num s : number_ok F s -> rdenotes (RNum s) s
  | rn_str b s : chars_of b s -> rdenotes (RStr s) (quoted b)
  | rn_word w : ron_name w -> rdenotes (RWord w) w
  | rn_list l s : rseq l s -> rdenotes (RList l) (91 :: s ++ [93])
  | rn_tup l s : rseq l s -> rdenotes (RTup l) (40 :: s ++ [41])
  | rn_obj ms s : ms <> [] -> rmembers ms s -> rdenotes (RObj ms) (40 :: s ++ [41])
  | rn_map es s : rentries es s -> rdenotes (RMap es) (123 :: s ++ [125])
  | rn_var w g p x : ron_name w -> gap g -> in_parens p -> rdenotes p x -> rdenotes (RVar w p) (w ++ g ++ x)
  (** Values separated by commas; a comma may follow the last one. *)
  with rseq : list rdoc -> str -> Prop :=
  | rs_nil g : gap g -> rseq [] g
  | rs_one a d x b : gap a -> rdenotes d x -> gap b -> rseq [d] (a ++ x ++ b)
  | rs_more a d x b l s : gap a -> rdenotes d x -> gap b -> rseq l s -> rseq (d :: l) (a ++ x ++ b ++ [44] ++ s)
  with rmembers : list (str * rdoc) -> str -> Prop :=
  | rm_nil g : gap g -> rmembers [] g
  | rm_one a k b c d x e : gap a -> ron_name k -> gap b -> gap c -> rdenotes d x -> gap e ->
      rmembers [(k, d)] (a ++ k ++ b ++ [58] ++ c ++ x ++ e)
  | rm_more a k b c d x e ms s : gap a -> ron_name k -> gap b -> gap c -> rdenotes d x -> gap e -> rmembers ms s ->
      rmembers ((k, d) :: ms) (a ++ k ++ b ++ [58] ++ c ++ x ++ e ++ [44] ++ s)
  with rentries : list (rdoc * rdoc) -> str -> Prop :=
  | re_nil g : gap g -> rentries [] g
  | re_one a k y b c d x e : gap a -> rdenotes k y -> gap b -> gap c -> rdenotes d x -> gap e ->
      rentries [(k, d)] (a ++ y ++ b ++ [58] ++ c ++ x ++ e)
  | re_more a k y b c d x e ms s : gap a -> rdenotes k y -> gap b -> gap c -> rdenotes d x -> gap e -> rentries ms s ->
      rentries ((k, d) :: ms) (a ++ y ++ b ++ [58] ++ c ++ x ++ e ++ [44] ++ s).
  (** ... with space around. *)
  Definition rdocument (d : rdoc) (text : str) : Prop :=
    exists g1 x g2, text = g1 ++ x ++ g2 /\ gap g1 /\ gap g2 /\ rdenotes d x.
End Texts.
Scheme rdenotes_mind := Minimality for rdenotes Sort Prop
  with rseq_mind := Minimality for rseq Sort Prop
  with rmembers_mind := Minimality for rmembers Sort Prop
  with rentries_mind := Minimality for rentries Sort Prop.
Combined Scheme rdenotes_mutind from rdenotes_mind, rseq_mind, rmembers_mind, rentries_mind.

(** ** What a document means for a type *)
(** A duration is a map: ["secs"], and ["nanos"] before it or after it or not at all. *)
Definition rdur_entries (es : list (rdoc * rdoc)) (a b : N) : Prop :=
  exists sa sb, nat_means sa a /\ (es = [(RStr (chars "secs"), RNum sa)] /\ b = 0 \/
    nat_means sb b /\ (es = [(RStr (chars "secs"), RNum sa); (RStr (chars "nanos"), RNum sb)] \/
                       es = [(RStr (chars "nanos"), RNum sb); (RStr (chars "secs"), RNum sa)])).
Definition rdur_means (d : rdoc) (s ns : N) : Prop :=
  exists es a b, d = RMap es /\ rdur_entries es a b /\ a < 2 ^ 64 /\
    (b < 1000000000 /\ s = a /\ ns = b \/ b = 1000000000 /\ s = a + 1 /\ a + 1 < 2 ^ 64 /\ ns = 0).
(** [None], alone or (for the parser) before brackets. *)
Definition none_headed (d : rdoc) : Prop := d = RWord (chars "None") \/ exists p, d = RVar (chars "None") p.
(** The members of a struct; [()] has none. *)
Definition as_members (d : rdoc) (ms : list (str * rdoc)) : Prop := d = RTup [] /\ ms = [] \/ d = RObj ms.
(** As [fields_means] of SpecDoc.v; but here every member must name a field. *)
Definition rfields_means (mean : ty -> rdoc -> val -> Prop) (dflt : bool) (fs : list field) (ms : list (str * rdoc)) (vs : list val) : Prop :=
  Forall2 (field_from mean dflt ms) fs vs /\
  (forall k d f, In (k, d) ms -> In f fs -> f_skip f = false -> key_of_field f = k -> exists w, field_means mean f d w) /\
  (forall k d, In (k, d) ms -> exists f, In f fs /\ f_skip f = false /\ key_of_field f = k).

(** ... given what the parts of the document mean. *)
Definition rmeans1 (F : flt) (c : cfg) (G : env) (mean : ty -> rdoc -> val -> Prop) (t : ty) (d : rdoc) (v : val) : Prop :=
  match t with
  | TInt k => exists s z, d = RNum s /\ v = VZ z /\ int_means c k s z
  | TF32 => exists s b, d = RNum s /\ v = VF (f32_of_f64 F b) /\ double_means F s b
  | TF64 => exists s b, d = RNum s /\ v = VF b /\ double_means F s b
  (* an integer literal without a sign is accepted as well *)
  | TBool => (exists b, d = RBool b /\ v = VBool b) \/ (exists s n, d = RNum s /\ nat_means s n /\ v = VBool (negb (n =? 0)))
  | TStr => exists s, d = RStr s /\ v = VStr s
  | TUnit => d = RTup [] /\ v = VUnit
  | TOpt t' => d = RWord (chars "None") /\ v = VNone \/ ~ none_headed d /\ exists w, v = VSome w /\ mean t' d w
  (* the elements (the entries) are inserted one after the other *)
  | TSeq k t' => exists ds ws, d = RList ds /\ Forall2 (mean t') ds ws /\ v = VSeq (seq_of k ws [])
  | TMap k tk tv => exists es ws, d = RMap es /\
      Forall2 (fun m w => mean tk (fst m) (fst w) /\ mean tv (snd m) (snd w)) es ws /\ v = VMap (map_of k ws [])
  | TArr m t' => exists ds ws, d = RTup ds /\ length ds = m /\ Forall2 (mean t') ds ws /\ v = VSeq ws
  | TTup ts => (2 <= length ts <= 4)%nat /\ exists ds ws, d = RTup ds /\ tuple_means mean ts ds ws /\ v = VSeq ws
  | TBox t' => mean t' d v
  | TDur => exists s ns, rdur_means d s ns /\ v = VDur s ns
  | TTime => d = RWord (chars "None") /\ v = VTime 0 0 \/
             exists s ns, rdur_means d s ns /\ s <= time_max c /\ v = VTime (Z.of_N s) ns
  | TProxy p t' => False                                   (* does not compile *)
  | TNamed i =>
    match nth_error G i with
    | Some (DStruct dflt _ fs) => exists ms vs, as_members d ms /\ v = VSeq vs /\ rfields_means mean dflt fs ms vs
    | Some (DTuple _ fs) => existsb f_hasproxy fs = false /\ fs <> [] /\
        exists ds ws, d = RTup ds /\ tuple_means mean (map f_ty fs) ds ws /\ v = VSeq ws
    | Some (DEnum vs) => exists tag vr, nth_error vs tag = Some vr /\
        match v_body vr with
        | BUnit => d = RWord (key_of_variant Ron vr) /\ v = VEnum (N.of_nat tag) []
        | BTuple ts => exists ds ws, d = RVar (key_of_variant Ron vr) (RTup ds) /\
            tuple_means mean ts ds ws /\ v = VEnum (N.of_nat tag) ws
        | BStruct fs => exists p ms ws, d = RVar (key_of_variant Ron vr) p /\ as_members p ms /\
            rfields_means mean false fs ms ws /\ v = VEnum (N.of_nat tag) ws
        end
    | Some (DProxy _ _) | None => False                    (* does not compile *)
    end
  end.
(** Some number of such steps. *)
Fixpoint rmeans (F : flt) (c : cfg) (G : env) (n : nat) (t : ty) (d : rdoc) (v : val) {struct n} : Prop :=
  match n with
  | O => False
  | S n' => rmeans1 F c G (rmeans F c G n') t d v
  end.

(** The names of the fields of a struct and of the variants of an enum are
    different from one another (otherwise the first one shadows the others). *)
Definition distinct_ron (d : decl) : Prop :=
  match d with
  | DStruct _ _ fs => distinct_fields fs
  | DEnum vs => NoDup (map (key_of_variant Ron) vs) /\
      Forall (fun v => match v_body v with BStruct fs => distinct_fields fs | _ => True end) vs
  | _ => True
  end.
