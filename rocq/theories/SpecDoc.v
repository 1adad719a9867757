(** Specification side of "a JSON text is read as the document it denotes": JSON
    documents as trees, the texts that denote them, and what a document means for
    a type.  Nothing here refers to the model of the parsers. *)
From Verif Require Import Base Utf8 Types BinModel Text SpecText SpecGram.
Local Open Scope N_scope.

(** ** Documents *)
(** A number is kept as its literal; the members of an object in order. *)
Inductive doc :=
| JNull | JBool (b : bool) | JNum (s : str) | JStr (s : str)
| JArr (l : list doc) | JObj (ms : list (str * doc)).

(** ** The texts of a document: the grammar of RFC 8259 (as [json] of SpecGram.v,
    with comments allowed as space, and the numbers this library has a token for) *)
Section Texts.
  Variable F : flt.
  Inductive denotes : doc -> str -> Prop :=
  | dn_null : denotes JNull (chars "null")
  | dn_true : denotes (JBool true) (chars "true")
  | dn_false : denotes (JBool false) (chars "false")
  | dn_num s : number_ok F s -> denotes (JNum s) s
  | dn_str b s : chars_of b s -> denotes (JStr s) (quoted b)
  | dn_arr0 g : gap g -> denotes (JArr []) (91 :: g ++ [93])
  | dn_arr l s : elements_of l s -> denotes (JArr l) (91 :: s ++ [93])
  | dn_obj0 g : gap g -> denotes (JObj []) (123 :: g ++ [125])
  | dn_obj ms s : members_of ms s -> denotes (JObj ms) (123 :: s ++ [125])
  with elements_of : list doc -> str -> Prop :=
  | eo_one a d x b : gap a -> denotes d x -> gap b -> elements_of [d] (a ++ x ++ b)
  | eo_more a d x b l s : gap a -> denotes d x -> gap b -> elements_of l s -> elements_of (d :: l) (a ++ x ++ b ++ [44] ++ s)
  with members_of : list (str * doc) -> str -> Prop :=
  | mo_one a k kb b c d x e : gap a -> chars_of kb k -> gap b -> gap c -> denotes d x -> gap e ->
      members_of [(k, d)] (a ++ quoted kb ++ b ++ [58] ++ c ++ x ++ e)
  | mo_more a k kb b c d x e ms s : gap a -> chars_of kb k -> gap b -> gap c -> denotes d x -> gap e -> members_of ms s ->
      members_of ((k, d) :: ms) (a ++ quoted kb ++ b ++ [58] ++ c ++ x ++ e ++ [44] ++ s).
  (** ... with space around. *)
  Definition document (d : doc) (text : str) : Prop :=
    exists g1 x g2, text = g1 ++ x ++ g2 /\ gap g1 /\ gap g2 /\ denotes d x.
End Texts.
Scheme denotes_mind := Minimality for denotes Sort Prop
  with elements_of_mind := Minimality for elements_of Sort Prop
  with members_of_mind := Minimality for members_of Sort Prop.
Combined Scheme denotes_mutind from denotes_mind, elements_of_mind, members_of_mind.

(** ** What a document means for a type *)
(** The literal [sg d] of an integer and its value. *)
Definition signed_value (sg d : str) : Z := match sg with [] => Z.of_N (decimal d) | _ => - Z.of_N (decimal d) end%Z.
Definition int_literal (s sg d : str) : Prop := s = sg ++ d /\ (sg = [] \/ sg = [45]) /\ all_digits d.
(** The integer of type [k] a literal stands for: its value, which must be in the
    range of [k]; no sign for unsigned types.  Two defects of the library (see C19):
    literals from 2^63 up are reduced into the range of a signed type; usize
    takes any literal (below 2^64) modulo 2^32 or 2^64. *)
Definition int_means (c : cfg) (k : ik) (s : str) (z : Z) : Prop :=
  k <> U128 /\ k <> I128 /\ int_ok c k z /\
  exists sg d, int_literal s sg d /\
    if ik_signed k then
      signed_value sg d = z \/
      (2 ^ 63 <= signed_value sg d)%Z /\ exists q, (signed_value sg d = z + q * 2 ^ (8 * Z.of_nat (ik_bytes k)))%Z
    else sg = [] /\
      (signed_value sg d = z \/
       k = Usize /\ exists q, (signed_value sg d = z + q * 2 ^ Z.of_N (usize_bits c))%Z).
(** The double a number stands for: what the standard library parses from the
    literal, or, without fraction and exponent, converts from the integer. *)
Definition double_means (F : flt) (s : str) (b : N) : Prop :=
  exists sg ip fr ex, s = sg ++ ip ++ fr ++ ex /\ number_parts sg ip fr ex /\
    (fr = [] -> ex = [] -> b = f64_of_z F (signed_value sg ip)) /\
    (fr <> [] \/ ex <> [] -> f64_parse F s = Some b).
(** A duration: [secs], and [nanos] before it or after it or not at all; 10^9
    nanoseconds are a second. *)
Definition nat_means (s : str) (n : N) : Prop := all_digits s /\ n = decimal s.
Definition dur_members (ms : list (str * doc)) (a b : N) : Prop :=
  exists sa sb, nat_means sa a /\ (ms = [(chars "secs", JNum sa)] /\ b = 0 \/
    nat_means sb b /\ (ms = [(chars "secs", JNum sa); (chars "nanos", JNum sb)] \/
                       ms = [(chars "nanos", JNum sb); (chars "secs", JNum sa)])).
Definition dur_means (d : doc) (s ns : N) : Prop :=
  exists ms a b, d = JObj ms /\ dur_members ms a b /\ a < 2 ^ 64 /\
    (b < 1000000000 /\ s = a /\ ns = b \/ b = 1000000000 /\ s = a + 1 /\ a + 1 < 2 ^ 64 /\ ns = 0).

(** *** Structs *)
Section Fields.
  (** (For documents of any format.) *)
  Context {doc : Type}.
  Variable mean : ty -> doc -> val -> Prop.
  (** (The proxy of an [Option] field is applied to the contents: C16.) *)
  Definition field_means (f : field) (d : doc) (v : val) : Prop :=
    if f_isopt f && f_hasproxy f then exists w, v = VSome w /\ mean (f_ty f) d w else mean (f_ty f) d v.
  (** The last member named [k] is [d]. *)
  Definition last_named (k : str) (d : doc) (ms : list (str * doc)) : Prop :=
    exists pre post, ms = pre ++ (k, d) :: post /\ ~ In k (map fst post).
  (** The default of a field that is not in the document, if it may be missing. *)
  Definition absent_value (dflt : bool) (f : field) : option val :=
    match f_default f with
    | Some d => Some d
    | None => if f_isopt f || dflt then Some (f_tydefault f) else None
    end.
  Definition field_from (dflt : bool) (ms : list (str * doc)) (f : field) (v : val) : Prop :=
    if f_skip f then v = omitted_value f
    else (exists d, last_named (key_of_field f) d ms /\ field_means f d v) \/
         (~ In (key_of_field f) (map fst ms) /\ absent_value dflt f = Some v).
  (** Every member that names a field means something for that field (also one that
      a later member replaces); the others are ignored, but a struct without fields
      has no members. *)
  Definition fields_means (dflt : bool) (fs : list field) (ms : list (str * doc)) (vs : list val) : Prop :=
    Forall2 (field_from dflt ms) fs vs /\
    (forall k d f, In (k, d) ms -> In f fs -> f_skip f = false -> key_of_field f = k -> exists w, field_means f d w) /\
    (fs = [] -> ms = []).
  (** The elements of a tuple. *)
  Inductive tuple_means : list ty -> list doc -> list val -> Prop :=
  | tm_nil : tuple_means [] [] []
  | tm_cons t d v ts ds vs : mean t d v -> tuple_means ts ds vs -> tuple_means (t :: ts) (d :: ds) (v :: vs).
End Fields.

Fixpoint means (F : flt) (c : cfg) (G : env) (n : nat) (t : ty) (d : doc) (v : val) {struct n} : Prop :=
  match n with
  | O => False
  | S n' =>
    let mean := means F c G n' in
    match t with
    | TInt k => exists s z, d = JNum s /\ v = VZ z /\ int_means c k s z
    | TF32 => exists s b, d = JNum s /\ v = VF (f32_of_f64 F b) /\ double_means F s b
    | TF64 => exists s b, d = JNum s /\ v = VF b /\ double_means F s b
    | TBool => exists b, d = JBool b /\ v = VBool b
    | TStr => exists s, d = JStr s /\ v = VStr s
    | TUnit => d = JNull /\ v = VUnit
    | TOpt t' => d = JNull /\ v = VNone \/ d <> JNull /\ exists w, v = VSome w /\ mean t' d w
    (* the elements (the entries) are inserted one after the other *)
    | TSeq k t' => exists ds ws, d = JArr ds /\ Forall2 (mean t') ds ws /\ v = VSeq (seq_of k ws [])
    | TMap k tk tv => exists ms ws, d = JObj ms /\
        Forall2 (fun m w => mean tk (JStr (fst m)) (fst w) /\ mean tv (snd m) (snd w)) ms ws /\ v = VMap (map_of k ws [])
    | TArr m t' => exists ds ws, d = JArr ds /\ length ds = m /\ Forall2 (mean t') ds ws /\ v = VSeq ws
    | TTup ts => (2 <= length ts <= 4)%nat /\ exists ds ws, d = JArr ds /\ tuple_means mean ts ds ws /\ v = VSeq ws
    | TBox t' => mean t' d v
    | TDur => exists s ns, dur_means d s ns /\ v = VDur s ns
    | TTime => d = JNull /\ v = VTime 0 0 \/
               exists s ns, dur_means d s ns /\ s <= time_max c /\ v = VTime (Z.of_N s) ns
    | TProxy p t' => exists w, mean t' d w /\ v = p_from p w
    | TNamed i =>
      match nth_error G i with
      | Some (DStruct dflt _ fs) => exists ms vs, d = JObj ms /\ v = VSeq vs /\ fields_means mean dflt fs ms vs
      | Some (DTuple tr fs) => existsb f_hasproxy fs = false /\
          match fs, tr with
          | [], _ => d = JObj [] /\ v = VSeq []
          | [f], true => exists w, mean (f_ty f) d w /\ v = VSeq [w]
          | _, _ => exists ds ws, d = JArr ds /\ tuple_means mean (map f_ty fs) ds ws /\ v = VSeq ws
          end
      | Some (DEnum vs) => exists tag vr, nth_error vs tag = Some vr /\
          match v_body vr with
          | BUnit => d = JStr (key_of_variant Json vr) /\ v = VEnum (N.of_nat tag) []
          | BTuple ts => exists ds ws, d = JObj [(key_of_variant Json vr, JArr ds)] /\
              tuple_means mean ts ds ws /\ v = VEnum (N.of_nat tag) ws
          | BStruct fs => exists ms ws, d = JObj [(key_of_variant Json vr, JObj ms)] /\
              fields_means mean false fs ms ws /\ v = VEnum (N.of_nat tag) ws
          end
      | Some (DProxy p t') => exists w, mean t' d w /\ v = p_from p w
      | None => False
      end
    end
  end.

(** The names of the fields of a struct and of the variants of an enum are
    different from one another (otherwise the first one shadows the others). *)
Definition distinct_fields (fs : list field) : Prop :=
  NoDup (map key_of_field (filter (fun f => negb (f_skip f)) fs)).
Definition distinct_names (d : decl) : Prop :=
  match d with
  | DStruct _ _ fs => distinct_fields fs
  | DEnum vs => NoDup (map (key_of_variant Json) vs) /\
      Forall (fun v => match v_body v with BStruct fs => distinct_fields fs | _ => True end) vs
  | _ => True
  end.
