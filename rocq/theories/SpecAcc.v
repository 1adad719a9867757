(** Specification side of "which JSON texts are accepted, and as what": for each
    type the sequences of tokens (SpecTok.v) that are taken as a value of it.
    Nothing here refers to the model of the parsers. *)
From Verif Require Import Base Utf8 Types BinModel Text SpecText SpecGram SpecTok SpecDoc.
Local Open Scope N_scope.

(** ** Pieces *)
Definition xcomma := XP 44.
Definition xcolon := XP 58.
(** [ls] with commas in between. *)
Fixpoint commas (ls : list (list lexeme)) : list lexeme :=
  match ls with [] => [] | [x] => x | x :: r => x ++ xcomma :: commas r end.
(** ... and perhaps one more after the last (not in RFC 8259). *)
Definition listed (ls : list (list lexeme)) (xs : list lexeme) : Prop :=
  xs = commas ls \/ ls <> [] /\ xs = commas ls ++ [xcomma].
Definition between (o cl : N) (xs : list lexeme) : list lexeme := XP o :: xs ++ [XP cl].
Definition in_square (xs : list lexeme) := between 91 93 xs.
Definition in_curly (xs : list lexeme) := between 123 125 xs.
(** The tokens of an array with the elements [ls]. *)
Definition array_toks (ls : list (list lexeme)) (xs : list lexeme) : Prop :=
  exists ys, listed ls ys /\ xs = in_square ys.
(** Of an object with named members [ms]. *)
Definition member_toks (m : str * list lexeme) (xs : list lexeme) : Prop :=
  exists b, xs = XS b (fst m) :: xcolon :: snd m.
Definition object_toks (ms : list (str * list lexeme)) (xs : list lexeme) : Prop :=
  exists ls ys, Forall2 member_toks ms ls /\ listed ls ys /\ xs = in_curly ys.
(** Of a map: the keys may be any tokens. *)
Definition entries_toks (es : list (list lexeme * list lexeme)) (xs : list lexeme) : Prop :=
  exists ys, listed (map (fun e => fst e ++ xcolon :: snd e) es) ys /\ xs = in_curly ys.

(** What is skipped as the value of an unknown member: one token, or all up to the
    bracket that closes the first one, brackets of both kinds being counted alike. *)
Definition weight (x : lexeme) : Z :=
  match x with
  | XP c => if (c =? 91) || (c =? 123) then 1 else if (c =? 93) || (c =? 125) then -1 else 0
  | _ => 0
  end.
Fixpoint total (xs : list lexeme) : Z := match xs with [] => 0 | x :: r => weight x + total r end.
Definition ignored (xs : list lexeme) : Prop :=
  (exists x, xs = [x] /\ forall c, x <> XP c) \/
  (exists x r, xs = x :: r /\ (x = XP 91 \/ x = XP 123) /\ total xs = 0%Z /\
     forall p q, xs = p ++ q -> p <> [] -> q <> [] -> (0 < total p)%Z).

(** ** Numbers *)
(** A plus sign is dropped (RFC 8259 has none). *)
Definition unplus (s : str) : str := match s with x :: r => if x =? 43 then r else s | [] => [] end.
Definition int_lit (c : cfg) (k : ik) (s : str) (z : Z) : Prop := int_means c k (unplus s) z.
Definition double_lit (F : flt) (s : str) (b : N) : Prop :=
  (exists sg d, int_literal (unplus s) sg d /\ b = f64_of_z F (signed_value sg d)) \/
  ((In 46 s \/ In 101 s \/ In 69 s) /\ f64_parse F s = Some b).
(** Durations: [secs] once, [nanos] at most once. *)
Definition dur_toks (xs : list lexeme) (s ns : N) : Prop :=
  exists ms a b, object_toks ms xs /\ a < 2 ^ 64 /\
    (exists sa sb, nat_means (unplus sa) a /\ (ms = [(chars "secs", [XN sa])] /\ b = 0 \/
       nat_means (unplus sb) b /\ (ms = [(chars "secs", [XN sa]); (chars "nanos", [XN sb])] \/
                                   ms = [(chars "nanos", [XN sb]); (chars "secs", [XN sa])]))) /\
    (b < 1000000000 /\ s = a /\ ns = b \/ b = 1000000000 /\ s = a + 1 /\ a + 1 < 2 ^ 64 /\ ns = 0).

(** ** Values *)
(** Members that name no field are skipped. *)
Definition others_ignored (fs : list field) (ms : list (str * list lexeme)) : Prop :=
  forall k xs, In (k, xs) ms -> (forall f, In f fs -> f_skip f = false -> key_of_field f <> k) -> ignored xs.

(** [nx] is the string literal that follows the value, if one does: it matters
    only for unit variants, whose name is compared with the string read last
    (defect: the library reads one token ahead before it looks at the name). *)
Fixpoint takes (F : flt) (c : cfg) (G : env) (n : nat) (nx : option str) (t : ty) (xs : list lexeme) (v : val) {struct n} : Prop :=
  match n with
  | O => False
  | S n' =>
    let take := takes F c G n' None in
    let same := takes F c G n' nx in
    match t with
    | TInt k => exists s z, xs = [XN s] /\ v = VZ z /\ int_lit c k s z
    | TF32 => exists s b, xs = [XN s] /\ v = VF (f32_of_f64 F b) /\ double_lit F s b
    | TF64 => exists s b, xs = [XN s] /\ v = VF b /\ double_lit F s b
    | TBool => xs = [XW (chars "true")] /\ v = VBool true \/ xs = [XW (chars "false")] /\ v = VBool false
    | TStr => exists b s, xs = [XS b s] /\ v = VStr s
    | TUnit => xs = [XW (chars "null")] /\ v = VUnit
    | TOpt t' => xs = [XW (chars "null")] /\ v = VNone \/
                 xs <> [XW (chars "null")] /\ exists w, v = VSome w /\ same t' xs w
    | TSeq k t' => exists ls ws, array_toks ls xs /\ Forall2 (take t') ls ws /\ v = VSeq (seq_of k ws [])
    | TMap k tk tv => exists es ws, entries_toks es xs /\
        Forall2 (fun e w => take tk (fst e) (fst w) /\ take tv (snd e) (snd w)) es ws /\ v = VMap (map_of k ws [])
    | TArr m t' => exists ls ws, array_toks ls xs /\ length ls = m /\ Forall2 (take t') ls ws /\ v = VSeq ws
    | TTup ts => (2 <= length ts <= 4)%nat /\ exists ls ws, array_toks ls xs /\ tuple_means take ts ls ws /\ v = VSeq ws
    | TBox t' => same t' xs v
    | TDur => exists s ns, dur_toks xs s ns /\ v = VDur s ns
    | TTime => xs = [XW (chars "null")] /\ v = VTime 0 0 \/
               exists s ns, dur_toks xs s ns /\ s <= time_max c /\ v = VTime (Z.of_N s) ns
    | TProxy p t' => exists w, same t' xs w /\ v = p_from p w
    | TNamed i =>
      match nth_error G i with
      | Some (DStruct dflt _ fs) => exists ms vs, object_toks ms xs /\ v = VSeq vs /\
          fields_means take dflt fs ms vs /\ others_ignored fs ms
      | Some (DTuple tr fs) => existsb f_hasproxy fs = false /\
          match fs, tr with
          | [], _ => xs = in_curly [] /\ v = VSeq []
          | [f], true => exists w, same (f_ty f) xs w /\ v = VSeq [w]
          | [f], false => exists l w, xs = in_square l /\ take (f_ty f) l w /\ v = VSeq [w]   (* no comma after it *)
          | _, _ => exists ls ws, array_toks ls xs /\ tuple_means take (map f_ty fs) ls ws /\ v = VSeq ws
          end
      | Some (DEnum vs) => exists tag vr, nth_error vs tag = Some vr /\
          match v_body vr with
          | BUnit => exists b s, xs = [XS b s] /\ v = VEnum (N.of_nat tag) [] /\
              key_of_variant Json vr = match nx with Some s' => s' | None => s end
          | BTuple ts => exists b ls ws ys, xs = in_curly (XS b (key_of_variant Json vr) :: xcolon :: ys) /\
              array_toks ls ys /\ tuple_means take ts ls ws /\ v = VEnum (N.of_nat tag) ws
          | BStruct fs => exists b ms ws ys, xs = in_curly (XS b (key_of_variant Json vr) :: xcolon :: ys) /\
              object_toks ms ys /\ fields_means take false fs ms ws /\ others_ignored fs ms /\ v = VEnum (N.of_nat tag) ws
          end
      | Some (DProxy p t') => exists w, same t' xs w /\ v = p_from p w
      | None => False
      end
    end
  end.

(** ** Texts *)
(** What comes after the value is not looked at, but its first token must be one. *)
Definition followed (F : flt) (r : str) (nx : option str) : Prop :=
  at_end Json r /\ nx = None \/
  exists g x r', r = g ++ spelled x ++ r' /\ space Json g /\ token_before Json F x r' /\
    nx = match x with XS _ s => Some s | _ => None end.
(** [text] is accepted as the value [v] of type [t]. *)
Definition accepted (F : flt) (c : cfg) (G : env) (t : ty) (text : str) (v : val) : Prop :=
  exists xs r nx n, tokens Json F xs text r /\ followed F r nx /\ takes F c G n nx t xs v.
