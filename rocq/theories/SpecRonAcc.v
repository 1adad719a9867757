(** Specification side of "which RON texts are accepted, and as what": for each type
    the sequences of tokens (SpecTok.v) that are taken as a value of it.  Lists with
    commas, numbers and durations are as in SpecAcc.v.  Nothing here refers to the
    model of the parsers. *)
From Verif Require Import Base Utf8 Types BinModel Text SpecText SpecGram SpecTok SpecDoc SpecAcc.
Local Open Scope N_scope.

(** ** Pieces *)
Definition in_round (xs : list lexeme) := between 40 41 xs.
(** Values in round brackets. *)
Definition round_toks (ls : list (list lexeme)) (xs : list lexeme) : Prop :=
  exists ys, listed ls ys /\ xs = in_round ys.
(** A name: a word other than [true] and [false]. *)
Definition a_name (w : str) : Prop := w <> chars "true" /\ w <> chars "false".
Definition rmember_toks (m : str * list lexeme) (xs : list lexeme) : Prop :=
  a_name (fst m) /\ xs = XW (fst m) :: xcolon :: snd m.
Definition robject_toks (ms : list (str * list lexeme)) (xs : list lexeme) : Prop :=
  exists ls ys, Forall2 rmember_toks ms ls /\ listed ls ys /\ xs = in_round ys.
(** Every member must name a field. *)
Definition all_named (fs : list field) (ms : list (str * list lexeme)) : Prop :=
  forall k xs, In (k, xs) ms -> exists f, In f fs /\ f_skip f = false /\ key_of_field f = k.
Definition xnone := XW (chars "None").

(** ** Values *)
(** [nx] is the word that follows the value, if one does: it matters only for
    variants without contents, whose name is compared with the word read last
    (defect: the library reads one token ahead before it looks at the name). *)
Fixpoint rtakes (F : flt) (c : cfg) (G : env) (n : nat) (nx : option str) (t : ty) (xs : list lexeme) (v : val) {struct n} : Prop :=
  match n with
  | O => False
  | S n' =>
    let take := rtakes F c G n' None in
    let same := rtakes F c G n' nx in
    match t with
    | TInt k => exists s z, xs = [XN s] /\ v = VZ z /\ int_lit c k s z
    | TF32 => exists s b, xs = [XN s] /\ v = VF (f32_of_f64 F b) /\ double_lit F s b
    | TF64 => exists s b, xs = [XN s] /\ v = VF b /\ double_lit F s b
    (* an integer is accepted as well *)
    | TBool => xs = [XW (chars "true")] /\ v = VBool true \/ xs = [XW (chars "false")] /\ v = VBool false \/
               exists s m, xs = [XN s] /\ nat_means (unplus s) m /\ v = VBool (negb (m =? 0))
    | TStr => exists b s, xs = [XS b s] /\ v = VStr s
    | TUnit => xs = in_round [] /\ v = VUnit
    (* what starts with None is None, whatever the type *)
    | TOpt t' => xs = [xnone] /\ v = VNone \/
                 ~ (exists r, xs = xnone :: r) /\ exists w, v = VSome w /\ same t' xs w
    | TSeq k t' => exists ls ws, array_toks ls xs /\ Forall2 (take t') ls ws /\ v = VSeq (seq_of k ws [])
    | TMap k tk tv => exists es ws, entries_toks es xs /\
        Forall2 (fun e w => take tk (fst e) (fst w) /\ take tv (snd e) (snd w)) es ws /\ v = VMap (map_of k ws [])
    | TArr m t' => exists ls ws, round_toks ls xs /\ length ls = m /\ Forall2 (take t') ls ws /\ v = VSeq ws
    | TTup ts => (2 <= length ts <= 4)%nat /\ exists ls ws, round_toks ls xs /\ tuple_means take ts ls ws /\ v = VSeq ws
    | TBox t' => same t' xs v
    | TDur => exists s ns, dur_toks xs s ns /\ v = VDur s ns
    | TTime => xs = [xnone] /\ v = VTime 0 0 \/
               exists s ns, dur_toks xs s ns /\ s <= time_max c /\ v = VTime (Z.of_N s) ns
    | TProxy p t' => False                                   (* does not compile *)
    | TNamed i =>
      match nth_error G i with
      | Some (DStruct dflt _ fs) => exists ms vs, robject_toks ms xs /\ v = VSeq vs /\
          fields_means take dflt fs ms vs /\ all_named fs ms
      | Some (DTuple _ fs) => existsb f_hasproxy fs = false /\ fs <> [] /\
          exists ls ws, round_toks ls xs /\ tuple_means take (map f_ty fs) ls ws /\ v = VSeq ws
      | Some (DEnum vs) => exists tag vr, nth_error vs tag = Some vr /\
          match v_body vr with
          | BUnit => exists w, a_name w /\ xs = [XW w] /\ v = VEnum (N.of_nat tag) [] /\
              key_of_variant Ron vr = match nx with Some w' => w' | None => w end
          | BTuple ts => exists ls ws ys, a_name (key_of_variant Ron vr) /\ xs = XW (key_of_variant Ron vr) :: ys /\
              round_toks ls ys /\ tuple_means take ts ls ws /\ v = VEnum (N.of_nat tag) ws
          | BStruct fs => exists ms ws ys, a_name (key_of_variant Ron vr) /\ xs = XW (key_of_variant Ron vr) :: ys /\
              robject_toks ms ys /\ fields_means take false fs ms ws /\ all_named fs ms /\ v = VEnum (N.of_nat tag) ws
          end
      | Some (DProxy _ _) | None => False                    (* does not compile *)
      end
    end
  end.

(** ** Texts *)
(** What comes after the value is not looked at, but its first token must be one. *)
Definition rfollowed (F : flt) (r : str) (nx : option str) : Prop :=
  at_end Ron r /\ nx = None \/
  exists g x r', r = g ++ spelled x ++ r' /\ space Ron g /\ token_before Ron F x r' /\
    nx = match x with XW w => Some w | _ => None end.
(** [text] is accepted as the value [v] of type [t]. *)
Definition raccepted (F : flt) (c : cfg) (G : env) (t : ty) (text : str) (v : val) : Prop :=
  exists xs r nx n, tokens Ron F xs text r /\ rfollowed F r nx /\ rtakes F c G n nx t xs v.
