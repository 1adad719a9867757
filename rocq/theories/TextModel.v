(** Model of the writers and readers of src/serde_json.rs, src/serde_ron.rs and of
    the code generated by derive/src/serde_json.rs, derive/src/serde_ron.rs.

    The two formats are implemented by two copies of the same code that differ in
    a few places; the model has one definition per pair of copies and branches on
    [fm : fmt] where the copies differ.  Both copies are cited, JSON first
    ("J:" = src/serde_json.rs, "R:" = src/serde_ron.rs, "DJ:" =
    derive/src/serde_json.rs, "DR:" = derive/src/serde_ron.rs). *)
From Verif Require Import Base Utf8 Types BinModel Text.
Local Open Scope N_scope.

(** ** Printing *)

(** std: [to_string] of an unsigned integer: decimal digits, no leading zeros. *)
Fixpoint dec_go (k : nat) (n : N) (acc : str) : str :=
  match k with
  | O => acc
  | S k' =>
    let acc' := (48 + n mod 10) :: acc in
    if n <? 10 then acc' else dec_go k' (n / 10) acc'
  end.
Definition dec (n : N) : str := dec_go (S (N.size_nat n)) n [].
Definition dec_z (z : Z) : str :=
  if (z <? 0)%Z then c_minus :: dec (Z.to_N (- z)) else dec (Z.to_N z).

Definition hexdig (d : N) : N := if d <? 10 then 48 + d else 87 + d.
(** std: [format!("{:04x}")]. *)
Definition hex4 (n : N) : str :=
  [hexdig (n / 4096 mod 16); hexdig (n / 256 mod 16); hexdig (n / 16 mod 16); hexdig (n mod 16)].

(** String contents, J:841-858 and R:827-854. *)
Definition esc_char (fm : fmt) (c : N) : str :=
  match fm with
  | Json =>
    if c =? 8 then chars "\b" else if c =? 12 then chars "\f"
    else if c =? 10 then chars "\n" else if c =? 13 then chars "\r"
    else if c =? 9 then chars "\t"
    else if (c <? 32) || (c =? 127) then chars "\u" ++ hex4 c
    else if c =? c_bslash then [c_bslash; c_bslash]
    else if c =? c_quote then [c_bslash; c_quote]
    else [c]
  | Ron =>
    if c =? 10 then chars "\n" else if c =? 13 then chars "\r"
    else if c =? 9 then chars "\t" else if c =? 0 then chars "\0"
    else if c =? c_bslash then [c_bslash; c_bslash]
    else if c =? c_quote then [c_bslash; c_quote]
    else [c]
  end.
Definition esc_str (fm : fmt) (s : str) : str :=
  c_quote :: flat_map (esc_char fm) s ++ [c_quote].

(** ** Serialization.  The methods append to [s.out]; the model returns the text
    appended.  No errors; panics are possible. *)
Definition wres := res Empty_set str.

(** Pieces with a separator between them. *)
Fixpoint join (sep : str) (l : list str) : str :=
  match l with
  | [] => []
  | [x] => x
  | x :: r => x ++ sep ++ join sep r
  end.
(** Pieces with a terminator after each. *)
Definition each (t : str) (l : list str) : str := flat_map (fun x => x ++ t) l.

Fixpoint rall {E A} (l : list (res E A)) : res E (list A) :=
  match l with
  | [] => Ok []
  | r :: l' => rbind r (fun a => rmap (cons a) (rall l'))
  end.

Definition wrap (a b : N) (s : str) : str := a :: s ++ [b].
Definition comma := [c_comma].

(** Brackets around tuples, arrays and unnamed structs. *)
Definition t_open (fm : fmt) : N := match fm with Json => c_lbr | Ron => c_lpar end.
Definition t_close (fm : fmt) : N := match fm with Json => c_rbr | Ron => c_rpar end.
(** Brackets around named fields: [st_pre]/[st_post], J:45-52, R:32-39. *)
Definition s_open (fm : fmt) : N := match fm with Json => c_lcur | Ron => c_lpar end.
Definition s_close (fm : fmt) : N := match fm with Json => c_rcur | Ron => c_rpar end.

(** [s.field(d, name)], J:27-33, R:22-26. *)
Definition field_hdr (fm : fmt) (name : str) : str :=
  match fm with
  | Json => c_quote :: name ++ [c_quote; c_colon]
  | Ron => name ++ [c_colon]
  end.
(** [s.label(name)], J:35-39; in RON variant names are pushed as they are. *)
Definition label (fm : fmt) (name : str) : str :=
  match fm with Json => c_quote :: name ++ [c_quote] | Ron => name end.

(** Name of a field in the text: [rename] or the Rust name (DJ:50-51, DR:49-50). *)
Definition field_key (f : field) : str := match f_rename f with Some r => r | None => f_name f end.
(** Name of a variant in the text: JSON honours [rename] (DJ:305-306), RON does not (DR:337). *)
Definition variant_key (fm : fmt) (v : variant) : str :=
  match fm with
  | Json => match v_rename v with Some r => r | None => v_name v end
  | Ron => v_name v
  end.

Section SerHelpers.
  Variable fm : fmt.
  Variable ser : ty -> val -> wres.

  (** The contents of a field whose type is written [Option<..>] once it is known
      to be [Some w]: DJ:55-87 ([if let Some(t) = &..]); with a [proxy] attribute
      the conversion applies to [w] (ser_proxy_guard, DJ:28-40). *)
  Definition ser_some (f : field) (w : val) : wres :=
    match f_ty f with
    | TOpt t => ser t w
    | TProxy p t => ser (TProxy p t) w
    | _ => Panic PNotCompiled
    end.

  (** One named field: the text after the separator, or nothing.  [null]: [None]
      is written as null instead of being left out (JSON only, DJ:57-88).
      [name] is the name used. *)
  Definition ser_field (null : bool) (name : str) (f : field) (v : val) : res Empty_set (option str) :=
    if f_isopt f then
      match v with
      | VSome w => rmap (fun t => Some (field_hdr fm name ++ t)) (ser_some f w)
      | VNone => Ok (if null then Some (field_hdr fm name ++ chars "null") else None)
      | _ => Panic PIllTyped
      end
    else rmap (fun t => Some (field_hdr fm name ++ t)) (ser (f_ty f) v).

  (** Is [None] written as null: (field or container attribute) and no proxy. *)
  Definition null_on_none (cnull : bool) (f : field) : bool :=
    match fm with
    | Json => (f_null f || cnull) && negb (f_hasproxy f)
    | Ron => false
    end.

  (** The fields of a named struct that are written, DJ:46-106, DR:47-77. *)
  Fixpoint ser_named (cnull : bool) (fs : list field) (l : list val) : res Empty_set (list str) :=
    match fs, l with
    | [], [] => Ok []
    | f :: fs', v :: l' =>
      if f_skip f then ser_named cnull fs' l'
      else
        rbind (ser_field (null_on_none cnull f) (field_key f) f v) (fun o =>
        rbind (ser_named cnull fs' l') (fun r =>
        Ok (match o with Some x => x :: r | None => r end)))
    | _, _ => Panic PIllTyped
    end.

  (** The fields of a struct-like variant, DJ:327-369, DR:350-377: Rust names, no
      [skip], [None] left out; in JSON every written field but the last declared
      one is followed by a comma. *)
  Fixpoint ser_variant_fields (fs : list field) (l : list val) : wres :=
    match fs, l with
    | [], [] => Ok []
    | f :: fs', v :: l' =>
      rbind (ser_field false (f_name f) f v) (fun o =>
      rbind (ser_variant_fields fs' l') (fun r =>
      Ok (match o with
          | None => r
          | Some x =>
            x ++ match fm, fs' with Json, [] => [] | _, _ => comma end ++ r
          end)))
    | _, _ => Panic PIllTyped
    end.

  (** Tuples J:1103-1203, R:1107-1207; tuple variants DJ:390-412, DR:396-420. *)
  Fixpoint ser_tys (ts : list ty) (l : list val) : res Empty_set (list str) :=
    match ts, l with
    | [], [] => Ok []
    | t :: ts', v :: l' => rbind (ser t v) (fun x => rmap (cons x) (ser_tys ts' l'))
    | _, _ => Panic PIllTyped
    end.

  (** Fields of an unnamed struct, DJ:564-583, DR:106-117.  RON drops skipped
      fields (and keeps the separator after each written field but the last
      declared one); JSON writes all. *)
  Fixpoint ser_unnamed (fs : list field) (l : list val) : wres :=
    match fs, l with
    | [], [] => Ok []
    | f :: fs', v :: l' =>
      match fm with
      | Ron =>
        if f_skip f then ser_unnamed fs' l'
        else rbind (ser (f_ty f) v) (fun x => rbind (ser_unnamed fs' l') (fun r =>
               Ok (x ++ match fs' with [] => [] | _ => chars ", " end ++ r)))
      | Json =>
        rbind (ser (f_ty f) v) (fun x => rbind (ser_unnamed fs' l') (fun r =>
               Ok (x ++ match fs' with [] => [] | _ => chars ", " end ++ r)))
      end
    | _, _ => Panic PIllTyped
    end.

  Definition ser_entry (tk tv : ty) (e : val * val) : wres :=
    rbind (ser tk (fst e)) (fun a => rbind (ser tv (snd e)) (fun b => Ok (a ++ c_colon :: b))).
End SerHelpers.

(** Duration, J:1310-1320, R:1307-1317. *)
Definition ser_dur (s ns : N) : str :=
  wrap c_lcur c_rcur
    (esc_str Json (chars "secs") ++ c_colon :: dec s ++
     (if ns =? 0 then [] else c_comma :: esc_str Json (chars "nanos") ++ c_colon :: dec ns)).

Definition none_text (fm : fmt) : str :=
  match fm with Json => chars "null" | Ron => chars "None" end.

(** Does the type have an implementation for tuples of this arity: 2, 3 or 4. *)
Definition tuple_arity (n : nat) : bool := (2 <=? n)%nat && (n <=? 4)%nat.

(** The family of [ser_json]/[ser_ron] methods. *)
Fixpoint ser_text (F : flt) (c : cfg) (G : env) (fm : fmt) (fuel : nat) (t : ty) (v : val) {struct fuel} : wres :=
  match fuel with
  | O => NoFuel
  | S n =>
    let ser := ser_text F c G fm n in
    match t, v with
    | TInt U128, _ | TInt I128, _ => Panic PNotCompiled        (* no implementation *)
    | TInt _, VZ z => Ok (dec_z z)                              (* J:709-713, 727-731; R:711-715, 730-734 *)
    | TF32, VF b => Ok (f32_show F b)                           (* J:746-750, R:749-753 *)
    | TF64, VF b => Ok (f64_show F b)
    | TBool, VBool b => Ok (if b then chars "true" else chars "false")  (* J:818-826, R:806-814 *)
    | TStr, VStr s => Ok (esc_str fm s)                         (* J:836-861, R:824-858 *)
    | TUnit, VUnit => Ok (match fm with Json => chars "null" | Ron => chars "()" end)
                                                                (* J:801-805, R:1093-1097 *)
    | TOpt t', VSome w => ser t' w                              (* J:775-786, R:778-789 *)
    | TOpt _, VNone => Ok (none_text fm)
    | TSeq k t', VSeq l =>                       (* J:874-892, 912-931, 950-968, 987-1005; R:868-882, ... *)
      rmap (fun ps => wrap c_lbr c_rbr
              match fm, k with Ron, SVec => each comma ps | _, _ => join comma ps end)
           (rall (map (ser t') l))
    | TMap _ tk tv, VMap l =>                                   (* J:1206-1227, 1250-1270; R:1210-1228, 1250-1267 *)
      rmap (fun ps => wrap c_lcur c_rcur
              match fm with Ron => each comma ps | Json => join comma ps end)
           (rall (map (ser_entry ser tk tv) l))
    | TArr _ t', VSeq l =>                                      (* J:1024-1049, R:1014-1039 *)
      (* [let last = self.len() - 1] *)
      match l with
      | [] => if overflow_checks c then Panic POverflow else Ok (wrap (t_open fm) (t_close fm) [])
      | _ => rmap (fun ps => wrap (t_open fm) (t_close fm) (join comma ps)) (rall (map (ser t') l))
      end
    | TTup ts, VSeq l =>                                        (* J:1103-1183, R:1107-1187 *)
      if tuple_arity (length ts)
      then rmap (fun ps => wrap (t_open fm) (t_close fm) (join comma ps)) (ser_tys ser ts l)
      else Panic PNotCompiled
    | TBox t', w => ser t' w                                    (* J:1292-1299, R:1289-1296 *)
    | TDur, VDur s ns => Ok (ser_dur s ns)
    | TTime, VTime s ns =>                                      (* J:1366-1372, R:1363-1369 *)
      Ok (if (s <? 0)%Z then none_text fm else ser_dur (Z.to_N s) ns)
    | TProxy p t', w =>                                         (* DJ:28-40; RON ignores field proxies *)
      match fm with Json => ser t' (p_to p w) | Ron => Panic PNotCompiled end
    | TNamed i, w =>
      match nth_error G i, w with
      | Some (DStruct _ cnull fs), VSeq l =>                    (* DJ:42-130, DR:42-100 *)
        rmap (fun ps => wrap (s_open fm) (s_close fm)
                match fm with Json => join comma ps | Ron => each comma ps end)
             (ser_named fm ser cnull fs l)
      | Some (DTuple tr fs), VSeq l =>                          (* DJ:554-603, DR:102-140 *)
        if existsb f_hasproxy fs then Panic PNotCompiled
        else match fm, fs, l with
        | Json, [], [] => Ok (chars "{}")
        | Ron, [], _ => Panic PNotCompiled                      (* fields.len() - 1 in the macro *)
        | Json, [f], [w0] =>
          if tr then ser (f_ty f) w0
          else rmap (wrap (t_open fm) (t_close fm)) (ser_unnamed fm ser fs l)
        | _, _, _ => rmap (wrap (t_open fm) (t_close fm)) (ser_unnamed fm ser fs l)
        end
      | Some (DProxy p t'), w' =>                               (* DJ:14-26, DR:14-26 *)
        match fm with Json => ser t' (p_to p w') | Ron => Panic PNotCompiled end
      | Some (DEnum vs), VEnum tag l =>                         (* DJ:299-438, DR:332-439 *)
        match nth_error vs (N.to_nat tag) with
        | None => Panic PIllTyped
        | Some vr =>
          let lab := label fm (variant_key fm vr) in
          let nest := fun body => match fm with
                                  | Json => wrap c_lcur c_rcur (lab ++ c_colon :: body)
                                  | Ron => lab ++ body
                                  end in
          match v_body vr with
          | BUnit => match l with [] => Ok lab | _ => Panic PIllTyped end
          | BTuple [] => Panic PNotCompiled                     (* contents.len() - 1 in the macro *)
          | BTuple ts =>
            rmap (fun ps => nest (wrap (t_open fm) (t_close fm) (join comma ps))) (ser_tys ser ts l)
          | BStruct fs =>
            rmap (fun b => nest (wrap (s_open fm) (s_close fm) b)) (ser_variant_fields fm ser fs l)
          end
        end
      | _, _ => Panic PIllTyped
      end
    | _, _ => Panic PIllTyped
    end
  end.

(** ** Deserialization *)

(** Equality test on token kinds without payload ([s.tok != DeJsonTok::X]). *)
Definition tok_is (a b : tok) : bool :=
  match a, b with
  | KStr, KStr | KIdent, KIdent | KBareIdent, KBareIdent | KNull, KNull | KColon, KColon
  | KCurlyOpen, KCurlyOpen | KCurlyClose, KCurlyClose | KBlockOpen, KBlockOpen
  | KBlockClose, KBlockClose | KParenOpen, KParenOpen | KParenClose, KParenClose
  | KComma, KComma | KBof, KBof | KEof, KEof => true
  | _, _ => false
  end.

(** [value as i64] from u64. *)
Definition u64_as_i64 (n : N) : Z :=
  if n <? 2 ^ 63 then Z.of_N n else (Z.of_N n - 2 ^ 64)%Z.

(** [val as $ty]. *)
Definition cast (c : cfg) (k : ik) (z : Z) : Z :=
  match k with
  | Usize => (z mod Z.of_N (usize_mod c))%Z
  | _ => of_bits k (to_bits (ik_bytes k) z)
  end.

(** [$max as u64] / [$min as i64], [$max as i64] of the macro instances, J:763-771, R:766-774. *)
Definition u_max (k : ik) : N :=
  match k with U8 => 2 ^ 8 - 1 | U16 => 2 ^ 16 - 1 | U32 => 2 ^ 32 - 1 | _ => 2 ^ 64 - 1 end.
Definition i_bound (k : ik) : Z :=
  match k with I8 => 2 ^ 7 | I16 => 2 ^ 15 | I32 => 2 ^ 31 | _ => 2 ^ 63 end%Z.

Section De.
  Context {S : Type}.
  Variable L : lexer S.
  Variable F : flt.
  Variable c : cfg.
  Variable G : env.
  Variable fm : fmt.

  Definition pm (A : Type) := S -> S * res terr A.
  Definition pret {A} (a : A) : pm A := fun s => (s, Ok a).
  Definition pfail {A} (r : res terr A) : pm A := fun s => (s, r).
  Definition pbind {A B} (m : pm A) (f : A -> pm B) : pm B := fun s =>
    match m s with
    | (s', Ok a) => f a s'
    | (s', Err e) => (s', Err e)
    | (s', Panic p) => (s', Panic p)
    | (s', NoFuel) => (s', NoFuel)
    end.
  Definition pmap {A B} (f : A -> B) (m : pm A) : pm B := pbind m (fun a => pret (f a)).

  (** [err_*] constructors, J:216-270, R:207-261. *)
  Definition perr {A} (m : tmsg) : pm A := fun s => (s, Err (mk_err (l_pos L s) m)).
  Definition err_token {A} (what : str) : pm A :=
    fun s => perr (UnexpectedToken (l_tok L s) what) s.

  (** Require a token kind and advance: colon, string/ident, block_open, ...,
      J:329-395, R:296-376. *)
  Definition expect (k : tok) (what : str) : pm unit := fun s =>
    if tok_is (l_tok L s) k then l_next L s else err_token what s.
  Definition p_colon := expect KColon (chars ":").
  Definition p_next_colon := pbind (l_next L) (fun _ => p_colon).

  (** [eat_comma_block], [eat_comma_curly], [eat_comma_paren]: J:272-281, 318-327;
      R:263-294. *)
  Definition eat_comma (close : tok) (what : str) : pm unit := fun s =>
    if tok_is (l_tok L s) KComma then l_next L s
    else if tok_is (l_tok L s) close then (s, Ok tt)
    else err_token what s.

  (** The bracket pairs. *)
  Definition k_topen := match fm with Json => KBlockOpen | Ron => KParenOpen end.
  Definition k_tclose := match fm with Json => KBlockClose | Ron => KParenClose end.
  Definition k_sopen := match fm with Json => KCurlyOpen | Ron => KParenOpen end.
  Definition k_sclose := match fm with Json => KCurlyClose | Ron => KParenClose end.
  Definition w_topen := match fm with Json => chars "[" | Ron => chars "(" end.
  Definition w_tclose := match fm with Json => chars "]" | Ron => chars ")" end.
  Definition w_tcomma := match fm with Json => chars ", or ]" | Ron => chars ", or )" end.
  Definition w_sopen := match fm with Json => chars "{" | Ron => chars "(" end.
  Definition w_sclose := match fm with Json => chars "}" | Ron => chars ")" end.
  Definition w_scomma := match fm with Json => chars ", or }" | Ron => chars ", or )" end.
  Definition eat_tcomma := eat_comma k_tclose w_tcomma.
  Definition eat_scomma := eat_comma k_sclose w_scomma.

  (** [while cond { body }] with [n] as fuel. *)
  Fixpoint while_ {A} (n : nat) (cond : S -> bool) (body : A -> pm A) (a : A) : pm A :=
    match n with
    | O => pfail NoFuel
    | Datatypes.S n' => fun s =>
      if cond s then pbind (body a) (while_ n' cond body) s else (s, Ok a)
    end.

  (** [whole_field], J:283-316.  [open_brackets] is an i32 in the code; the model
      does not let it overflow (that takes 2^31 opening brackets). *)
  Fixpoint whole_loop (n : nat) (depth : N) : pm unit :=
    match n with
    | O => pfail NoFuel
    | Datatypes.S n' => fun s =>
      let d1 := match l_tok L s with KBlockOpen | KCurlyOpen => depth + 1 | _ => depth end in
      let d2 := match l_tok L s with KBlockClose | KCurlyClose => d1 - 1 | _ => d1 end in
      pbind (l_next L) (fun _ => if d2 =? 0 then pret tt else whole_loop n' d2) s
    end.
  Definition whole_field (n : nat) : pm unit := fun s =>
    match l_tok L s with
    | KF64 _ | KI64 _ | KStr | KU64 _ | KBool _ | KNull => l_next L s
    | KBlockOpen | KCurlyOpen => whole_loop n 0 s
    | _ => (s, Panic PUnimplemented)
    end.

  (** [u64_range] and [i64_range], J:397-421, R:378-402. *)
  Definition u64_range (max : N) : pm N := fun s =>
    match l_tok L s with
    | KU64 v => if max <? v then perr (OutOfRange (dec v ++ chars ">" ++ dec max)) s else (s, Ok v)
    | _ => err_token (chars "unsigned integer") s
    end.
  Definition i64_range (min max : Z) : pm Z := fun s =>
    match l_tok L s with
    | KI64 v => if (v <? min)%Z then perr (OutOfRange (dec_z v ++ chars "<" ++ dec_z min)) s else (s, Ok v)
    | KU64 v =>
      if (max <? u64_as_i64 v)%Z then perr (OutOfRange (dec v ++ chars ">" ++ dec_z max)) s
      else (s, Ok (u64_as_i64 v))
    | _ => err_token (chars "signed integer") s
    end.

  (** Integers, J:715-722, 733-741; R:717-725, 736-744. *)
  Definition de_int (k : ik) : pm val :=
    match k with
    | U128 | I128 => pfail (Panic PNotCompiled)
    | _ =>
      if ik_signed k
      then pbind (i64_range (- i_bound k) (i_bound k - 1)) (fun v =>
           pbind (l_next L) (fun _ => pret (VZ (cast c k v))))
      else pbind (u64_range (u_max k)) (fun v =>
           pbind (l_next L) (fun _ => pret (VZ (cast c k (Z.of_N v)))))
    end.

  (** [as_f64], J:423-434, R:404-415; floats J:752-760, R:755-763. *)
  Definition as_f64 : pm N := fun s =>
    match l_tok L s with
    | KI64 v => (s, Ok (f64_of_z F v))
    | KU64 v => (s, Ok (f64_of_z F (Z.of_N v)))
    | KF64 b => (s, Ok b)
    | _ => err_token (chars "floating point") s
    end.
  Definition de_f64 : pm N := pbind as_f64 (fun b => pbind (l_next L) (fun _ => pret b)).

  (** [as_bool], J:436-441, R:417-425; bool J:828-834, R:816-822. *)
  Definition as_bool : pm bool := fun s =>
    match l_tok L s, fm with
    | KBool b, _ => (s, Ok b)
    | KU64 n, Ron => (s, Ok (negb (n =? 0)))
    | _, _ => err_token (chars "boolean") s
    end.
  Definition de_bool : pm val := pbind as_bool (fun b => pbind (l_next L) (fun _ => pret (VBool b))).

  (** [as_string], J:443-450, R:427-434; String J:866-872, R:860-866. *)
  Definition as_string : pm str := fun s =>
    if tok_is (l_tok L s) KStr then (l_take L s, Ok (l_str L s)) else err_token (chars "string") s.
  Definition de_str : pm str := pbind as_string (fun x => pbind (l_next L) (fun _ => pret x)).

  (** Is the current token the absent option: J:793, R:796-797. *)
  Definition at_none (s : S) : bool :=
    match fm with
    | Json => tok_is (l_tok L s) KNull
    | Ron => tok_is (l_tok L s) KIdent && str_eqb (l_id L s) (chars "None")
    end.
  Definition de_opt (de : pm val) : pm val := fun s =>
    if at_none s then pbind (l_next L) (fun _ => pret VNone) s else pmap VSome de s.

  (** Duration, J:1322-1363, R:1319-1360.  State: seconds and nanoseconds read. *)
  Definition de_u64 (k : ik) : pm N :=
    pbind (u64_range (u_max k)) (fun v => pbind (l_next L) (fun _ => pret v)).
  Definition dur_body (a : option N * option N) : pm (option N * option N) :=
    pbind de_str (fun key =>
    pbind (if str_eqb key (chars "secs") then
             match fst a with
             | Some _ => perr (CannotParse (chars "Duration can only have one secs field"))
             | None => pbind p_colon (fun _ => pbind (de_u64 U64) (fun v => pret (Some v, snd a)))
             end
           else if str_eqb key (chars "nanos") then
             match snd a with
             | Some _ => perr (CannotParse (chars "Duration can only have one nanos field"))
             | None => pbind p_colon (fun _ => pbind (de_u64 U32) (fun v => pret (fst a, Some v)))
             end
           else perr (CannotParse (chars "Duration can only have secs or nanos fields, got " ++ key)))
    (fun a' => pbind (eat_comma KCurlyClose (chars ", or }")) (fun _ => pret a'))).
  Definition de_dur (n : nat) : pm val :=
    pbind (expect KCurlyOpen (chars "{")) (fun _ =>
    pbind (while_ n (fun s => negb (tok_is (l_tok L s) KCurlyClose)) dur_body (None, None)) (fun a =>
    pbind (expect KCurlyClose (chars "}")) (fun _ =>
    match fst a with
    | None => perr (CannotParse (chars "Duration must have secs field"))
    | Some secs =>
      let ns := match snd a with Some x => x | None => 0 end in
      if 1000000000 <? ns then perr (OutOfRange (chars "Duration nanos must be at most 1,000,000,000"))
      else if ns <? 1000000000 then pret (VDur secs ns)
      (* Duration::new carries, and panics on overflow *)
      else if secs + 1 <? 2 ^ 64 then pret (VDur (secs + 1) 0)
      else pfail (Panic PDuration)
    end))).

  (** SystemTime, J:1375-1382, R:1372-1379. *)
  Definition de_time (n : nat) : pm val :=
    pbind (de_opt (de_dur n)) (fun v =>
    match v with
    | VSome (VDur s ns) => if s <=? time_max c then pret (VTime (Z.of_N s) ns) else pfail (Panic PTime)
    | _ => pret (VTime 0 0)
    end).

  Section Helpers.
    Variable de : ty -> pm val.
    Variable n : nat.    (* fuel of the loops *)

    (** Vec, HashSet, LinkedList, BTreeSet: J:894-910, 933-948, 970-985, 1007-1022;
        R:884-900, 923-938, 960-975, 997-1012. *)
    Definition de_seq (k : seqk) (t : ty) : pm (list val) :=
      pbind (expect KBlockOpen (chars "[")) (fun _ =>
      pbind (while_ n (fun s => negb (tok_is (l_tok L s) KBlockClose))
               (fun acc => pbind (de t) (fun v =>
                  pbind (eat_comma KBlockClose (chars ", or ]")) (fun _ => pret (seq_add k v acc)))) []) (fun l =>
      pbind (expect KBlockClose (chars "]")) (fun _ => pret l))).

    (** HashMap, BTreeMap: J:1229-1247, 1272-1290; R:1230-1248, 1269-1287. *)
    Definition de_map (k : mapk) (tk tv : ty) : pm (list (val * val)) :=
      pbind (expect KCurlyOpen (chars "{")) (fun _ =>
      pbind (while_ n (fun s => negb (tok_is (l_tok L s) KCurlyClose))
               (fun acc =>
                  pbind (de tk) (fun x => pbind p_colon (fun _ => pbind (de tv) (fun y =>
                  pbind (eat_comma KCurlyClose (chars ", or }")) (fun _ =>
                  pret (map_add k x y acc)))))) []) (fun l =>
      pbind (expect KCurlyClose (chars "}")) (fun _ => pret l))).

    (** One element followed by a comma or the closing bracket, with [?] on both. *)
    Definition de_item (t : ty) : pm val := pbind (de t) (fun v => pbind eat_tcomma (fun _ => pret v)).

    (** [de_json_comma_block] J:1094-1101, [de_ron_comma_paren] R:1084-1091: the
        comma is eaten even if the element failed. *)
    Definition comma_block (t : ty) : pm val := fun s =>
      match de t s with
      | (s1, Panic p) => (s1, Panic p)
      | (s1, NoFuel) => (s1, NoFuel)
      | (s1, r) =>
        match eat_tcomma s1 with
        | (s2, Ok _) => (s2, r)
        | (s2, Err e) => (s2, Err e)
        | (s2, Panic p) => (s2, Panic p)
        | (s2, NoFuel) => (s2, NoFuel)
        end
      end.

    (** A list of elements one after the other. *)
    Fixpoint de_list (l : list (pm val)) : pm (list val) :=
      match l with
      | [] => pret []
      | p :: l' => pbind p (fun v => pbind (de_list l') (fun r => pret (v :: r)))
      end.
    (** ... in brackets. *)
    Definition de_bracketed (l : list (pm val)) : pm (list val) :=
      pbind (expect k_topen w_topen) (fun _ =>
      pbind (de_list l) (fun vs =>
      pbind (expect k_tclose w_tclose) (fun _ => pret vs))).

    (** What the local variable of a named field receives: DJ:234-238 with
        DJ:181-189, DR:218-225. *)
    Definition de_field (f : field) : pm val :=
      if f_isopt f && f_hasproxy f then pmap VSome (de (f_ty f)) else de (f_ty f).

    (** The first match arm for a name: skipped fields have none. *)
    Fixpoint find_field (key : str) (fs : list field) (i : nat) : option (nat * field) :=
      match fs with
      | [] => None
      | f :: fs' =>
        if negb (f_skip f) && str_eqb (field_key f) key then Some (i, f)
        else find_field key fs' (Datatypes.S i)
      end.
    Fixpoint set_nth {A} (i : nat) (x : A) (l : list A) : list A :=
      match l, i with
      | [], _ => []
      | _ :: r, O => x :: r
      | y :: r, Datatypes.S i' => y :: set_nth i' x r
      end.

    (** Current key: [strbuf] in JSON, [identbuf] in RON. *)
    Definition key_of (s : S) : str := match fm with Json => l_str L s | Ron => l_id L s end.
    Definition k_key := match fm with Json => KStr | Ron => KIdent end.

    (** Loop body for named fields, DJ:228-247, DR:210-239. *)
    Definition named_body (fs : list field) (acc : list (option val)) : pm (list (option val)) :=
      pbind (fun s =>
        match find_field (key_of s) fs 0 with
        | Some (i, f) =>
          pbind p_next_colon (fun _ => pbind (de_field f) (fun v => pret (set_nth i (Some v) acc))) s
        | None =>
          match fs, fm with
          | [], _ => (s, Ok acc)
          | _, Json => pbind p_next_colon (fun _ => pbind (whole_field n) (fun _ => pret acc)) s
          | _, Ron => perr (UnexpectedKey (l_id L s)) s
          end
        end) (fun acc' => pbind eat_scomma (fun _ => pret acc')).

    (** The value of a field once the closing bracket was read: DJ:191-215,
        DR:164-192. *)
    Definition unwrap_field (dflt : bool) (f : field) (o : option val) : pm val :=
      match o with
      | Some v => if f_skip f then pret (match f_default f with Some d => d | None => f_tydefault f end)
                  else pret v
      | None =>
        match f_default f with
        | Some d => pret d
        | None =>
          if f_skip f || f_isopt f || dflt then pret (f_tydefault f)
          else perr (MissingKey (f_name f))
        end
      end.
    Fixpoint unwrap_fields (dflt : bool) (fs : list field) (l : list (option val)) : pm (list val) :=
      match fs, l with
      | f :: fs', o :: l' =>
        pbind (unwrap_field dflt f o) (fun v => pbind (unwrap_fields dflt fs' l') (fun r => pret (v :: r)))
      | _, _ => pret []
      end.

    (** derive_de_json_named DJ:132-257, derive_de_ron_named DR:142-259. *)
    Definition de_named (dflt : bool) (fs : list field) : pm (list val) :=
      pbind (expect k_sopen w_sopen) (fun _ =>
      pbind (while_ n (fun s => tok_is (l_tok L s) k_key) (named_body fs) (map (fun _ => None) fs)) (fun l =>
      pbind (expect k_sclose w_sclose) (fun _ =>
      unwrap_fields dflt fs l))).

    Fixpoint find_variant (p : variant -> bool) (vs : list variant) (i : N) : option (N * variant) :=
      match vs with
      | [] => None
      | v :: vs' => if p v then Some (i, v) else find_variant p vs' (i + 1)
      end.
    Definition is_unit (v : variant) : bool := match v_body v with BUnit => true | _ => false end.

    (** The payload of a variant. *)
    Definition de_body (tag : N) (b : vbody) : pm val :=
      match b with
      | BUnit => pret (VEnum tag [])
      | BTuple ts => pmap (VEnum tag) (de_bracketed (map de_item ts))
      | BStruct fs => pmap (VEnum tag) (de_named false fs)
      end.

    (** derive_de_json_enum, DJ:440-552. *)
    Definition de_enum_json (vs : list variant) : pm val := fun s =>
      if tok_is (l_tok L s) KCurlyOpen && existsb (fun v => negb (is_unit v)) vs then
        pbind (expect KCurlyOpen (chars "{")) (fun _ =>
        pbind (expect KStr (chars "String")) (fun _ =>
        pbind p_colon (fun _ s1 =>
        match find_variant (fun v => negb (is_unit v) && str_eqb (variant_key Json v) (l_str L s1)) vs 0 with
        | Some (i, v) =>
          pbind (de_body i (v_body v)) (fun r =>
          pbind (expect KCurlyClose (chars "}")) (fun _ => pret r)) s1
        | None => perr (NoSuchEnum (l_str L s1)) s1
        end))) s
      else if tok_is (l_tok L s) KStr && existsb is_unit vs then
        pbind (expect KStr (chars "String")) (fun _ s1 =>
        match find_variant (fun v => is_unit v && str_eqb (variant_key Json v) (l_str L s1)) vs 0 with
        | Some (i, _) => (s1, Ok (VEnum i []))
        | None => perr (NoSuchEnum (l_str L s1)) s1
        end) s
      else err_token (chars "String or {") s.

    (** derive_de_ron_enum, DR:441-512. *)
    Definition de_enum_ron (vs : list variant) : pm val :=
      pbind (expect KIdent (chars "Identifier")) (fun _ s1 =>
      match find_variant (fun v => str_eqb (variant_key Ron v) (l_id L s1)) vs 0 with
      | Some (i, v) => de_body i (v_body v) s1
      | None => perr (NoSuchEnum (l_id L s1)) s1
      end).

    (** Unnamed structs: DJ:605-649, DR:294-330. *)
    Definition de_unnamed (tr : bool) (fs : list field) : pm (list val) :=
      match fm, fs with
      | Json, [] =>
        pbind (expect KCurlyOpen (chars "{")) (fun _ =>
        pbind (expect KCurlyClose (chars "}")) (fun _ => pret []))
      | Json, [f] =>
        if tr then pmap (fun v => [v]) (de (f_ty f))
        else de_bracketed [de (f_ty f)]
      | _, _ => de_bracketed (map (fun f => de_item (f_ty f)) fs)
      end.
  End Helpers.

  (** The families of [de_json]/[de_ron] functions. *)
  Fixpoint de_text (fuel : nat) (t : ty) {struct fuel} : pm val :=
    match fuel with
    | O => pfail NoFuel
    | Datatypes.S n =>
      let de := de_text n in
      match t with
      | TInt k => de_int k
      | TF32 => pmap (fun b => VF (f32_of_f64 F b)) de_f64
      | TF64 => pmap VF de_f64
      | TBool => de_bool
      | TStr => pmap VStr de_str
      | TUnit =>                                                (* J:807-816, R:1099-1105 *)
        match fm with
        | Json => pbind (expect KNull (chars "null")) (fun _ => pret VUnit)
        | Ron => pbind (expect KParenOpen (chars "(")) (fun _ =>
                 pbind (expect KParenClose (chars ")")) (fun _ => pret VUnit))
        end
      | TOpt t' => de_opt (de t')                               (* J:788-799, R:791-804 *)
      | TSeq k t' => pmap VSeq (de_seq de n k t')
      | TMap k tk tv => pmap VMap (de_map de n k tk tv)
      | TArr m t' => pmap VSeq (de_bracketed (repeat (de_item de t') m))   (* J:1051-1092, R:1041-1082 *)
      | TTup ts =>                                              (* J:1117-1203, R:1121-1207 *)
        if tuple_arity (length ts) then pmap VSeq (de_bracketed (map (comma_block de) ts))
        else pfail (Panic PNotCompiled)
      | TBox t' => de t'                                        (* J:1301-1308, R:1298-1305 *)
      | TDur => de_dur n
      | TTime => de_time n
      | TProxy p t' =>                                          (* DJ:181-189 *)
        match fm with Json => pmap (p_from p) (de t') | Ron => pfail (Panic PNotCompiled) end
      | TNamed i =>
        match nth_error G i with
        | Some (DStruct dflt _ fs) => pmap VSeq (de_named de n dflt fs)
        | Some (DTuple tr fs) =>
          if existsb f_hasproxy fs then pfail (Panic PNotCompiled)
          else match fm, fs with
               | Ron, [] => pfail (Panic PNotCompiled)          (* Self() of a unit struct *)
               | _, _ => pmap VSeq (de_unnamed de tr fs)
               end
        | Some (DProxy p t') =>                                 (* DJ:259-272; DR:28-40 does not compile *)
          match fm with Json => pmap (p_from p) (de t') | Ron => pfail (Panic PNotCompiled) end
        | Some (DEnum vs) =>
          match fm with Json => de_enum_json de n vs | Ron => de_enum_ron de n vs end
        | None => pfail (Panic PNotCompiled)
        end
      end
    end.

  (** [next_tok()?] and the reader: the last two lines of [deserialize_*]. *)
  Definition de_first (fuel : nat) (t : ty) : pm val := pbind (l_next L) (fun _ => de_text fuel t).
End De.

(** [deserialize_json], J:82-88, and [deserialize_ron], R:73-79. *)
Definition deserialize_text (F : flt) (c : cfg) (G : env) (fm : fmt) (fuel : nat) (t : ty) (text : str)
  : res terr val :=
  snd (de_first (text_lexer F fm) F c G fm fuel t (start fm text)).

(** [serialize_json], J:59-63, and [serialize_ron], R:49-53. *)
Definition serialize_text (F : flt) (c : cfg) (G : env) (fm : fmt) (fuel : nat) (t : ty) (v : val) : wres :=
  ser_text F c G fm fuel t v.
