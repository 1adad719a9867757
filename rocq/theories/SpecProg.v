(** C75: whole programs.  The derive macros' output for several definitions,
    calling each other and the library's implementations for the built-in types.

    [SpecGen.v] and [SpecGenText.v] give the meaning of the code written for one
    definition, relative to the serializers of the types of its fields.  Here the
    knot is tied: no part of it is the model's reader or writer of declarations. *)
From Verif Require Import Base Utf8 Types Text TextModel BinModel DeriveModel SpecDerive SpecGen SpecGenText.
Local Open Scope N_scope.

(** ** The library: one call of [ser_bin], [de_bin], ... at a type that is not the
    user's, the calls inside being [ser], [de].  (The bodies are those of
    BinModel.v and TextModel.v; Prog.v proves that they are the same.) *)

(** src/serde_bin.rs:122-696; a [TProxy] is a field with a conversion, which
    the derived code writes out (SpecGen.v); these cases are never reached when
    the types that the world gives to texts are Rust types. *)
Definition lib_ser (ser : ty -> val -> list N -> sres) (t : ty) (v : val) (out : list N) : sres :=
  match t, v with
  | TInt Usize, VZ z => ser_usize (Z.to_N z) out
  | TInt k, VZ z => emit (le_bytes (ik_bytes k) (to_bits (ik_bytes k) z)) out
  | TF32, VF b => emit (le_bytes 4 b) out
  | TF64, VF b => emit (le_bytes 8 b) out
  | TBool, VBool b => emit [if b then 1 else 0] out
  | TStr, VStr s => rbind (ser_usize (lenN (utf8_enc s)) out) (emit (utf8_enc s))
  | TUnit, VUnit => Ok out
  | TOpt t', VSome w => rbind (emit [1] out) (ser t' w)
  | TOpt t', VNone => emit [0] out
  | TSeq k t', VSeq l => rbind (ser_usize (lenN l) out) (BinModel.ser_items ser t' l)
  | TMap k tk tv, VMap l => rbind (ser_usize (lenN l) out) (BinModel.ser_entries ser tk tv l)
  | TArr _ t', VSeq l => BinModel.ser_items ser t' l out
  | TTup ts, VSeq l => BinModel.ser_tys ser ts l out
  | TBox t', w => ser t' w out
  | TDur, VDur s ns => rbind (emit (le_bytes 8 s) out) (emit (le_bytes 4 ns))
  | TTime, VTime s ns =>
    if (s <? 0)%Z then emit [0] out
    else rbind (emit [1] out) (fun o1 => rbind (emit (le_bytes 8 (Z.to_N s)) o1) (emit (le_bytes 4 ns)))
  | TProxy p t', w => ser t' (p_to p w) out
  | _, _ => Panic PIllTyped
  end.
(** src/serde_bin.rs:129-711 *)
Definition lib_de (c : cfg) (d : list N) (de : ty -> bm val) (t : ty) : bm val :=
  match t with
  | TInt Usize => bmap (fun m => VZ (Z.of_N m)) (rd_usize c d)
  | TInt k => bmap (fun b => VZ (of_bits k (of_le b))) (rd_fixed c d (N.of_nat (ik_bytes k)))
  | TF32 => bmap (fun b => VF (of_le b)) (rd_fixed c d 4)
  | TF64 => bmap (fun b => VF (of_le b)) (rd_fixed c d 8)
  | TBool => bmap (fun b => VBool (negb (of_le b =? 0))) (rd_fixed c d 1)
  | TStr => bmap VStr (rd_str c d)
  | TUnit => bret VUnit
  | TOpt t' => bbind (rd_fixed c d 1) (fun b => if of_le b =? 1 then bmap VSome (de t') else bret VNone)
  | TSeq k t' =>
    bbind (rd_usize c d) (fun len =>
      bbind (match k with SVec | SHSet => with_capacity c t' len | _ => bret tt end)
            (fun _ => bmap VSeq (de_items de k t' len)))
  | TMap k tk tv =>
    bbind (rd_usize c d) (fun len =>
      bbind (match k with MHash => with_capacity c tk len | MBTree => bret tt end)
            (fun _ => bmap VMap (de_entries de k tk tv len)))
  | TArr n' t' => bmap VSeq (de_rep de n' t')
  | TTup ts => bmap VSeq (de_tys de ts)
  | TBox t' => de t'
  | TDur => rd_dur c d
  | TTime => rd_time c d
  | TProxy p t' => bmap (p_from p) (de t')
  | TNamed _ => bfail (Panic PNotCompiled)
  end.
(** src/serde_json.rs:709-1372, src/serde_ron.rs:711-1369 *)
Definition lib_write (F : flt) (c : cfg) (fm : fmt) (ser : ty -> val -> wres) (t : ty) (v : val) : wres :=
  match t, v with
  | TInt U128, _ | TInt I128, _ => Panic PNotCompiled
  | TInt _, VZ z => Ok (dec_z z)
  | TF32, VF b => Ok (f32_show F b)
  | TF64, VF b => Ok (f64_show F b)
  | TBool, VBool b => Ok (if b then chars "true" else chars "false")
  | TStr, VStr s => Ok (esc_str fm s)
  | TUnit, VUnit => Ok (match fm with Json => chars "null" | Ron => chars "()" end)
  | TOpt t', VSome w => ser t' w
  | TOpt _, VNone => Ok (none_text fm)
  | TSeq k t', VSeq l =>
    rmap (fun ps => wrap c_lbr c_rbr match fm, k with Ron, SVec => each comma ps | _, _ => join comma ps end) (rall (map (ser t') l))
  | TMap _ tk tv, VMap l =>
    rmap (fun ps => wrap c_lcur c_rcur match fm with Ron => each comma ps | Json => join comma ps end)
         (rall (map (ser_entry ser tk tv) l))
  | TArr _ t', VSeq l =>
    match l with
    | [] => if overflow_checks c then Panic POverflow else Ok (wrap (t_open fm) (t_close fm) [])
    | _ => rmap (fun ps => wrap (t_open fm) (t_close fm) (join comma ps)) (rall (map (ser t') l))
    end
  | TTup ts, VSeq l =>
    if tuple_arity (length ts)
    then rmap (fun ps => wrap (t_open fm) (t_close fm) (join comma ps)) (TextModel.ser_tys ser ts l)
    else Panic PNotCompiled
  | TBox t', w => ser t' w
  | TDur, VDur s ns => Ok (ser_dur s ns)
  | TTime, VTime s ns => Ok (if (s <? 0)%Z then none_text fm else ser_dur (Z.to_N s) ns)
  | TProxy p t', w => match fm with Json => ser t' (p_to p w) | Ron => Panic PNotCompiled end
  | _, _ => Panic PIllTyped
  end.
(** src/serde_json.rs:715-1390, src/serde_ron.rs:717-1387 *)
Definition lib_read {S} (L : lexer S) (F : flt) (c : cfg) (fm : fmt) (de : ty -> @pm S val) (n : nat) (t : ty) : @pm S val :=
  match t with
  | TInt k => de_int L c k
  | TF32 => pmap (fun b => VF (f32_of_f64 F b)) (de_f64 L F)
  | TF64 => pmap VF (de_f64 L F)
  | TBool => de_bool L fm
  | TStr => pmap VStr (de_str L)
  | TUnit =>
    match fm with
    | Json => pbind (expect L KNull (chars "null")) (fun _ => pret VUnit)
    | Ron => pbind (expect L KParenOpen (chars "(")) (fun _ => pbind (expect L KParenClose (chars ")")) (fun _ => pret VUnit))
    end
  | TOpt t' => de_opt L fm (de t')
  | TSeq k t' => pmap VSeq (de_seq L de n k t')
  | TMap k tk tv => pmap VMap (de_map L de n k tk tv)
  | TArr m t' => pmap VSeq (de_bracketed L fm (repeat (de_item L fm de t') m))
  | TTup ts =>
    if tuple_arity (length ts) then pmap VSeq (de_bracketed L fm (map (comma_block L fm de) ts)) else pfail (Panic PNotCompiled)
  | TBox t' => de t'
  | TDur => de_dur L n
  | TTime => de_time L c fm n
  | TProxy p t' => match fm with Json => pmap (p_from p) (de t') | Ron => pfail (Panic PNotCompiled) end
  | TNamed _ => pfail (Panic PNotCompiled)
  end.

(** ** Programs: for every definition its world (what the names and expressions in it
    mean), the conversions of its proxies, and the code written for it.  A generic
    definition appears once for each use. *)
Record item (C S D : Type) := { it_world : world; it_self : str -> proxy; it_conv : C -> str -> proxy; it_def : sdef; it_ser : S; it_de : D }.
Arguments it_world {C S D}. Arguments it_self {C S D}. Arguments it_conv {C S D}. Arguments it_def {C S D}. Arguments it_ser {C S D}. Arguments it_de {C S D}.
(** A definition without its code. *)
Definition source C := item C unit unit.
Definition source_of {C S D} (a : item C S D) : source C :=
  {| it_world := it_world a; it_self := it_self a; it_conv := it_conv a; it_def := it_def a; it_ser := tt; it_de := tt |}.

Section Bin.
  Variable prog : list (item str sprog dprog).

  (** [TNamed i] is the i-th definition of the program. *)
  Fixpoint prog_ser (fuel : nat) (t : ty) (v : val) (out : list N) {struct fuel} : sres :=
    match fuel with
    | O => NoFuel
    | S n =>
      match t with
      | TNamed i =>
        match nth_error prog i with
        | Some a => run_ser (fun t => w_ty (it_world a) t None) (it_conv a) (sd_name (it_def a)) (shape_of (it_def a)) (prog_ser n) (it_ser a) v out
        | None => Panic PNotCompiled
        end
      | _ => lib_ser (prog_ser n) t v out
      end
    end.
  Fixpoint prog_de (c : cfg) (bytes : list N) (fuel : nat) (t : ty) {struct fuel} : bm val :=
    match fuel with
    | O => fun o => (o, NoFuel)
    | S n =>
      match t with
      | TNamed i =>
        match nth_error prog i with
        | Some a => run_de (fun t => w_ty (it_world a) t None) (w_default (it_world a)) (it_conv a) (sd_name (it_def a)) (shape_of (it_def a)) (prog_de c bytes n) (it_de a)
        | None => bfail (Panic PNotCompiled)
        end
      | _ => lib_de c bytes (prog_de c bytes n) t
      end
    end.
End Bin.

Section Text.
  Variable F : flt.
  Variable c : cfg.
  Variable fm : fmt.
  Variable prog : list (item ty jprog tdprog).

  Fixpoint prog_write (fuel : nat) (t : ty) (v : val) {struct fuel} : wres :=
    match fuel with
    | O => NoFuel
    | S n =>
      match t with
      | TNamed i =>
        match nth_error prog i with
        | Some a => run_jser fm (fun t => w_ty (it_world a) t None) (it_conv a) (it_self a) (shape_of (it_def a)) (prog_write n) (it_ser a) v
        | None => Panic PNotCompiled
        end
      | _ => lib_write F c fm (prog_write n) t v
      end
    end.
  Fixpoint prog_read (fuel : nat) (t : ty) {struct fuel} : pm val :=
    match fuel with
    | O => pfail NoFuel
    | S n =>
      match t with
      | TNamed i =>
        match nth_error prog i with
        | Some a => run_tde fm (fun t => w_ty (it_world a) t None) (w_expr (it_world a)) (w_default (it_world a)) (it_conv a) (it_self a) (shape_of (it_def a))
                      (text_lexer F fm) (prog_read n) n (it_de a)
        | None => pfail (Panic PNotCompiled)
        end
      | _ => lib_read (text_lexer F fm) F c fm (prog_read n) n t
      end
    end.
  (** [deserialize_json], [deserialize_ron]: the first token, then the reader. *)
  Definition prog_parse (fuel : nat) (t : ty) (text : str) : res terr val :=
    snd (pbind (l_next (text_lexer F fm)) (fun _ => prog_read fuel t) (start fm text)).
End Text.

(** The declarations that the definitions describe. *)
Definition decls {C S D} (prog : list (item C S D)) : env := map (fun a => source_decl (it_world a) (it_def a)) prog.
