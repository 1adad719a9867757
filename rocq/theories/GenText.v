(** Proofs for C69 and C70, part 1: the programs that the text macros write. *)
From Verif Require Import Base Types Text BinModel DeriveModel SpecDerive DeriveProofs PropsDerive GenModel GenJsonModel GenRonModel SpecGen Gen TextModel SpecGenText.
Local Open Scope N_scope.

Definition key_name (f : sfield) : str := match value_in (chars "rename") (items (sf_attrs f)) with Some r => r | None => sf_name f end.
Definition key_variant (v : svariant) : str := match value_in (chars "rename") (items (sv_attrs v)) with Some r => r | None => sv_name v end.
Definition opt (f : sfield) : bool := is_option (sf_type f).
Definition tvar : jexp := JPl (PVar (chars "t")).

(** ** JSON serializers *)
Definition guard (place_ : place) (f : sfield) : jexp :=
  match px f with Some q => if opt f then JMapInto q place_ else JInto q place_ | None => JPl place_ end.
Definition json_null (cnull : bool) (f : sfield) : bool :=
  (word_in (chars "serialize_none_as_null") (items (sf_attrs f)) || cnull) && negb (is_some (px f)).
Definition json_hdr (k1 k2 : nat) (sp : bool) (key : str) : list jbase := [JSep k1 k2; JWs k2; JTrue; JWs k2; JField sp key].
Definition json_field (cnull : bool) (f : sfield) : list jst :=
  if skipped f then []
  else if opt f then
    if json_null cnull f
    then map JB (json_hdr 49 45 true (key_name f)) ++
         [JB (JWs 20); JIfLet (guard (PSelf (sf_name f)) f) [JWs 24; JWs 24; JSer true tvar; JWs 20] [JWs 28; JNull; JWs 24]]
    else [JB (JWs 20); JIfLet (guard (PSelf (sf_name f)) f) ([JWs 24] ++ json_hdr 49 45 true (key_name f) ++ [JWs 24; JSer true tvar; JWs 20]) []; JB JSp]
  else map JB (json_hdr 24 20 false (key_name f) ++ [JWs 20; JSer true (guard (PSelf (sf_name f)) f)]).
Definition json_struct (cnull : bool) (fs : list sfield) : jprog :=
  JBlock true ([JB JPre; JB (JWs 16); JB JFalse] ++ concat (map (json_field cnull) fs) ++ [JB (JWs 16); JB JPost]).
Definition json_vfield (last : bool) (f : sfield) : list jst :=
  let l := [JField true (sf_name f); JSer true (guard (PVar (sf_name f)) f)] ++ (if last then [] else [JConl]) in
  if opt f then [JIfSome false (sf_name f) l] else map JB l.
Fixpoint json_vfields (fs : list sfield) : list jst :=
  match fs with [] => [] | f :: r => json_vfield (negb (nonempty r)) f ++ json_vfields r end.
Fixpoint json_vitems {A} (n : N) (l : list A) : list jst :=
  match l with
  | [] => []
  | _ :: r => JB (JSer false (JPl (PVar (fvar n)))) :: (if nonempty r then [JB JSp; JB (JPush 44)] else []) ++ json_vitems (n + 1) r
  end.
Definition json_arm (v : svariant) : str * spat * list jst :=
  let key := key_variant v in
  (sv_name v,
   match sv_payload v with PUnit => PatUnit | PTuple ts _ => PatTuple (fvars 0 ts) | PStruct fs _ => PatStruct (map sf_name fs) end,
   match sv_payload v with
   | PUnit => [JB (JLabel key)]
   | PTuple ts _ =>
     map JB [JWs 32; JPush 123; JWs 32; JLabel key; JWs 32; JPush 58; JWs 32; JPush 91; JWs 32] ++ json_vitems 0 ts ++
     map JB [JWs 32; JPush 93; JWs 32; JPush 125; JWs 28]
   | PStruct fs _ =>
     map JB [JWs 32; JPush 123; JWs 32; JLabel key; JWs 32; JPush 58; JWs 32; JPre; JWs 32] ++ json_vfields fs ++
     map JB [JWs 32; JPost; JWs 32; JPush 125; JWs 28]
   end).
Fixpoint json_items {A} (n : N) (l : list A) : list jst :=
  match l with
  | [] => []
  | _ :: r => JB (JSer false (JPl (PSelf (dec n)))) :: (if nonempty r then [JB (JPushStr (chars ", "))] else []) ++ json_items (n + 1) r
  end.
Definition json_unnamed (tr : bool) (fs : list sfield) : jprog :=
  JBlock false
    match fs with
    | [] => [JB (JPush 123); JB (JPush 125)]
    | [f] => if tr then [JB (JSer false (JPl (PSelf (chars "0"))))] else [JB (JPush 91)] ++ json_items 0 fs ++ [JB (JPush 93)]
    | _ => [JB (JPush 91)] ++ json_items 0 fs ++ [JB (JPush 93)]
    end.
Definition container_proxy (d : sdef) := value_in (chars "proxy") (items (sd_attrs d)).
Definition mk_json_ser (d : sdef) : jprog :=
  match sd_body d with
  | KEnum vs _ => JMatch (map json_arm vs)
  | KNamed fs _ =>
    match container_proxy d with Some p => JVia p | None => json_struct (word_in (chars "serialize_none_as_null") (items (sd_attrs d))) fs end
  | KTuple fs _ =>
    match container_proxy d with Some p => JVia p | None => json_unnamed (word_in (chars "transparent") (items (sd_attrs d))) fs end
  | KUnit => match container_proxy d with Some p => JVia p | None => json_unnamed false [] end
  end.

(** ** RON serializers *)
Definition ron_field (f : sfield) : list jst :=
  if skipped f then []
  else if opt f
  then [JIfLet (JPl (PSelf (sf_name f))) [JWs 20; JField true (key_name f); JWs 20; JSer true tvar; JWs 20; JConl; JWs 16] []; JB JSemi]
  else map JB [JField false (key_name f); JWs 16; JSer true (JPl (PSelf (sf_name f))); JWs 16; JConl].
Definition ron_struct (fs : list sfield) : jprog :=
  JBlock true ([JB JPre; JB (JWs 16)] ++ concat (map ron_field fs) ++ [JB (JWs 16); JB JPost]).
Fixpoint ron_items (n : N) (l : list sfield) : list jst :=
  match l with
  | [] => []
  | f :: r =>
    (if skipped f then []
     else JB (JSer false (JPl (PSelf (dec n)))) :: (if nonempty r then [JB (JPushStr (chars ", "))] else [])) ++ ron_items (n + 1) r
  end.
Definition ron_vfield (f : sfield) : list jst :=
  if opt f
  then [JIfSome true (sf_name f) [JWs 32; JField true (sf_name f); JWs 32; JSer true (JPl (PVar (sf_name f))); JWs 32; JConl; JWs 28]]
  else map JB [JField true (sf_name f); JWs 28; JSer true (JPl (PVar (sf_name f))); JWs 28; JConl].
Fixpoint ron_vitems {A} (n : N) (l : list A) : list jst :=
  match l with
  | [] => []
  | _ :: r => JB (JSer false (JPl (PVar (fvar n)))) :: (if nonempty r then [JB (JPushStr (chars ","))] else []) ++ ron_vitems (n + 1) r
  end.
Definition ron_arm (v : svariant) : str * spat * list jst :=
  (sv_name v,
   match sv_payload v with PUnit => PatUnit | PTuple ts _ => PatTuple (fvars 0 ts) | PStruct fs _ => PatStruct (map sf_name fs) end,
   match sv_payload v with
   | PUnit => [JB (JPushStr (sv_name v))]
   | PTuple ts _ =>
     map JB [JWs 24; JPushStr (sv_name v); JWs 24; JPush 40; JWs 24] ++ ron_vitems 0 ts ++ map JB [JWs 24; JPush 41; JWs 20]
   | PStruct fs _ =>
     map JB [JWs 24; JPushStr (sv_name v); JWs 24; JPre; JWs 24] ++ concat (map ron_vfield fs) ++ map JB [JWs 24; JPost; JWs 20]
   end).
Definition mk_ron_ser (d : sdef) : jprog :=
  match sd_body d with
  | KEnum vs _ => JMatch (map ron_arm vs)
  | KNamed fs _ => ron_struct fs
  | KTuple fs _ => JBlock false ([JB (JPush 40); JB (JWs 16)] ++ ron_items 0 fs ++ [JB (JWs 16); JB (JPush 41)])
  | KUnit => JBlock false []
  end.

(** ** Deserializers *)
Definition local (f : sfield) : str := chars "_" ++ sf_name f.
Definition clos (f : sfield) : tclos :=
  match px f with Some p => if opt f then KSomeFrom p else KFrom p | None => KId end.
Definition dd : str := chars "Default::default()".
Definition json_init (dflts : bool) (f : sfield) : tinit :=
  match skipped f, source_default (sf_type f) (items (sf_attrs f)) with
  | true, Some e => UExpr e
  | true, None => UExpr dd
  | false, Some e => UElse (local f) e (clos f)
  | false, None => if opt f || dflts then UDefault (local f) (clos f) else UErr (local f) (clos f) (sf_name f)
  end.
Definition arms_of (fs : list sfield) : option (list (str * str)) :=
  match fs with [] => None | _ => Some (map (fun f => (key_name f, local f)) (filter (fun f => negb (skipped f)) fs)) end.
Definition json_named (dflts : bool) (fs : list sfield) : tnamed :=
  {| tn_locals := map (fun f => (local f, None)) (filter (fun f => negb (skipped f)) fs);
     tn_arms := arms_of fs;
     tn_inits := map (fun f => (sf_name f, json_init dflts f)) fs |}.
Definition is_unit_v (v : svariant) : bool := match sv_payload v with PUnit => true | _ => false end.
Definition json_darm (v : svariant) : tarm :=
  (key_variant v, sv_name v,
   match sv_payload v with PUnit => TpUnit | PTuple ts _ => TpTuple (length ts) | PStruct fs _ => TpNamed (json_named false fs) end).
Definition json_dunnamed (tr : bool) (fs : list sfield) : tdprog :=
  match fs with
  | [] => TdUnit
  | [_] => TdTuple (negb tr) [false]
  | _ => TdTuple true (map (fun _ => true) fs)
  end.
Definition mk_json_de (d : sdef) : tdprog :=
  match sd_body d with
  | KEnum vs _ => TdJson (map json_darm (filter (fun v => negb (is_unit_v v)) vs)) (map json_darm (filter is_unit_v vs))
  | KNamed fs _ =>
    match container_proxy d with
    | Some p => TdVia p
    | None => TdNamed (json_named (is_some (default_in (items (sd_attrs d))) || is_some (value_in (chars "default_with") (items (sd_attrs d)))) fs)
    end
  | KTuple fs _ =>
    match container_proxy d with Some p => TdVia p | None => json_dunnamed (word_in (chars "transparent") (items (sd_attrs d))) fs end
  | KUnit => match container_proxy d with Some p => TdVia p | None => TdUnit end
  end.
Definition ron_init (dflts : bool) (f : sfield) : tinit :=
  match source_default (sf_type f) (items (sf_attrs f)) with
  | Some e => UOr (local f) e
  | None => if dflts || skipped f || opt f then UOr (local f) dd else UNf (local f) (sf_name f)
  end.
Definition ron_named (dflts : bool) (fs : list sfield) : tnamed :=
  {| tn_locals := map (fun f => (local f, Some (ty_text (sf_type f)))) fs;
     tn_arms := arms_of fs;
     tn_inits := map (fun f => (sf_name f, ron_init dflts f)) fs |}.
Definition ron_darm (v : svariant) : tarm :=
  (sv_name v, sv_name v,
   match sv_payload v with PUnit => TpUnit | PTuple ts _ => TpTuple (length ts) | PStruct fs _ => TpNamed (ron_named false fs) end).
Definition mk_ron_de (d : sdef) : tdprog :=
  match sd_body d with
  | KEnum vs _ => TdRon (map ron_darm vs)
  | KNamed fs _ => TdNamed (ron_named (is_some (default_in (items (sd_attrs d)))) fs)
  | KTuple fs _ => TdTuple true (map (fun _ => true) fs)
  | KUnit => TdUnit
  end.
