(** Model of the [Display]/[Debug] text of the error types ([Display] calls [Debug]
    everywhere) and of the accessors of [Toml].

    [write!] of a [usize] or [u16] prints its decimal numeral ([dec]).  The [Debug]
    text of a token inside a message, of the range message of the binary reader and
    the message of a TOML error are arbitrary functions ([showt], [shown]).  The
    additions [line + 1] and [col + 1] are on [usize] and cannot overflow: both are
    at most the length of a string. *)
From Verif Require Import Base Utf8 Types BinModel Text TextModel TomlModel.
Local Open Scope N_scope.

(** serde_bin.rs:91-116.  [showr]: the text of [DeBinErrReason::Range]. *)
Definition show_berr (showr : str) (e : berr) : str :=
  match e_msg e with
  | ELength l s => chars "Bin deserialize error at:" ++ dec (e_o e) ++ chars " wanted:" ++ dec l ++ chars " bytes but max size is " ++ dec s
  | ERange => chars "Bin deserialize error at:" ++ dec (e_o e) ++ chars " " ++ showr
  | EDiscriminant tag => chars "Bin deserialize error at " ++ dec (e_o e) ++ chars ": Unknown variant " ++ dec tag
  end.
(** DeJsonErrReason: serde_json.rs:160-174; DeRonErrReason: serde_ron.rs:151-165.
    [WrongType] is never constructed. *)
Definition show_reason (showt : tok -> str) (m : tmsg) : str :=
  match m with
  | UnexpectedKey name => chars "Unexpected key " ++ name
  | MissingKey name => chars "Key not found " ++ name
  | NoSuchEnum name => chars "Enum not defined " ++ name
  | UnexpectedToken t name => chars "Unexpected token " ++ showt t ++ chars " expected " ++ name ++ chars " "
  | OutOfRange value => chars "Value out of range " ++ value ++ chars " "
  | CannotParse what => chars "Cannot parse " ++ what ++ chars " "
  end.
(** serde_json.rs:176-197; serde_ron.rs:167-188. *)
Definition show_terr (showt : tok -> str) (fm : fmt) (e : terr) : str :=
  match fm with Json => chars "Json" | Ron => chars "Ron" end ++ chars " Deserialize error: " ++ show_reason showt (e_reason e) ++
  chars ", line:" ++ dec (e_line e + 1) ++ chars " col:" ++ dec (e_col e + 1).
(** toml.rs:203-219; [self.col] is 0 in every error (toml.rs:392-397). *)
Definition show_qerr (shown : qmsg -> str) (e : qerr) : str :=
  chars "Toml error: " ++ shown (q_msg e) ++ chars ", line:" ++ dec (q_line e + 1) ++ chars " col:" ++ dec (0 + 1).

(** ** Accessors of [Toml], toml.rs:139-192; [None]: the call panics. *)
Definition toml_num (v : toml) : option N := match v with TVNum n => Some n | _ => None end.
Definition toml_str (v : toml) : option str := match v with TVStr s => Some s | _ => None end.
Definition toml_boolean (v : toml) : option bool := match v with TVBool b => Some b | _ => None end.
Definition toml_date (v : toml) : option str := match v with TVDate s => Some s | _ => None end.
Definition toml_arr (v : toml) : option (list tmap) := match v with TVTables l => Some l | _ => None end.
Definition toml_simple_arr (v : toml) : option (list toml) := match v with TVArr l => Some l | _ => None end.
(** [Index<usize> for Toml], toml.rs:125-134: [array[index]] checks its bound. *)
Definition toml_index (v : toml) (i : nat) : option tmap := match v with TVTables l => nth_error l i | _ => None end.
(** [map[key]] on the [BTreeMap] that [parse] returns: panics for a key that is not there. *)
Definition map_index (m : tmap) (k : str) : option toml := t_get k m.
