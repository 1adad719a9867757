(** Specification side of the TOML theorems: documents, their entries and what a
    map of them holds.  From the model only the types of values ([toml], [tmap]),
    looking up a key ([t_get]) and the characters of bare keys ([q_ident], the table
    of the TOML grammar) are used. *)
From Verif Require Import Base Utf8 Types Text TextModel SpecText SpecGram TomlModel.
Local Open Scope N_scope.

(** ** Space *)
(** Blanks, line ends and comments up to the end of their line. *)
Inductive tgap : str -> Prop :=
| tg_nil : tgap []
| tg_ws x g : ws_char x -> tgap g -> tgap (x :: g)
| tg_comment body g : Forall (fun x => x <> 10 /\ x <> 0) body -> tgap g -> tgap (35 :: body ++ 10 :: g).
Definition blanks (s : str) : Prop := Forall (fun x => x = 32 \/ x = 9) s.

(** ** Values: the text of a literal and the value it stands for *)
(** What may come after a value: anything; anything that ends a number; anything
    that ends a word. *)
Inductive tkind := FreeEnd | NumEnd | WordEnd.
Definition follows (k : tkind) (r : str) : Prop :=
  match k with
  | FreeEnd => True
  | NumEnd => r = [] \/ In (cur r) [32; 9; 10; 13; 44; 93; 35; 61]
  | WordEnd => r = [] \/ In (cur r) [32; 9; 10; 13; 93; 61]
  end.

(** Contents of a basic string: no line-feed escapes and the like, see C45_refuted_escape. *)
Inductive tchars : str -> str -> Prop :=
| tc_end : tchars [] []
| tc_plain x t s : x <> 34 -> x <> 92 -> x <> 0 -> tchars t s -> tchars (x :: t) (x :: s)
| tc_esc x t s : x = 34 \/ x = 92 -> tchars t s -> tchars (92 :: x :: t) (x :: s).

(** Digits with underscores among them, and the digits alone. *)
Definition spread (d u : str) : Prop :=
  Forall (fun x => 48 <= x <= 57 \/ x = 95) u /\ d = filter (fun x => negb (x =? 95)) u.
(** ... starting with a digit. *)
Definition number_of (d u : str) : Prop := spread d u /\ exists x r, u = x :: r /\ 48 <= x <= 57.
(** A sign as written and whether it is a minus. *)
Definition sign (sg : str) (neg : bool) : Prop := sg = [] /\ neg = false \/ sg = [43] /\ neg = false \/ sg = [45] /\ neg = true.
Definition minus (neg : bool) : str := if neg then [45] else [].
Definition date_char (x : N) : Prop := 48 <= x <= 57 \/ x = 58 \/ x = 45 \/ x = 84.

Definition nan64 (neg : bool) : N := if neg then 0xfff8000000000000 else 0x7ff8000000000000.
Definition inf64 (neg : bool) : N := if neg then 0xfff0000000000000 else 0x7ff0000000000000.

Section Values.
  Variable F : flt.   (* the standard library's floats: [as f64] and [parse] *)
  Inductive tvalue : str -> toml -> tkind -> Prop :=
  | tv_str b s : tchars b s -> b <> [] -> tvalue (34 :: b ++ [34]) (TVStr s) FreeEnd
  | tv_true : tvalue (chars "true") (TVBool true) WordEnd
  | tv_false : tvalue (chars "false") (TVBool false) WordEnd
  | tv_nan sg neg : sign sg neg -> tvalue (sg ++ chars "nan") (TVNum (nan64 neg)) WordEnd
  | tv_inf sg neg : sign sg neg -> tvalue (sg ++ chars "inf") (TVNum (inf64 neg)) WordEnd
  | tv_int sg neg d u : sign sg neg -> number_of d u ->
      (if neg then decimal d <= 2 ^ 63 else decimal d < 2 ^ 63) ->
      tvalue (sg ++ u) (TVNum (f64_of_z F (if neg then - Z.of_N (decimal d) else Z.of_N (decimal d)))) NumEnd
  | tv_float sg neg d u e w b : sign sg neg -> number_of d u -> spread e w ->
      f64_parse F (minus neg ++ d ++ 46 :: e) = Some b ->
      tvalue (sg ++ u ++ 46 :: w) (TVNum b) NumEnd
  | tv_date d w : all_digits d -> Forall date_char w -> tvalue (d ++ 45 :: w) (TVDate (d ++ 45 :: w)) NumEnd
  | tv_arr s l : titems s l -> tvalue (91 :: s ++ [93]) (TVArr l) FreeEnd
  with titems : str -> list toml -> Prop :=
  | ti_none g : tgap g -> titems g []
  | ti_last a x v k b : tgap a -> tvalue x v k -> tgap b -> follows k (b ++ [93]) -> titems (a ++ x ++ b) [v]
  | ti_more a x v k b s l : tgap a -> tvalue x v k -> tgap b -> follows k (b ++ [44]) -> titems s l ->
      titems (a ++ x ++ b ++ 44 :: s) (v :: l).
End Values.
Scheme tvalue_mind := Minimality for tvalue Sort Prop with titems_mind := Minimality for titems Sort Prop.
Combined Scheme tvalue_mutind from tvalue_mind, titems_mind.

(** ** Keys: the text of a key and the key *)
Definition key_char (x : N) : Prop := q_ident x = true \/ x = 46.
Definition special (w : str) : Prop := In w [chars "true"; chars "false"; chars "inf"; chars "nan"].
Inductive keykind := Bare | NumberLike | Quoted.
Inductive tkey : str -> str -> keykind -> Prop :=
| tk_bare x w : q_ident x = true -> ~ 48 <= x <= 57 -> x <> 45 -> Forall key_char w -> ~ special (x :: w) ->
    tkey (x :: w) (x :: w) Bare
(* digits first, then letters: 123abc *)
| tk_mixed d x w : all_digits d -> q_ident x = true -> ~ 48 <= x <= 57 -> x <> 45 -> x <> 95 -> Forall key_char w ->
    tkey (d ++ x :: w) (d ++ x :: w) Bare
| tk_word w : special w -> tkey w w NumberLike
| tk_int d : all_digits d -> no_leading_zero d -> decimal d < 2 ^ 63 -> tkey d d NumberLike
| tk_date d w : all_digits d -> Forall date_char w -> tkey (d ++ 45 :: w) (d ++ 45 :: w) NumberLike
| tk_quoted b s : tchars b s -> b <> [] -> tkey (34 :: b ++ [34]) s Quoted.

(** ** Documents *)
Inductive entry :=
| ETable (k : str)              (* [k] *)
| ETables (k : str)             (* [[k]] *)
| ESet (k : str) (v : toml).    (* k = v *)
Section Documents.
  Variable F : flt.
  Inductive tdoc : list entry -> str -> Prop :=
  | td_end g : tgap g -> tdoc [] g
  | td_comment g body : tgap g -> Forall (fun x => x <> 10 /\ x <> 0) body -> tdoc [] (g ++ 35 :: body)
  | td_set g kt k kk a b x v e r es : tgap g -> tkey kt k kk -> blanks a -> blanks b -> tvalue F x v e -> follows e r -> tdoc es r ->
      tdoc (ESet k v :: es) (g ++ kt ++ a ++ 61 :: b ++ x ++ r)
  | td_table g kt k kk a b r es : tgap g -> blanks a -> tkey kt k kk -> kk <> NumberLike -> blanks b -> tdoc es r ->
      tdoc (ETable k :: es) (g ++ 91 :: a ++ kt ++ b ++ 93 :: r)
  | td_tables g kt k kk a b r es : tgap g -> blanks a -> tkey kt k kk -> kk <> Quoted -> blanks b -> tdoc es r ->
      tdoc (ETables k :: es) (g ++ 91 :: 91 :: a ++ kt ++ b ++ 93 :: 93 :: r).
End Documents.

(** ** What a document means *)
(** The full key of an assignment under the table header [scope] ([[]]: none). *)
Definition full_key (scope k : str) : str := match scope with [] => k | _ => scope ++ 46 :: k end.
(** The assignments up to the first [[k]] header, with full keys. *)
Fixpoint settings (scope : str) (es : list entry) : list (str * toml) :=
  match es with
  | [] => []
  | ETable k :: r => settings k r
  | ETables _ :: _ => []
  | ESet k v :: r => (full_key scope k, v) :: settings scope r
  end.
(** The [[k]] headers, each with the assignments up to the next one. *)
Fixpoint sections (es : list entry) : list (str * list (str * toml)) :=
  match es with
  | [] => []
  | ETables k :: r => (k, settings [] r) :: sections r
  | _ :: r => sections r
  end.
(** The value assigned last to [k]. *)
Definition last_value (l : list (str * toml)) (k : str) (v : toml) : Prop := exists a b, l = a ++ (k, v) :: b /\ ~ In k (map fst b).
(** [m] holds exactly the keys assigned in [l], each with its last value. *)
Definition holds (l : list (str * toml)) (m : tmap) : Prop := forall k v, t_get k m = Some v <-> last_value l k v.
(** Entries of the map come in ascending order of the keys, each key once. *)
Fixpoint sorted (m : tmap) : Prop :=
  match m with
  | [] => True
  | (k, _) :: r => Forall (fun e => list_cmp N.compare k (fst e) = Lt) r /\ sorted r
  end.
Definition no_tables (es : list entry) : Prop := Forall (fun e => match e with ETables _ => False | _ => True end) es.
(** The sections [[k]], in order. *)
Definition of_key (k : str) (l : list (str * list (str * toml))) : list (list (str * toml)) :=
  map snd (filter (fun s => str_eqb k (fst s)) l).
(** Assignments before the first [[k]] header are entries of the map; all sections
    [[k]] together are one entry, the list of their maps. *)
Definition means (es : list entry) (m : tmap) : Prop :=
  sorted m /\
  forall k v, t_get k m = Some v <->
    last_value (settings [] es) k v \/
    exists ms, v = TVTables ms /\ ms <> [] /\ Forall2 (fun l x => holds l x /\ sorted x) (of_key k (sections es)) ms.
(** A header [[k]] although [k] was assigned. *)
Definition clash (es : list entry) : Prop := exists k, In k (map fst (settings [] es)) /\ In k (map fst (sections es)).

(** Line breaks in a text. *)
Definition newlines (s : str) : N := lenN (filter (fun c => c =? 10) s).
