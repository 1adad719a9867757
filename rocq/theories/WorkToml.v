(** The TOML parser with a counter (C87): the model in TomlModel.v, line by line,
    except that every call of [next_tok] counts one, and one more for every character
    it moves over.  [counted_toml] says that apart from the counter it is the model. *)
From Verif Require Import Base Utf8 Types Text TextModel TextToks TomlModel TomlTerm.
Local Open Scope nat_scope.

(** State: the parser and the count. *)
Definition km (A : Type) := qst * nat -> (qst * nat) * res qerr A.
Definition kret {A} (a : A) : km A := fun s => (s, Ok a).
Definition kfail {A} (r : res qerr A) : km A := fun s => (s, r).
Definition kbind {A B} (m : km A) (f : A -> km B) : km B := fun s =>
  match m s with
  | (s', Ok a) => f a s'
  | (s', Err e) => (s', Err e)
  | (s', Panic p) => (s', Panic p)
  | (s', NoFuel) => (s', NoFuel)
  end.
Definition k_err {A} (t : ttok) : km A := fun s => let (q, r) := q_err (A := A) t (fst s) in ((q, snd s), r).
(** [next_tok], T:419-495, counted. *)
Definition k_next (F : flt) : km ttok := fun s =>
  let (q, r) := q_next F (fst s) in ((q, snd s + 1 + (length (q_inp (fst s)) - length (q_inp q))), r).

Section Parser.
  Variable F : flt.
  Variable show : N -> str.

  (** T:343-353 *)
  Fixpoint k_vals (val : ttok -> km toml) (n : nat) : km (list toml) :=
    match n with
    | O => kfail NoFuel
    | S n' =>
      kbind (k_next F) (fun t =>
      match t with
      | QClose | QEof => kret []
      | QComma => k_vals val n'
      | _ => kbind (val t) (fun v => kbind (k_vals val n') (fun r => kret (v :: r)))
      end)
    end.
  (** [to_val], T:340-365. *)
  Fixpoint k_val (n : nat) (t : ttok) {struct n} : km toml :=
    match n with
    | O => kfail NoFuel
    | S n' =>
      match t with
      | QOpen => kbind (k_vals (k_val n') n') (fun l => kret (TVArr l))
      | QStr s => kret (TVStr s)
      | QU64 v => kret (TVNum (f64_of_z F (Z.of_N v)))
      | QI64 v => kret (TVNum (f64_of_z F v))
      | QF64 b => kret (TVNum b)
      | QBool b => kret (TVBool b)
      | QNan neg => kret (TVNum (with_sign neg nan_bits))
      | QInf neg => kret (TVNum (with_sign neg inf_bits))
      | QDate s => kret (TVDate s)
      | _ => k_err t
      end
    end.
  (** [parse_key_value], T:367-387. *)
  Definition k_key_value (n : nat) (scope key : str) (o : out) : km out :=
    match o_check o with
    | Some p => kfail (Panic p)
    | None =>
      kbind (k_next F) (fun t =>
      match t with
      | QEq =>
        kbind (k_next F) (fun t2 => kbind (k_val n t2) (fun v =>
        kret (o_insert (match scope with [] => key | _ => scope ++ c_dot :: key end) v o)))
      | _ => k_err t
      end)
    end.
  (** [parse_line], T:274-337. *)
  Definition k_close : km unit := kbind (k_next F) (fun t => match t with QClose => kret tt | _ => k_err t end).
  Definition k_line (n : nat) (scope : str) (o : out) : km (option (str * out)) :=
    kbind (k_next F) (fun t =>
    match t with
    | QEof => kret None
    | QOpen =>
      kbind (k_next F) (fun t2 =>
      match t2 with
      | QStr key | QIdent key => kbind k_close (fun _ => kret (Some (key, o)))
      | QOpen =>
        kbind (k_next F) (fun t3 =>
        match t3 with
        | QIdent _ | QU64 _ | QI64 _ | QF64 _ | QBool _ | QNan _ | QInf _ | QDate _ =>
          kbind k_close (fun _ => kbind k_close (fun _ =>
          match start_array (q_text show t3) o with
          | Ok o' => kret (Some ([], o'))
          | Err e => kfail (Err e)
          | Panic p => kfail (Panic p)
          | NoFuel => kfail NoFuel
          end))
        | _ => k_err t3
        end)
      | _ => k_err t2
      end)
    | QStr _ | QIdent _ | QU64 _ | QI64 _ | QF64 _ | QBool _ | QNan _ | QInf _ | QDate _ =>
      kbind (k_key_value n scope (q_text show t) o) (fun o' => kret (Some (scope, o')))
    | _ => k_err t
    end).
  (** The loop of [parse], T:260-272. *)
  Fixpoint k_lines (n : nat) (scope : str) (o : out) : km tmap :=
    match n with
    | O => kfail NoFuel
    | S n' =>
      kbind (k_line n' scope o) (fun r =>
      match r with
      | None => kret (o_map o)
      | Some (scope', o') => k_lines n' scope' o'
      end)
    end.
  (** [TomlParser::parse] with the count. *)
  Definition counted_toml (n : nat) (text : str) : nat * res qerr tmap :=
    let (s, r) := k_lines n [] {| o_map := []; o_active := None |} (q_start text, 0) in (snd s, r).

  (** ** Without the counter it is the model *)
  Definition same_but {A} (k : km A) (m : qm A) : Prop := forall s, (fst (fst (k s)), snd (k s)) = m (fst s).
  Lemma sb_ret {A} (a : A) : same_but (kret a) (qret a).
  Proof. intro s. reflexivity. Qed.
  Lemma sb_fail {A} (r : res qerr A) : same_but (kfail r) (qfail r).
  Proof. intro s. reflexivity. Qed.
  Lemma sb_err {A} t : same_but (k_err (A := A) t) (q_err t).
  Proof. intro s. reflexivity. Qed.
  Lemma sb_next : same_but (k_next F) (q_next F).
  Proof. intro s. unfold k_next. destruct (q_next F (fst s)). reflexivity. Qed.
  Lemma sb_bind {A B} (k : km A) m (f : A -> km B) g : same_but k m -> (forall a, same_but (f a) (g a)) -> same_but (kbind k f) (qbind m g).
  Proof.
    intros H Hf s. unfold kbind, qbind. rewrite <- H. destruct (k s) as [s' [a|e|p|]]; cbn [fst snd]; [apply Hf|reflexivity..].
  Qed.
  Lemma sb_vals kv v : (forall t, same_but (kv t) (v t)) -> forall n, same_but (k_vals kv n) (q_vals F v n).
  Proof.
    intro H. induction n as [|n IH]; [apply sb_fail|]. cbn. apply sb_bind; [apply sb_next|].
    assert (V : forall t, same_but (kbind (kv t) (fun v0 => kbind (k_vals kv n) (fun r => kret (v0 :: r)))) (qbind (v t) (fun v0 => qbind (q_vals F v n) (fun r => qret (v0 :: r))))).
    { intro t. apply sb_bind; [apply H|]. intro. apply sb_bind; [exact IH|]. intro. apply sb_ret. }
    intros []; first [apply V | exact IH | apply sb_ret].
  Qed.
  Lemma sb_val : forall n t, same_but (k_val n t) (q_val F n t).
  Proof.
    induction n as [|n IH]; intro t; [apply sb_fail|]. cbn. destruct t; first [apply sb_ret | apply sb_err | idtac].
    apply sb_bind; [apply sb_vals, IH|]. intro. apply sb_ret.
  Qed.
  Lemma sb_key_value n scope key o : same_but (k_key_value n scope key o) (q_key_value F n scope key o).
  Proof.
    unfold k_key_value, q_key_value. destruct (o_check o); [apply sb_fail|]. apply sb_bind; [apply sb_next|]. intros []; try apply sb_err.
    apply sb_bind; [apply sb_next|]. intro. apply sb_bind; [apply sb_val|]. intro. apply sb_ret.
  Qed.
  Lemma sb_close : same_but k_close (q_close F).
  Proof. apply sb_bind; [apply sb_next|]. intros []; first [apply sb_ret | apply sb_err]. Qed.
  Lemma sb_line n scope o : same_but (k_line n scope o) (q_line_ F show n scope o).
  Proof.
    apply sb_bind; [apply sb_next|].
    assert (K : forall t, same_but (kbind (k_key_value n scope (q_text show t) o) (fun o' => kret (Some (scope, o')))) (qbind (q_key_value F n scope (q_text show t) o) (fun o' => qret (Some (scope, o'))))).
    { intro t. apply sb_bind; [apply sb_key_value|]. intro. apply sb_ret. }
    intro t. destruct t; first [apply K | apply sb_ret | apply sb_err | idtac].
    apply sb_bind; [apply sb_next|]. intro t. destruct t; first [apply sb_err | (apply sb_bind; [apply sb_close|intro; apply sb_ret]) | idtac].
    apply sb_bind; [apply sb_next|].
    assert (A : forall t, same_but
      (kbind k_close (fun _ => kbind k_close (fun _ => match start_array (q_text show t) o with Ok o' => kret (Some (([] : str), o')) | Err e => kfail (Err e) | Panic p => kfail (Panic p) | NoFuel => kfail NoFuel end)))
      (qbind (q_close F) (fun _ => qbind (q_close F) (fun _ => match start_array (q_text show t) o with Ok o' => qret (Some (([] : str), o')) | Err e => qfail (Err e) | Panic p => qfail (Panic p) | NoFuel => qfail NoFuel end)))).
    { intro t. apply sb_bind; [apply sb_close|]. intro. apply sb_bind; [apply sb_close|]. intro. destruct (start_array _ _); first [apply sb_ret | apply sb_fail]. }
    intro t. destruct t; first [apply sb_err | apply A].
  Qed.
  Lemma sb_lines : forall n scope o, same_but (k_lines n scope o) (q_lines F show n scope o).
  Proof.
    induction n as [|n IH]; intros scope o; [apply sb_fail|]. cbn. apply sb_bind; [apply sb_line|]. intros [[s' o']|]; [apply IH|apply sb_ret].
  Qed.
  Lemma counted_toml_same n text : snd (counted_toml n text) = parse_toml F show n text.
  Proof.
    unfold counted_toml, parse_toml. rewrite <- (sb_lines n [] _ (q_start text, 0)). destruct (k_lines _ _ _ _) as [s r]. reflexivity.
  Qed.

  (** ** What it costs: three for a character, and one *)
  Definition left (s : qst * nat) : nat := snd s + 3 * length (q_inp (fst s)).
  Lemma left_next s : match k_next F s with
    | (s', Ok t) => left s' <= left s + 1 /\ (t <> QEof -> left s' + 1 <= left s)
    | (s', _) => left s' <= left s + 1
    end.
  Proof.
    unfold k_next, q_next. pose proof (scan_result F (S (length (q_inp (fst s)))) (q_inp (fst s))) as [S1 S2].
    destruct (q_scan F _ _) as [l' [t|w]]; cbn [fst snd] in *; apply suffix_len in S1; unfold left; cbn [fst snd q_inp]; [|lia].
    split; [lia|]. intro Ht. destruct (S2 t eq_refl); [contradiction|]. lia.
  Qed.
  Definition costs {A} (b : nat) (m : km A) : Prop := forall s, left (fst (m s)) <= left s + b.
  Lemma cost_next_ {A} (f : ttok -> km A) b : 1 <= b -> (forall s, left (fst (f QEof s)) + 1 <= left s + b) -> (forall t, t <> QEof -> costs (S b) (f t)) ->
    costs b (kbind (k_next F) f).
  Proof.
    intros Hb He Hf s. unfold kbind. pose proof (left_next s) as N. destruct (k_next F s) as [s' [t|e|p|]]; cbn [fst]; try lia. destruct N as [N1 N2].
    assert (D : t = QEof \/ t <> QEof) by (destruct t; first [left; reflexivity | right; discriminate]). destruct D as [->|D].
    - specialize (He s'). lia.
    - specialize (Hf t D s'). specialize (N2 D). lia.
  Qed.
  Lemma cost_ret {A} (a : A) b : costs b (kret a).
  Proof. intro s. cbn. lia. Qed.
  Lemma cost_fail {A} (r : res qerr A) b : costs b (kfail r).
  Proof. intro s. cbn. lia. Qed.
  Lemma cost_err {A} t b : costs b (k_err (A := A) t).
  Proof. intro s. unfold left. cbn. lia. Qed.
  Lemma cost_bind {A B} a b c (m : km A) (f : A -> km B) : costs a m -> (forall x, costs b (f x)) -> a + b <= c -> costs c (kbind m f).
  Proof.
    intros Hm Hf Hc s. specialize (Hm s). unfold kbind. destruct (m s) as [s' [x|e|p|]]; cbn [fst] in *; try lia. specialize (Hf x s'). lia.
  Qed.
  Lemma cost_vals kv : (forall t, costs 1 (kv t)) -> forall n, costs 1 (k_vals kv n).
  Proof.
    intro H. induction n as [|n IH]; [apply cost_fail|]. cbn. apply cost_next_; [lia|intro s; cbn; lia|].
    assert (V : forall t, costs 2 (kbind (kv t) (fun v0 => kbind (k_vals kv n) (fun r => kret (v0 :: r))))).
    { intro t. eapply cost_bind; [apply H| |apply le_n]. intro. eapply cost_bind; [exact IH|intro; apply (cost_ret _ 0)|apply le_n]. }
    intros t Ht. destruct t; first [apply V | apply cost_ret | (intro s; specialize (IH s); lia)].
  Qed.
  Lemma cost_val : forall n t, costs 1 (k_val n t).
  Proof.
    induction n as [|n IH]; intro t; [apply cost_fail|]. cbn. destruct t; first [apply cost_ret | apply cost_err | idtac].
    eapply cost_bind; [apply cost_vals, IH|intro; apply (cost_ret _ 0)|apply le_n].
  Qed.
  Lemma cost_key_value n scope key o : costs 1 (k_key_value n scope key o).
  Proof.
    unfold k_key_value. destruct (o_check o); [apply cost_fail|]. apply cost_next_; [lia|intro s; unfold left; cbn; lia|].
    intros t Ht. destruct t; try apply cost_err. apply cost_next_; [lia|destruct n; intro s; unfold left; cbn; lia|].
    intros t2 _. eapply cost_bind; [apply cost_val|intro; apply (cost_ret _ 0)|lia].
  Qed.
  Lemma cost_close : costs 1 k_close.
  Proof. apply cost_next_; [lia|intro s; unfold left; cbn; lia|]. intros t Ht. destruct t; first [apply cost_ret | apply cost_err]. Qed.
  Lemma cost_line n scope o s : left (fst (k_line n scope o s)) <= left s + match snd (k_line n scope o s) with Ok (Some _) => 0 | _ => 1 end.
  Proof.
    unfold k_line. set (f := fun t : ttok => _).
    assert (Hf : forall t, t <> QEof -> costs 1 (f t)).
    { assert (K : forall t, costs 1 (kbind (k_key_value n scope (q_text show t) o) (fun o' => kret (Some (scope, o'))))).
      { intro t. eapply cost_bind; [apply cost_key_value|intro; apply (cost_ret _ 0)|apply le_n]. }
      intros t Ht. destruct t; unfold f; first [apply K | apply cost_ret | apply cost_err | idtac].
      apply cost_next_; [lia|intro s0; unfold left; cbn; lia|]. intros t _. destruct t; try apply cost_err.
      - eapply cost_bind; [apply cost_close|intro; apply (cost_ret _ 0)|lia].
      - eapply cost_bind; [apply cost_close|intro; apply (cost_ret _ 0)|lia].
      - apply cost_next_; [lia|intro s0; unfold left; cbn; lia|].
        assert (A : forall t, costs 3
          (kbind k_close (fun _ => kbind k_close (fun _ => match start_array (q_text show t) o with Ok o' => kret (Some (([] : str), o')) | Err e => kfail (Err e) | Panic p => kfail (Panic p) | NoFuel => kfail NoFuel end)))).
        { intro t. eapply cost_bind; [apply cost_close| |apply (le_S 2 2), le_n]. intro. eapply cost_bind; [apply cost_close| |apply (le_n 1)]. intro.
          destruct (start_array _ _); first [apply (cost_ret _ 0) | apply (cost_fail _ 0)]. }
        intros t _. destruct t; first [apply cost_err | apply A]. }
    unfold kbind. pose proof (left_next s) as N. destruct (k_next F s) as [s' [t|e|p|]]; cbn [fst snd]; try lia. destruct N as [N1 N2].
    assert (D : t = QEof \/ t <> QEof) by (destruct t; first [left; reflexivity | right; discriminate]). destruct D as [->|D].
    - cbn. lia.
    - specialize (Hf t D s'). specialize (N2 D). lia.
  Qed.
  Lemma cost_lines : forall n scope o, costs 1 (k_lines n scope o).
  Proof.
    induction n as [|n IH]; intros scope o; [apply cost_fail|]. intro s. cbn [k_lines]. unfold kbind. pose proof (cost_line n scope o s) as H.
    destruct (k_line n scope o s) as [s' [[[sc o']|]|e|p|]]; cbn [fst snd] in *; try (cbn; lia). specialize (IH sc o' s'). lia.
  Qed.
  Lemma counted_toml_bound n text : fst (counted_toml n text) <= 3 * length text + 1.
  Proof.
    unfold counted_toml. pose proof (cost_lines n [] {| o_map := []; o_active := None |} (q_start text, 0)) as H.
    destruct (k_lines _ _ _ _) as [s r]. unfold left in H. cbn [fst snd q_start q_inp] in *. lia.
  Qed.
End Parser.
