(** C73: which texts the TOML parser accepts, and what it makes of them. *)
From Verif Require Import Base Utf8 Types Text TextModel SpecText SpecGram TomlModel SpecToml TomlRead TomlDoc TomlTerm SpecTomlAcc TomlAcc.
Local Open Scope N_scope.

Section C73.
  Variable F : flt.           (* the standard library's [parse::<f64>] and [as f64] *)
  Variable show : N -> str.   (* ... and [f64::to_string] *)
  (** The parser returns a map exactly for the texts of the grammar whose entries do
      not clash; the map is the one the entries describe. *)
  Theorem C73_accepted text m : toml_parse F show text = Ok m <-> exists es, toml_text F show text es /\ ~ clash es /\ means es m.
  Proof.
    rewrite parse_ok. split; intros (es & Ht & H); exists es; (split; [exact Ht|]); pose proof Ht as (l & r & He & _);
      destruct (run_means es (entries_wf F show _ _ _ He)) as [[Hc E]|[Hc (m' & E & Hm)]]; try congruence.
    - rewrite E in H. inversion H; subst. auto.
    - destruct H as [H _]. contradiction.
    - destruct H as [_ H]. rewrite E. f_equal. eapply means_fun; eassumption.
  Qed.
  (** It panics exactly if the text begins with entries that clash. *)
  Theorem C73_panics text p : toml_parse F show text = Panic p <-> p = PUnreachable /\ exists es r, entries_at F show text es r /\ clash es.
  Proof.
    rewrite parse_panic. split.
    - intros (es & l & He & H). destruct (run_means es (entries_wf F show _ _ _ He)) as [[Hc E]|[Hc (m' & E & Hm)]]; [|congruence].
      rewrite E in H. inversion H. split; [reflexivity|]. exists es, l. auto.
    - intros (-> & es & l & He & Hc). exists es, l. split; [exact He|]. destruct (run_means es (entries_wf F show _ _ _ He)) as [[_ E]|[Hc' _]]; [exact E | contradiction].
  Qed.
  (** Everything else is an error. *)
  Theorem C73_rejected text : (exists e, toml_parse F show text = Err e) <->
    ~ (exists es, toml_text F show text es) /\ ~ (exists es r, entries_at F show text es r /\ clash es).
  Proof.
    split.
    - intros (e & E). split.
      + intros (es & H). pose proof H as (l & r & He & _). destruct (run_means es (entries_wf F show _ _ _ He)) as [[Hc _]|[Hc (m & _ & Hm)]].
        * assert (X : toml_parse F show text = Panic PUnreachable) by (apply C73_panics; split; [reflexivity|]; exists es, l; auto). congruence.
        * assert (X : toml_parse F show text = Ok m) by (apply C73_accepted; exists es; auto). congruence.
      + intros (es & r & H). assert (X : toml_parse F show text = Panic PUnreachable) by (apply C73_panics; split; [reflexivity|]; exists es, r; exact H). congruence.
    - intros [H1 H2]. destruct (toml_parse F show text) as [m|e|p|] eqn:E.
      + apply C73_accepted in E as (es & X & _). exfalso. apply H1. exists es. exact X.
      + exists e. reflexivity.
      + apply C73_panics in E as (_ & X). contradiction.
      + pose proof (parse_ends F show text) as (_ & _ & X). unfold toml_parse, parse_toml in E. rewrite E in X. destruct X.
  Qed.
  (** A text has at most one reading. *)
  Theorem C73_unique text es es' : toml_text F show text es -> toml_text F show text es' -> es = es'.
  Proof. apply text_fun. Qed.
  (** Two texts with the same entries are read the same. *)
  Theorem C73_same text text' es : toml_text F show text es -> toml_text F show text' es -> toml_parse F show text = toml_parse F show text'.
  Proof.
    intros H H'. pose proof H as (l & r & He & _). pose proof H' as (l' & r' & He' & _). destruct (run_means es (entries_wf F show _ _ _ He)) as [[Hc _]|[Hc (m & _ & Hm)]].
    - rewrite (proj2 (C73_panics text PUnreachable)), (proj2 (C73_panics text' PUnreachable)); try reflexivity; (split; [reflexivity|]); [exists es, l' | exists es, l]; auto.
    - rewrite (proj2 (C73_accepted text m)), (proj2 (C73_accepted text' m)); try reflexivity; exists es; auto.
  Qed.
End C73.

(** ** Concrete cases *)
Local Ltac tok n := apply (scan_first no_flt n); vm_compute; reflexivity.
(** An array may be left open at the end; elements need no commas between them. *)
Example C73_ex_open : toml_text no_flt dec (chars "a=[1 ,[2 3") [ESet (chars "a") (TVArr [TVNum 1; TVArr [TVNum 2; TVNum 3]])].
Proof.
  exists [], []. split.
  - eapply es_cons; [|apply es_nil].
    eapply (ea_set no_flt dec _ (QIdent (chars "a")) _ (chars "=[1 ,[2 3") (chars "[1 ,[2 3")); [tok 20%nat | apply tq_ident | tok 20%nat|].
    eapply (va_arr no_flt _ (chars "1 ,[2 3")); [tok 20%nat|].
    eapply (ia_value no_flt _ _ (chars " ,[2 3")); [eapply (va_tok no_flt _ (QU64 1)); [tok 20%nat | apply (tw_u64 no_flt 1)]|].
    eapply (ia_comma no_flt _ (chars "[2 3")); [tok 20%nat|].
    eapply (ia_value no_flt _ _ []); [|apply ia_end; tok 20%nat].
    eapply (va_arr no_flt _ (chars "2 3")); [tok 20%nat|].
    eapply (ia_value no_flt _ _ (chars " 3")); [eapply (va_tok no_flt _ (QU64 2)); [tok 20%nat | apply (tw_u64 no_flt 2)]|].
    eapply (ia_value no_flt _ _ []); [eapply (va_tok no_flt _ (QU64 3)); [tok 20%nat | apply (tw_u64 no_flt 3)]|].
    apply ia_end. tok 20%nat.
  - tok 20%nat.
Qed.
(** Line breaks do not matter, two quotes open a string as one does, and numbers are
    keys in their normal form. *)
Example C73_ex_text : toml_text no_flt dec (chars "[[t]] 007=true ""x""=""""yz""") [ETables (chars "t"); ESet (chars "7") (TVBool true); ESet (chars "x") (TVStr (chars "yz"))].
Proof.
  exists [], []. split; [|tok 40%nat].
  eapply (es_cons no_flt dec _ _ (chars " 007=true ""x""=""""yz""")).
  { eapply (ea_tables no_flt dec _ (chars "[t]] 007=true ""x""=""""yz""") (chars "t]] 007=true ""x""=""""yz""") (QIdent (chars "t"))); [tok 40%nat | tok 40%nat | | apply tq_ident | discriminate | |].
    - tok 40%nat.
    - tok 40%nat.
    - tok 40%nat. }
  eapply (es_cons no_flt dec _ _ (chars " ""x""=""""yz""")).
  { eapply (ea_set no_flt dec _ (QU64 7) _ (chars "=true ""x""=""""yz""") (chars "true ""x""=""""yz""")); [tok 40%nat | apply (tq_u64 dec 7) | tok 40%nat|].
    eapply (va_tok no_flt _ (QBool true)); [tok 40%nat | apply tw_bool]. }
  eapply (es_cons no_flt dec _ _ []); [|apply es_nil].
  eapply (ea_set no_flt dec _ (QStr (chars "x")) _ (chars "=""""yz""") (chars """""yz""")); [tok 40%nat | apply tq_str | tok 40%nat|].
  eapply (va_tok no_flt _ (QStr (chars "yz"))); [tok 40%nat | apply tw_str].
Qed.
Example C73_ex_map : toml_parse no_flt dec (chars "[[t]] 007=true ""x""=""""yz""") =
  Ok [(chars "t", TVTables [[(chars "7", TVBool true); (chars "x", TVStr (chars "yz"))]])].
Proof. vm_compute. reflexivity. Qed.
(** The clash is noticed before the rest is read. *)
Example C73_ex_panic : exists es r, entries_at no_flt dec (chars "a=1 [[a]] ?") es r /\ clash es.
Proof.
  pose proof (proj1 (C73_panics no_flt dec (chars "a=1 [[a]] ?") PUnreachable) ltac:(vm_compute; reflexivity)) as [_ H]. exact H.
Qed.
(** Neither: no value after the equals sign; a word that runs into a comment. *)
Example C73_ex_rejected : ~ (exists es, toml_text no_flt dec (chars "a=b") es) /\ ~ (exists es, toml_text no_flt dec (chars "a=true#c") es).
Proof. split; refine (proj1 (proj1 (C73_rejected no_flt dec _) _)); eexists; vm_compute; reflexivity. Qed.

Print Assumptions C73_accepted.
Print Assumptions C73_rejected.
