(** C71 for TOML: what the parser returns is no bigger than the text. *)
From Verif Require Import Base Utf8 Types Text TextModel TextToks SpecText SpecGram TomlModel SpecToml TomlRead TomlDoc TomlTerm SpecTomlAcc TomlAcc PropsTomlAcc.
Local Open Scope N_scope.

(** Specification: the values in a value, with the characters of its strings and
    dates; tables count one each.  (Keys are not counted: the header of a table is
    repeated in each of its keys.) *)
Fixpoint toml_size (v : toml) : nat :=
  match v with
  | TVStr s => 1 + length s
  | TVBool _ | TVNum _ => 1
  | TVDate s => length s
  | TVTables l => 1 + list_sum (map (fun m => 1 + list_sum (map (fun e => toml_size (snd e)) m))%nat l)
  | TVArr l => 1 + list_sum (map toml_size l)
  end.
Definition map_size (m : tmap) : nat := list_sum (map (fun e => toml_size (snd e)) m).

Lemma spread_len d u : spread d u -> (length d <= length u)%nat.
Proof.
  intros [_ ->]. induction u as [|x u IH]; [reflexivity|]. cbn [filter]. destruct (negb _); cbn [length]; lia.
Qed.
Lemma short_len b s : short_body b s -> (length s <= length b)%nat.
Proof. induction 1; cbn [length]; lia. Qed.
Lemma long_len b s : long_body b s -> (length s <= length b)%nat.
Proof. induction 1; cbn [length]; rewrite ?app_length; cbn [length]; lia. Qed.
Lemma string_len l s r : string_at l s r -> (2 + length s + length r <= length l)%nat.
Proof.
  intros [q b s' r' Hq Hb _|b s' r' Hb _].
  - pose proof (short_len _ _ Hb). rewrite !app_length. cbn [length]. destruct Hq as [-> | ->]; cbn [length]; lia.
  - pose proof (long_len _ _ Hb). rewrite !app_length. cbn [length]. destruct r'; cbn [tl length]; lia.
Qed.
Definition tok_size (t : ttok) : nat := match t with QStr s => 1 + length s | QDate s => length s | _ => 1 end.
Section Size.
  Variable F : flt. Variable show : N -> str.
  Lemma sign_len sg neg : sign sg neg -> (length (minus neg) <= length sg)%nat.
  Proof. intros [[-> ->] | [[-> ->] | [-> ->]]]; cbn; lia. Qed.
  Lemma word_size w t : word_token w t -> tok_size t = 1%nat.
  Proof. intros []; reflexivity. Qed.
  Lemma number_len l t r : number_at F l t r -> (tok_size t + length r <= length l)%nat.
  Proof.
    intros [sg neg p r' t' Hs Hne Hp Hr|sg neg p d u l' t' r' Hs Hd Hn Hu Hl Ha].
    - rewrite !app_length. destruct sg; [congruence|]. cbn [length]. destruct Hp as [[-> ->]|[-> ->]]; cbn [tok_size length]; lia.
    - pose proof (sign_len _ _ Hs) as L1. pose proof (spread_len _ _ Hu) as L2. rewrite !app_length.
      assert (Hlen : length (minus neg ++ p ++ d) = (length (minus neg) + length p + length d)%nat) by (rewrite !app_length; lia).
      revert Hlen Ha. generalize (minus neg ++ p ++ d). intros s Hlen Ha. destruct Ha as [neg s p d e w b r1 He' Hr1 Hb|neg s p d w r1 Hw Hr1|neg s p d x w t1 r1 Hx Hx2 Hw Ht Hr1|s d r1 Hne Hb Hi Hc|s d r1 Hne Hb Hi Hc].
      + cbn [tok_size length]. rewrite app_length. lia.
      + cbn [tok_size length]. repeat (rewrite app_length || cbn [length]). lia.
      + rewrite (word_size _ _ Ht). cbn [length]. rewrite app_length. lia.
      + cbn [tok_size]. destruct d; [congruence|]. cbn [length] in *. lia.
      + cbn [tok_size]. destruct d; [congruence|]. cbn [length] in *. lia.
  Qed.
  Lemma token_len l t r : first_token F l t r -> (length r <= length l /\ (t <> QEof -> tok_size t + length r <= length l))%nat.
  Proof.
    intros [g r' Hg Hr|g body r' Hg Hb Hr|g x t' r' Hg Hin|g l' t' r' Hg H|g l' s r' Hg H|g x w t' r' Hg Hx Hd Hm Hw Ht Hr]; rewrite !app_length.
    - split; [lia | congruence].
    - cbn [length]. rewrite app_length. split; [lia | congruence].
    - cbn [length]. cbn [In] in Hin. split; [lia|]. intros _. repeat (destruct Hin as [Hin|Hin]; [inversion Hin; subst; cbn [tok_size]; lia|]). destruct Hin.
    - apply number_len in H. split; lia.
    - apply string_len in H. cbn [tok_size]. split; lia.
    - cbn [length]. rewrite app_length, (word_size _ _ Ht). split; lia.
  Qed.
  Lemma tok_value_size t v : tok_value F t v -> toml_size v = tok_size t /\ t <> QEof.
  Proof. intros []; split; try reflexivity; discriminate. Qed.
  Lemma value_len : (forall l v r, value_at F l v r -> (toml_size v + length r <= length l)%nat) /\
    (forall l vs r, values_at F l vs r -> (list_sum (map toml_size vs) + length r <= length l)%nat).
  Proof.
    apply value_at_mutind.
    - intros l t v r Ht Hv. apply tok_value_size in Hv as [-> Hn]. apply (proj2 (token_len _ _ _ Ht) Hn).
    - intros l l1 vs r Ht _ IH. pose proof (proj2 (token_len _ _ _ Ht) ltac:(discriminate)) as L. cbn [tok_size] in L. cbn [toml_size]. lia.
    - intros l r Ht. pose proof (token_len _ _ _ Ht) as [L _]. cbn. lia.
    - intros l r Ht. pose proof (token_len _ _ _ Ht) as [L _]. cbn. lia.
    - intros l l1 vs r Ht _ IH. pose proof (token_len _ _ _ Ht) as [L _]. lia.
    - intros l v l1 vs r _ IHv _ IH. cbn [map]. change (list_sum (toml_size v :: map toml_size vs)) with (toml_size v + list_sum (map toml_size vs))%nat. lia.
  Qed.
  Definition entry_size (e : entry) : nat := match e with ETable _ => 0 | ETables _ => 2 | ESet _ v => toml_size v end.
  Lemma entry_len l e r : entry_at F show l e r -> (entry_size e + length r <= length l)%nat.
  Proof.
    intros [l0 t k l1 l2 v r' H1 Hk H2 Hv|l0 l1 t k l2 r' H1 H2 Ht H3|l0 l1 l2 t k l3 l4 r' H1 H2 H3 Hk Hns H4 H5]; cbn [entry_size].
    - pose proof (token_len _ _ _ H1) as [L1 _]. pose proof (token_len _ _ _ H2) as [L2 _]. pose proof (proj1 value_len _ _ _ Hv). lia.
    - pose proof (token_len _ _ _ H1) as [L1 _]. pose proof (token_len _ _ _ H2) as [L2 _]. pose proof (token_len _ _ _ H3) as [L3 _]. lia.
    - pose proof (proj2 (token_len _ _ _ H1) ltac:(discriminate)) as L1. pose proof (proj2 (token_len _ _ _ H2) ltac:(discriminate)) as L2. cbn [tok_size] in *.
      pose proof (token_len _ _ _ H3) as [L3 _]. pose proof (token_len _ _ _ H4) as [L4 _]. pose proof (token_len _ _ _ H5) as [L5 _]. lia.
  Qed.
  Lemma entries_len l es r : entries_at F show l es r -> (list_sum (map entry_size es) + length r <= length l)%nat.
  Proof.
    induction 1 as [l|l e l1 es r He Hes IH]; [cbn; lia|]. apply entry_len in He. cbn [map].
    change (list_sum (entry_size e :: map entry_size es)) with (entry_size e + list_sum (map entry_size es))%nat. lia.
  Qed.
  (** Maps *)
  Lemma map_size_cons k v m : map_size ((k, v) :: m) = (toml_size v + map_size m)%nat.
  Proof. reflexivity. Qed.
  Lemma insert_size k v m : (map_size (t_insert k v m) <= map_size m + toml_size v)%nat.
  Proof.
    induction m as [|[k1 v1] m IH]; cbn [t_insert]; [rewrite map_size_cons; lia|]. destruct (list_cmp N.compare k k1); rewrite !map_size_cons; lia.
  Qed.
  Lemma replace_size k v old m : sorted m -> t_get k m = Some old -> (map_size (t_insert k v m) + toml_size old = map_size m + toml_size v)%nat.
  Proof.
    induction m as [|[k1 v1] m IH]; [discriminate|]. intros [H1 H2] Hg. cbn [t_insert]. fold kcmp in *. destruct (kcmp k k1) eqn:E.
    - apply kcmp_eq in E. subst k1. cbn [t_get] in Hg. rewrite str_eqb_refl in Hg. inversion Hg; subst. rewrite !map_size_cons. lia.
    - exfalso. rewrite get_above in Hg; [discriminate|]. constructor; [exact E|]. eapply Forall_impl; [|exact H1]. cbn. intros. eapply kcmp_trans; eassumption.
    - cbn [t_get] in Hg. rewrite (proj2 (str_eqb_neq k k1)) in Hg; [|intros ->; rewrite kcmp_refl in E; discriminate]. specialize (IH H2 Hg). rewrite !map_size_cons. lia.
  Qed.
  Lemma upd_size k v : forall n a, (toml_size (TVTables (upd n (t_insert k v) a)) <= toml_size (TVTables a) + toml_size v)%nat.
  Proof.
    intros n a. cbn [toml_size]. revert n. induction a as [|x a IH]; intros n; [destruct n; cbn; lia|].
    assert (C : forall y, list_sum (map (fun m => 1 + list_sum (map (fun e => toml_size (snd e)) m))%nat (y :: a)) = (1 + map_size y + list_sum (map (fun m => 1 + list_sum (map (fun e => toml_size (snd e)) m))%nat a))%nat) by reflexivity.
    destruct n as [|n]; cbn [upd].
    - rewrite !C. pose proof (insert_size k v x). lia.
    - specialize (IH n).
      change (list_sum (map (fun m => 1 + list_sum (map (fun e => toml_size (snd e)) m))%nat (x :: upd n (t_insert k v) a))) with (1 + map_size x + list_sum (map (fun m => 1 + list_sum (map (fun e => toml_size (snd e)) m))%nat (upd n (t_insert k v) a)))%nat. rewrite C. lia.
  Qed.
  Lemma tables_snoc a : toml_size (TVTables (a ++ [[]])) = (1 + toml_size (TVTables a))%nat.
  Proof. cbn [toml_size]. rewrite map_app, list_sum_app. cbn. lia. Qed.
  Lemma step_size e scope o sc o' : sorted (o_map o) -> step e scope o = Ok (sc, o') -> sorted (o_map o') /\ (map_size (o_map o') <= map_size (o_map o) + entry_size e)%nat.
  Proof.
    intros Hs. destruct e as [k|k|k v]; cbn [step entry_size].
    - intro H. inversion H; subst. split; [exact Hs | lia].
    - unfold start_array. intro H. destruct (t_get k (o_map o)) as [old|] eqn:Eg.
      + rewrite Eg in H. destruct old; try discriminate H. inversion H; subst. cbn [o_map]. split; [apply insert_sorted; exact Hs|].
        pose proof (replace_size k (TVTables (l ++ [[]])) _ _ Hs Eg) as R. rewrite tables_snoc in R. lia.
      + rewrite get_insert, str_eqb_refl in H. inversion H; subst. cbn [o_map]. split; [apply insert_sorted, insert_sorted; exact Hs|].
        pose proof (insert_size k (TVTables []) (o_map o)) as R1.
        pose proof (replace_size k (TVTables ([] ++ [[]])) (TVTables []) (t_insert k (TVTables []) (o_map o)) (insert_sorted _ _ _ Hs) ltac:(rewrite get_insert, str_eqb_refl; reflexivity)) as R2.
        cbn in R1, R2. cbn [app] in *. lia.
    - destruct (o_check o) eqn:Ec; [discriminate|]. intro H. inversion H; subst. unfold o_check in Ec. unfold o_insert. destruct (o_active o) as [[t n]|].
      + destruct (t_get t (o_map o)) as [[]|] eqn:Eg; try discriminate Ec. cbn [o_map]. split; [apply insert_sorted; exact Hs|].
        pose proof (replace_size t (TVTables (upd n (t_insert (full_key sc k) v) l)) _ _ Hs Eg) as R. pose proof (upd_size (full_key sc k) v n l). lia.
      + cbn [o_map]. split; [apply insert_sorted; exact Hs | apply insert_size].
  Qed.
  Lemma run_size es : forall scope o m, sorted (o_map o) -> run es scope o = Ok m -> (map_size m <= map_size (o_map o) + list_sum (map entry_size es))%nat.
  Proof.
    induction es as [|e es IH]; intros scope o m Hs H.
    - inversion H; subst. cbn. lia.
    - rewrite run_steps in H. cbn [steps] in H. destruct (step e scope o) as [[sc o']|?|?|] eqn:E; try discriminate H. rewrite <- run_steps in H.
      destruct (step_size _ _ _ _ _ Hs E) as [S1 L1]. specialize (IH _ _ _ S1 H). cbn [map].
      change (list_sum (entry_size e :: map entry_size es)) with (entry_size e + list_sum (map entry_size es))%nat. lia.
  Qed.
  (** What is returned holds no more values and characters of strings than the text
      has characters. *)
  Theorem C71_toml text m : toml_parse F show text = Ok m -> (map_size m <= length text)%nat.
  Proof.
    intro H. apply parse_ok in H as (es & (l & r & He & _) & Hr). apply entries_len in He. apply run_size in Hr; [|exact I]. cbn in Hr. lia.
  Qed.
End Size.
Example C71_ex_toml : exists m, toml_parse no_flt dec (chars "a=[1 2 [3 ""xy""]][[t]][[t]]b=1-2") = Ok m /\ map_size m = 14%nat.
Proof. eexists. split; vm_compute; reflexivity. Qed.
Print Assumptions C71_toml.
