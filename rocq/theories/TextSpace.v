(** Texts as sequences of tokens: the space between them does not matter. *)
From Verif Require Import Base Utf8 Types BinModel Text TextModel TextSim TextToks TextLex TextRead SpecText SpecGram TextRound TextGram.
Local Open Scope N_scope.

Section Space.
  Variables (F : flt) (fm : fmt).
  Notation lexs := (lexs F fm).
  Notation lex1 := (lex1 F fm).
  Notation lexes := (lexes F fm).
  Notation lexes_any := (lexes_any F fm).

  (** What one token contributes. *)
  Definition put (one rest : list ltok * bool) : list ltok * bool :=
    match one with ([t], false) => (t :: fst rest, snd rest) | _ => ([], true) end.
  Fixpoint token_list (ls : list str) : list ltok * bool :=
    match ls with [] => ([], false) | s :: r => put (lexs s) (token_list r) end.

  Lemma one_ok s t r : lexes s [t] -> boundary r -> lexs (s ++ r) = put (lexs s) (lexs r).
  Proof. intros H Hr. rewrite (lexes_end F fm s [t] H), (H r Hr). unfold cat, put. destruct (lexs r); reflexivity. Qed.
  Lemma one_any s t r : lexes_any s [t] -> lexs (s ++ r) = put (lexs s) (lexs r).
  Proof. intros H. rewrite (lexes_end F fm s [t] (lexes_weak F fm _ _ H)), (H r). unfold cat, put. destruct (lexs r); reflexivity. Qed.
  Lemma one_bad s r : lexs s = ([], true) -> lexs (s ++ r) = ([], true) -> lexs (s ++ r) = put (lexs s) (lexs r).
  Proof. intros -> ->. reflexivity. Qed.

  Lemma number_bad_or s : number s -> (exists t, lexes s [LP t]) \/ forall r, boundary r -> lexs (s ++ r) = ([], true).
  Proof.
    intros (sg & ip & fr & ex & -> & Hp & Hn). destruct (number_scan fm _ _ _ _ Hp Hn) as (S1 & S2 & S3 & S4).
    set (s := sg ++ ip ++ fr ++ ex) in *. set (fl := match fr, ex with [], [] => false | _, _ => true end) in *.
    destruct (num_tok F s fl) as [t|] eqn:E.
    - left. exists t. apply lexes_num; [exact S2 | exact S3|]. intros rest Hr. exists fl. auto.
    - right. intros r Hr. destruct s as [|x s'] eqn:Es; [congruence|]. cbn [cur] in S3.
      destruct (num_start_cases fm _ S3) as (H1 & H2 & H3 & H4). eapply lexs_err. unfold TextToks.lex1. cbn [app length scan].
      rewrite not_ws_drop by assumption. cbn [cur tl]. rewrite H2, H3, H4, S3. specialize (S1 r Hr). cbn [app] in S1. rewrite S1, E. reflexivity.
  Qed.
  Lemma word_bad_or s : any_word fm s -> (exists t, lexes s [t]) \/ forall r, boundary r -> lexs (s ++ r) = ([], true).
  Proof.
    intros (x & w & -> & Hx & Hw). apply letter_b in Hx.
    assert (Hid : forallb (id_char fm) (x :: w) = true).
    { apply forallb_forall. intros y Hy. destruct Hy as [<-|Hy]; [unfold id_char; rewrite Hx; destruct fm; reflexivity|].
      rewrite Forall_forall in Hw. destruct (Hw y Hy) as [Hl|[E Hd]]; unfold id_char; [rewrite (letter_b _ Hl); destruct fm; reflexivity|].
      rewrite E, (proj2 (digit_range y) Hd). apply orb_true_r. }
    destruct (alpha_cases fm x Hx) as (H1 & H2 & H3 & H4 & H5).
    destruct (id_tok fm (x :: w) KBof) as [t|k m] eqn:Et.
    - left. exists t. apply lexes_word; auto; try discriminate.
    - right. intros r Hr. eapply lexs_err. unfold TextToks.lex1. cbn [app length scan]. rewrite not_ws_drop by assumption. cbn [cur tl].
      rewrite H2, H3, H4, H5, Hx. pose proof (boundary_no_id fm r Hr) as Hb. cbn [app] in *.
      change (x :: w ++ r) with ((x :: w) ++ r). rewrite (take_while_app (id_char fm) (x :: w) r Hid Hb), Et. reflexivity.
  Qed.
  Lemma last_line body : Forall (fun x => x <> 10 /\ x <> 0) body -> lexs ([47; 47] ++ body) = ([], false).
  Proof.
    intro H. assert (E : lexs ([47; 47] ++ body) = lexs []).
    { apply lexs_skip; [|cbn; lia]. intros n Hn. cbn [app scan]. rewrite not_ws_drop by reflexivity. cbn [cur tl].
      change (47 =? 0) with false. change (47 =? c_slash) with true. cbn iota. f_equal.
      assert (D : drop_while (fun c => negb (c =? c_nl) && negb (c =? 0)) body = []).
      { induction H as [|x b [A B] H IH]; [reflexivity|]. cbn [drop_while]. apply N.eqb_neq in A, B. unfold c_nl. rewrite A, B. apply IH. cbn [length app] in *. lia. }
      change (drop_while (fun c => negb (c =? c_nl) && negb (c =? 0)) (47 :: body)) with (drop_while (fun c => negb (c =? c_nl) && negb (c =? 0)) body). exact D. }
    rewrite E. apply (lexs_eof F fm [] []), cur0_eof. reflexivity.
  Qed.

  Theorem spaced_tokens ls text : spaced fm ls text -> lexs text = token_list ls.
  Proof.
    induction 1 as [g Hg|g body Hg Hb|g x ls r Hg Hm H IH|g b ls r Hg Hb H IH|g s ls r Hg Hs He H IH|g s ls r Hg Hs He H IH].
    - rewrite (lexes_end F fm g [] (lexes_weak F fm _ _ (gap_lexes F fm g Hg))). reflexivity.
    - rewrite (gap_lexes F fm g Hg), cat_nil. apply last_line. exact Hb.
    - rewrite (gap_lexes F fm g Hg), cat_nil. cbn [token_list]. rewrite <- IH.
      assert (Hp : exists t, punct fm x = Some t).
      { unfold mark in Hm. cbn [In] in Hm. destruct Hm as [Hm|[E Hm]].
        - repeat (destruct Hm as [<-|Hm]; [eexists; reflexivity|]). contradiction.
        - rewrite E. repeat (destruct Hm as [<-|Hm]; [eexists; reflexivity|]). contradiction. }
      destruct Hp as [t Hp]. apply (one_any [x] (LP t) r). apply lexes_punct. exact Hp.
    - rewrite (gap_lexes F fm g Hg), cat_nil. cbn [token_list]. rewrite <- IH. destruct Hb as [s Hb].
      apply (one_any (quoted b) (LStr s) r). apply lexes_quoted. exact Hb.
    - rewrite (gap_lexes F fm g Hg), cat_nil. cbn [token_list]. rewrite <- IH. apply ends_boundary in He.
      destruct (number_bad_or s Hs) as [[t Ht]|Hbad]; [apply (one_ok s (LP t) r Ht He)|].
      apply one_bad; [rewrite <- (app_nil_r s); apply Hbad; left; reflexivity | apply Hbad; exact He].
    - rewrite (gap_lexes F fm g Hg), cat_nil. cbn [token_list]. rewrite <- IH. apply ends_boundary in He.
      destruct (word_bad_or s Hs) as [[t Ht]|Hbad]; [apply (one_ok s t r Ht He)|].
      apply one_bad; [rewrite <- (app_nil_r s); apply Hbad; left; reflexivity | apply Hbad; exact He].
  Qed.
End Space.
