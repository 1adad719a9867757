(** UTF-8: [String::as_bytes] and [core::str::from_utf8] (Rust std, not in
    /repo; used by serde_bin.rs:237-274). Strings are lists of Unicode scalar
    values. *)
From Verif Require Import Base.
Local Open Scope N_scope.

(** A Unicode scalar value (Rust [char]). *)
Definition scalarb (c : N) : bool :=
  (c <? 0xD800) || ((0xE000 <=? c) && (c <? 0x110000)).
Definition scalar (c : N) : Prop := scalarb c = true.

Definition utf8_enc1 (c : N) : list N :=
  if c <? 0x80 then [c]
  else if c <? 0x800 then [0xC0 + c / 64; 0x80 + c mod 64]
  else if c <? 0x10000 then [0xE0 + c / 4096; 0x80 + (c / 64) mod 64; 0x80 + c mod 64]
  else [0xF0 + c / 262144; 0x80 + (c / 4096) mod 64; 0x80 + (c / 64) mod 64; 0x80 + c mod 64].

Definition utf8_enc (s : str) : list N := flat_map utf8_enc1 s.

Definition contb (b : N) : bool := (0x80 <=? b) && (b <? 0xC0).

(** Strict decoder: overlong forms, surrogates and values above 0x10FFFF are
    rejected, as [from_utf8] does. *)
Fixpoint utf8_dec (l : list N) : option str :=
  match l with
  | [] => Some []
  | b0 :: r0 =>
    if b0 <? 0x80 then option_map (cons b0) (utf8_dec r0)
    else if b0 <? 0xC0 then None
    else match r0 with
    | [] => None
    | b1 :: r1 =>
      if negb (contb b1) then None else
      if b0 <? 0xE0 then
        let c := (b0 - 0xC0) * 64 + (b1 - 0x80) in
        if c <? 0x80 then None else option_map (cons c) (utf8_dec r1)
      else match r1 with
      | [] => None
      | b2 :: r2 =>
        if negb (contb b2) then None else
        if b0 <? 0xF0 then
          let c := (b0 - 0xE0) * 4096 + (b1 - 0x80) * 64 + (b2 - 0x80) in
          if (c <? 0x800) || negb (scalarb c) then None else option_map (cons c) (utf8_dec r2)
        else match r2 with
        | [] => None
        | b3 :: r3 =>
          if negb (contb b3) then None else
          if b0 <? 0xF8 then
            let c := (b0 - 0xF0) * 262144 + (b1 - 0x80) * 4096 + (b2 - 0x80) * 64 + (b3 - 0x80) in
            if (c <? 0x10000) || negb (scalarb c) then None else option_map (cons c) (utf8_dec r3)
          else None
        end
      end
    end
  end.

Ltac Zify.zify_post_hook ::= Z.div_mod_to_equations.

Ltac case_ltb :=
  match goal with
  | |- context [N.ltb ?a ?b] => destruct (N.ltb_spec a b)
  | |- context [N.leb ?a ?b] => destruct (N.leb_spec a b)
  end.

Lemma utf8_dec_enc1 c r :
  scalar c -> utf8_dec (utf8_enc1 c ++ r) = option_map (cons c) (utf8_dec r).
Proof.
  intro Hs. assert (Hs' := Hs). unfold scalar, scalarb in Hs.
  unfold utf8_enc1.
  destruct (N.ltb_spec c 0x80).
  { simpl. destruct (N.ltb_spec c 128); [reflexivity|lia]. }
  destruct (N.ltb_spec c 0x800).
  { cbn [app utf8_dec].
    destruct (N.ltb_spec (0xC0 + c / 64) 0x80); [lia|].
    destruct (N.ltb_spec (0xC0 + c / 64) 0xC0); [lia|].
    replace (contb (0x80 + c mod 64)) with true by (unfold contb; lia). cbn [negb].
    destruct (N.ltb_spec (0xC0 + c / 64) 0xE0); [|lia].
    replace ((0xC0 + c / 64 - 0xC0) * 64 + (0x80 + c mod 64 - 0x80)) with c by lia.
    cbv zeta. destruct (N.ltb_spec c 0x80); [lia|reflexivity]. }
  destruct (N.ltb_spec c 0x10000).
  { cbn [app utf8_dec].
    destruct (N.ltb_spec (0xE0 + c / 4096) 0x80); [lia|].
    destruct (N.ltb_spec (0xE0 + c / 4096) 0xC0); [lia|].
    replace (contb (0x80 + (c / 64) mod 64)) with true by (unfold contb; lia).
    replace (contb (0x80 + c mod 64)) with true by (unfold contb; lia). cbn [negb].
    destruct (N.ltb_spec (0xE0 + c / 4096) 0xE0); [lia|].
    destruct (N.ltb_spec (0xE0 + c / 4096) 0xF0); [|lia].
    replace ((0xE0 + c / 4096 - 0xE0) * 4096 + (0x80 + (c / 64) mod 64 - 0x80) * 64
              + (0x80 + c mod 64 - 0x80)) with c by lia.
    cbv zeta. destruct (N.ltb_spec c 0x800); [lia|].
    rewrite Hs'. reflexivity. }
  { assert (c < 0x110000) by lia.
    cbn [app utf8_dec].
    destruct (N.ltb_spec (0xF0 + c / 262144) 0x80); [lia|].
    destruct (N.ltb_spec (0xF0 + c / 262144) 0xC0); [lia|].
    replace (contb (0x80 + (c / 4096) mod 64)) with true by (unfold contb; lia).
    replace (contb (0x80 + (c / 64) mod 64)) with true by (unfold contb; lia).
    replace (contb (0x80 + c mod 64)) with true by (unfold contb; lia). cbn [negb].
    destruct (N.ltb_spec (0xF0 + c / 262144) 0xE0); [lia|].
    destruct (N.ltb_spec (0xF0 + c / 262144) 0xF0); [lia|].
    destruct (N.ltb_spec (0xF0 + c / 262144) 0xF8); [|lia].
    replace ((0xF0 + c / 262144 - 0xF0) * 262144 + (0x80 + (c / 4096) mod 64 - 0x80) * 4096
              + (0x80 + (c / 64) mod 64 - 0x80) * 64
              + (0x80 + c mod 64 - 0x80)) with c by lia.
    cbv zeta. destruct (N.ltb_spec c 0x10000); [lia|].
    rewrite Hs'. reflexivity. }
Qed.

Lemma utf8_dec_enc s : Forall scalar s -> utf8_dec (utf8_enc s) = Some s.
Proof.
  induction 1 as [|c s Hc Hs IH]; [reflexivity|].
  unfold utf8_enc in *. simpl. rewrite utf8_dec_enc1 by assumption. rewrite IH. reflexivity.
Qed.

(** The decoder accepts only what the encoder produces: decoding is a
    bijection onto valid strings. *)
Lemma utf8_dec_sound_aux : forall k l s,
  (length l <= k)%nat -> Forall (fun b => b < 256) l ->
  utf8_dec l = Some s -> Forall scalar s /\ utf8_enc s = l.
Proof.
  induction k as [|k IH]; intros l s Hk Hb Hd.
  { destruct l; [|simpl in Hk; lia]. simpl in Hd. inversion Hd; subst. split; [constructor|reflexivity]. }
  destruct l as [|b0 r0].
  { simpl in Hd. inversion Hd; subst. split; [constructor|reflexivity]. }
  assert (Hstep : forall c r, option_map (cons c) (utf8_dec r) = Some s ->
            (length r <= k)%nat -> Forall (fun b => b < 256) r -> scalar c ->
            forall p, utf8_enc1 c = p -> Forall scalar s /\ utf8_enc s = p ++ r).
  { intros c r Ho Hl Hf Hsc p Hp. destruct (utf8_dec r) as [s'|] eqn:Er; [|discriminate].
    simpl in Ho. inversion Ho; subst s.
    destruct (IH r s' Hl Hf Er) as [H1 H2]. split; [constructor; assumption|].
    unfold utf8_enc in *. simpl. rewrite H2, Hp. reflexivity. }
  cbn [utf8_dec] in Hd. inversion Hb as [|? ? Hb0 Hb']; subst. simpl in Hk.
  destruct (N.ltb_spec b0 0x80).
  { apply (Hstep _ _ Hd) with (p := [b0]); auto; try lia.
    - unfold scalar, scalarb. lia.
    - unfold utf8_enc1. destruct (N.ltb_spec b0 0x80); [reflexivity|lia]. }
  destruct (N.ltb_spec b0 0xC0); [discriminate|].
  destruct r0 as [|b1 r1]; [discriminate|].
  destruct (contb b1) eqn:C1; [|discriminate]. cbn [negb] in Hd.
  inversion Hb' as [|? ? Hb1 Hb'']; subst. simpl in Hk.
  unfold contb in C1.
  destruct (N.ltb_spec b0 0xE0).
  { cbv zeta in Hd. destruct (N.ltb_spec ((b0 - 0xC0) * 64 + (b1 - 0x80)) 0x80); [discriminate|].
    apply (Hstep _ _ Hd) with (p := [b0; b1]); auto; try lia.
    - unfold scalar, scalarb. lia.
    - unfold utf8_enc1.
      repeat (case_ltb; [|]); try lia. f_equal; [lia|]. f_equal. lia. }
  destruct r1 as [|b2 r2]; [discriminate|].
  destruct (contb b2) eqn:C2; [|discriminate]. cbn [negb] in Hd.
  inversion Hb'' as [|? ? Hb2 Hb3']; subst. simpl in Hk. unfold contb in C2.
  destruct (N.ltb_spec b0 0xF0).
  { cbv zeta in Hd.
    destruct (N.ltb_spec ((b0 - 224) * 4096 + (b1 - 128) * 64 + (b2 - 128)) 0x800); [discriminate|].
    destruct (scalarb ((b0 - 224) * 4096 + (b1 - 128) * 64 + (b2 - 128))) eqn:Esc; [|discriminate].
    cbn [orb negb] in Hd.
    apply (Hstep _ _ Hd) with (p := [b0; b1; b2]); auto; try lia.
    unfold utf8_enc1. unfold scalarb in Esc.
    repeat (case_ltb; [|]); try lia.
    f_equal; [lia|]. f_equal; [lia|]. f_equal. lia. }
  destruct r2 as [|b3 r3]; [discriminate|].
  destruct (contb b3) eqn:C3; [|discriminate]. cbn [negb] in Hd.
  inversion Hb3' as [|? ? Hb3 Hb4']; subst. simpl in Hk. unfold contb in C3.
  destruct (N.ltb_spec b0 0xF8); [|discriminate].
  cbv zeta in Hd.
  destruct (N.ltb_spec ((b0 - 240) * 262144 + (b1 - 128) * 4096 + (b2 - 128) * 64 + (b3 - 128)) 0x10000); [discriminate|].
  destruct (scalarb ((b0 - 240) * 262144 + (b1 - 128) * 4096 + (b2 - 128) * 64 + (b3 - 128))) eqn:Esc; [|discriminate].
  cbn [orb negb] in Hd.
  apply (Hstep _ _ Hd) with (p := [b0; b1; b2; b3]); auto; try lia.
  unfold utf8_enc1. unfold scalarb in Esc.
  repeat (case_ltb; [|]); try lia.
  f_equal; [lia|]. f_equal; [lia|]. f_equal; [lia|]. f_equal. lia.
Qed.

Lemma utf8_dec_sound l s :
  Forall (fun b => b < 256) l -> utf8_dec l = Some s -> Forall scalar s /\ utf8_enc s = l.
Proof. intros. eapply utf8_dec_sound_aux; eauto. Qed.

Lemma utf8_enc1_bytes c : scalar c -> Forall (fun b => b < 256) (utf8_enc1 c).
Proof.
  intro H. unfold scalar, scalarb in H. unfold utf8_enc1.
  repeat case_ltb; repeat constructor; lia.
Qed.
Lemma utf8_enc_bytes s : Forall scalar s -> Forall (fun b => b < 256) (utf8_enc s).
Proof.
  induction 1; [constructor|]. unfold utf8_enc in *; simpl.
  apply Forall_app; split; [apply utf8_enc1_bytes|]; assumption.
Qed.
