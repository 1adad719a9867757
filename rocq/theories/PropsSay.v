(** C79: every error of the JSON and RON readers is true: the text has the tokens it
    speaks of, the type wants what it names, and it points behind those tokens. *)
From Verif Require Import Base Utf8 Types BinModel Text TextModel TextSim TextToks TextPos TextFuel TextRun TextEx SpecText SpecGram SpecTok SpecDoc SpecAcc SpecErr SpecPos PropsPos SpecSay Say PropsBin.
Local Open Scope N_scope.

Theorem C79_true : forall F c G fm t text e, parses F c G fm t text (Err e) -> true_of F G fm t text e.
Proof.
  intros F c G fm t text e [n H]. specialize (H n (le_n n)). unfold deserialize_text in H.
  destruct (de_first (text_lexer F fm) F c G fm n t (start fm text)) as [s' o] eqn:Er. cbn [snd] in H. subst o.
  exact (first_says F c G fm t text n s' e Er).
Qed.

(** ** What the single messages mean *)
(** "Unexpected token": it is the last token read; or what follows the tokens read is
    no token at all. *)
Theorem C79_unexpected_token : forall F c G fm t text e k w, parses F c G fm t text (Err e) -> e_reason e = UnexpectedToken k w ->
  exists xs r, tokens fm F xs text r /\
    ((exists rest u, current F fm xs r k rest /\ part G t u /\ says G fm xs k u (UnexpectedToken k w) /\ points_at fm text rest e) \/ unreadable F fm r).
Proof.
  intros F c G fm t text e k w H Hr. apply C79_true in H. destruct H as [xs r k2 rest u Ht Hc Hu Hs Hp|xs r rest q Ht Hun Hq Hp Hl].
  - exists xs, r. split; [exact Ht|]. left. exists rest, u. rewrite Hr in Hs.
    assert (k2 = k) by (inversion Hs; subst; reflexivity). subst k2. auto.
  - exists xs, r. auto.
Qed.
(** "Key not found": some struct inside the type has such a field, without default. *)
Theorem C79_missing_key : forall F c G fm t text e n, parses F c G fm t text (Err e) -> e_reason e = MissingKey n ->
  exists u fs f, part G t u /\ has_fields G u false fs /\ In f fs /\ f_name f = n /\ f_skip f = false /\ f_isopt f = false /\ f_default f = None.
Proof.
  intros F c G fm t text e n H Hr. apply C79_true in H. destruct H as [xs r k2 rest u Ht Hc Hu Hs Hp|xs r rest q Ht Hun Hq Hp Hl].
  - rewrite Hr in Hs. inversion Hs; subst. eauto 12.
  - exfalso. rewrite Hr in Hl. destruct Hl as [(g & r' & _ & _ & X)|[_ [(g & r' & _ & X)|(k & _ & _ & X)]]]; [inversion X | inversion X | discriminate X].
Qed.
(** "Unexpected key": RON; it is the last word read, and a struct inside the type has
    no such field. *)
Theorem C79_unexpected_key : forall F c G fm t text e s, parses F c G fm t text (Err e) -> e_reason e = UnexpectedKey s ->
  fm = Ron /\ exists xs r u dflt fs, tokens fm F (xs ++ [XW s]) text r /\ part G t u /\ has_fields G u dflt fs /\
    (forall f, In f fs -> f_skip f = false -> key_of_field f <> s) /\ points_at fm text r e.
Proof.
  intros F c G fm t text e s H Hr. apply C79_true in H. destruct H as [xs r k2 rest u Ht Hc Hu Hs Hp|xs r rest q Ht Hun Hq Hp Hl].
  - rewrite Hr in Hs. inversion Hs; subst. split; [reflexivity|].
    destruct Hc as [(zs & x & Hz & _ & ->)|(_ & Hk & _)]; [|discriminate Hk]. exists ys, r, u, dflt, fs. auto.
  - exfalso. rewrite Hr in Hl. destruct Hl as [(g & r' & _ & _ & X)|[_ [(g & r' & _ & X)|(k & _ & _ & X)]]]; [inversion X | inversion X | discriminate X].
Qed.
(** "Enum not defined": an enum inside the type has no such variant (JSON: of the kind
    the text has), and it is the last name read. *)
Theorem C79_no_such_enum : forall F c G fm t text e s, parses F c G fm t text (Err e) -> e_reason e = NoSuchEnum s ->
  exists xs r i vs, tokens fm F xs text r /\ last_name fm xs s /\ part G t (TNamed i) /\ nth_error G i = Some (DEnum vs) /\
    match fm with
    | Json => Forall (fun v => unit_variant v -> key_of_variant Json v <> s) vs \/ Forall (fun v => ~ unit_variant v -> key_of_variant Json v <> s) vs
    | Ron => Forall (fun v => key_of_variant Ron v <> s) vs
    end.
Proof.
  intros F c G fm t text e s H Hr. apply C79_true in H. destruct H as [xs r k2 rest u Ht Hc Hu Hs Hp|xs r rest q Ht Hun Hq Hp Hl].
  - rewrite Hr in Hs. inversion Hs; subst. exists xs, r, i, vs. auto.
  - exfalso. rewrite Hr in Hl. destruct Hl as [(g & r' & _ & _ & X)|[_ [(g & r' & _ & X)|(k & _ & _ & X)]]]; [inversion X | inversion X | discriminate X].
Qed.
(** "Value out of range": the last token is a literal of an integer that does not fit
    an integer type inside the type (or of a duration's nanoseconds; or a duration as
    a whole has too many). *)
Theorem C79_out_of_range : forall F c G fm t text e m, parses F c G fm t text (Err e) -> e_reason e = OutOfRange m ->
  (exists xs s r q v, tokens fm F (xs ++ [XN s]) text r /\ points_at fm text r e /\
     (part G t (TInt q) \/ (part G t TDur \/ part G t TTime) /\ q = U32) /\
     (nat_means (unplus s) v /\ greatest q < v /\ too_great m v q \/
      exists d, s = 45 :: d /\ all_digits d /\ decimal d = v /\ ik_signed q = true /\ greatest q + 1 < v /\ too_small m v q)) \/
  ((part G t TDur \/ part G t TTime) /\ m = chars "Duration nanos must be at most 1,000,000,000").
Proof.
  intros F c G fm t text e m H Hr. apply C79_true in H. destruct H as [xs r k2 rest u Ht Hc Hu Hs Hp|xs r rest q Ht Hun Hq Hp Hl].
  - rewrite Hr in Hs.
    assert (NAT : forall v, k2 = KU64 v -> exists ys s, xs = ys ++ [XN s] /\ rest = r /\ nat_means (unplus s) v).
    { intros v ->. destruct Hc as [(ys & x & -> & Hk & ->)|(_ & Hk & _)]; [|discriminate Hk]. inversion Hk; subst. eauto. }
    inversion Hs as [| | | | | | | | | | | | |q v m' E1 E2 E3 E4 E5 E6|q v m' E1 E2 E3 E4 E5 E6| | | | |t' v m' E1 E2 E3 E4 E5 E6| | | |t' E1 E2 E3]; subst.
    + left. destruct (NAT v eq_refl) as (ys & s & -> & -> & Hn). exists ys, s, r, q, v. auto 8.
    + left. destruct Hc as [(ys & x & -> & Hk & ->)|(_ & Hk & _)]; [|discriminate Hk].
      assert (X : exists d, x = XN (45 :: d) /\ all_digits d /\ decimal d = v).
      { inversion Hk; subst. eexists. split; [reflexivity|]. split; [assumption|]. lia. }
      destruct X as (d & -> & A & B). exists ys, (45 :: d), r, q, v. split; [exact Ht|]. split; [exact Hp|]. split; [auto|]. right. exists d. auto 8.
    + left. destruct (NAT v eq_refl) as (ys & s & -> & -> & Hn). exists ys, s, r, U32, v. split; [exact Ht|]. split; [exact Hp|]. split.
      * right. split; [destruct E1 as [-> | ->]; auto | reflexivity].
      * left. split; [exact Hn|]. split; [cbn [greatest]; lia | assumption].
    + right. split; [destruct E1 as [-> | ->]; auto | reflexivity].
  - exfalso. rewrite Hr in Hl. destruct Hl as [(g & r' & _ & _ & X)|[_ [(g & r' & _ & X)|(k & _ & _ & X)]]]; [inversion X | inversion X | discriminate X].
Qed.
(** "Could not parse": a string or number that is none, or a duration's members. *)
Theorem C79_cannot_parse : forall F c G fm t text e m, parses F c G fm t text (Err e) -> e_reason e = CannotParse m ->
  (exists xs r, tokens fm F xs text r /\ unreadable F fm r /\ (m = chars "string" \/ m = chars "number" \/ fm = Ron /\ m = chars "comment")) \/
  (part G t TDur \/ part G t TTime) /\ exists w, firstn 9 m = chars "Duration " /\ m = chars "Duration " ++ w.
Proof.
  intros F c G fm t text e m H Hr. apply C79_true in H. destruct H as [xs r k2 rest u Ht Hc Hu Hs Hp|xs r rest q Ht Hun Hq Hp Hl].
  - right. rewrite Hr in Hs. inversion Hs as [ | | | | | | | | | | | | | | | | | | | |t' w E1 E2 E3 E4 E5|t' w E1 E2 E3 E4 E5 E6|t' E1 E2 E3|]; subst; (split; [destruct E1 as [-> | ->]; auto | eexists; split; reflexivity]).
  - left. rewrite Hr in Hl. exists xs, r. split; [exact Ht|]. split; [exact Hun|].
    destruct Hl as [(g & r' & _ & _ & X)|[_ [(g & r' & _ & X)|(k & _ & _ & X)]]]; [inversion X; auto 6 | inversion X; auto 6 | discriminate X].
Qed.

(** ** Examples *)
Definition vr (n : str) (b : vbody) : variant := {| v_name := n; v_rename := None; v_body := b |}.
Definition GS : env :=
  [DStruct false false [fld (chars "a") false (VZ 0) (TInt U8); fld (chars "b") false (VStr []) TStr];
   DEnum [vr (chars "A") BUnit; vr (chars "B") (BTuple [TInt U8])]].
Ltac runs := apply (de_text_returns _ _ _ _ 14%nat); [vm_compute; reflexivity | discriminate].
Example C79_ex_range : exists e, parses toy c64 GS Json (TNamed 0) (chars "{""a"":300}") (Err e) /\ e_reason e = OutOfRange (chars "300>255").
Proof. eexists. split; [runs | reflexivity]. Qed.
Example C79_ex_missing : exists e, parses toy c64 GS Json (TSeq SVec (TNamed 0)) (chars "[{""b"":""x""}]") (Err e) /\ e_reason e = MissingKey (chars "a").
Proof. eexists. split; [runs | reflexivity]. Qed.
Example C79_ex_key : exists e, parses toy c64 GS Ron (TNamed 0) (chars "(a:1,c:2)") (Err e) /\ e_reason e = UnexpectedKey (chars "c").
Proof. eexists. split; [runs | reflexivity]. Qed.
Example C79_ex_variant : exists e, parses toy c64 GS Json (TOpt (TNamed 1)) (chars "{""A"":[1]}") (Err e) /\ e_reason e = NoSuchEnum (chars "A").
Proof. eexists. split; [runs | reflexivity]. Qed.
Example C79_ex_token : exists e, parses toy c64 GS Json (TSeq SVec (TInt U8)) (chars "[1 2]") (Err e) /\ e_reason e = UnexpectedToken (KU64 2) (chars ", or ]").
Proof. eexists. split; [runs | reflexivity]. Qed.
Example C79_ex_duration : exists e, parses toy c64 GS Json TDur (chars "{""secs"":1,""secs"":2,""nanos"":3}") (Err e) /\ e_reason e = CannotParse (chars "Duration can only have one secs field").
Proof. eexists. split; [runs | reflexivity]. Qed.
(** Behind the number there is no token; the error of an array says so, that of a
    tuple speaks of a comma instead. *)
Example C79_ex_lexical : exists e, parses toy c64 GS Json (TArr 2 (TInt U8)) (chars "[1@,2]") (Err e) /\ e_reason e = UnexpectedToken (KU64 1) (chars "tokenizer").
Proof. eexists. split; [runs | reflexivity]. Qed.
Example C79_ex_hidden : exists e, parses toy c64 GS Json (TTup [TInt U8; TInt U8]) (chars "[1@,2]") (Err e) /\ e_reason e = UnexpectedToken (KU64 1) (chars ", or ]").
Proof. eexists. split; [runs | reflexivity]. Qed.
(** The specification is not so wide as to allow any message: where a
    byte is wanted and a number below 256 is read, there is nothing to say. *)
Example C79_ex_tight : forall G xs v, v < 256 -> ~ exists m, says G Json xs (KU64 v) (TInt U8) m.
Proof.
  intros G xs v Hv [m H]. inversion H as [q E1 E2 E3 E4|q E1 E2|t E1|E1|t E1|E1|t b E1|t b E1|t b E1|t E1|i vs E1|i vs E1|i vs E1|q v2 m2 E1 E2 E3 E4 E5 E6|q v2 m2 E1 E2|t dflt fs f E1|t dflt fs ys s E1 E2|i vs s E1|t E1|t v2 m2 E1|t w E1|t w E1|t E1|t E1]; subst.
  all: try discriminate; try (destruct E1; discriminate); try (inversion E1; fail).
  all: try (exact (E2 v eq_refl)); try (destruct E1 as [E1|[E1|E1]]; discriminate).
  all: try (destruct E1 as (i & E1 & _); discriminate).
  all: try (destruct E2 as (i & E2 & _); discriminate).
  all: try (inversion E1 as [| | | | | | |t0 d0 f0 E0| | | |]; destruct E0 as (i & E0 & _); discriminate).
  all: try (inversion E1 as [| | |t0 d0 f0 E0|]; destruct E0 as (i & E0 & _); discriminate).
  assert (v = v2) by congruence. subst v2. change (greatest U8) with 255 in E2. lia.
Qed.
Print Assumptions C79_true.
Print Assumptions C79_out_of_range.
