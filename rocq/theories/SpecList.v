(** Specification side: texts of lists and of maps, by the texts of their parts. *)
From Verif Require Import Base Utf8 Types Text SpecText SpecGram.
Local Open Scope N_scope.

Section Lists.
  Variables (F : flt) (fm : fmt).
  (** The items in order, separated by commas. *)
  Inductive items_text : list str -> str -> Prop :=
  | its_one a x b : gap a -> gap b -> value_text F fm x -> items_text [x] (a ++ x ++ b)
  | its_more a x b xs r : gap a -> gap b -> value_text F fm x -> items_text xs r ->
      items_text (x :: xs) (a ++ x ++ b ++ [44] ++ r).
  (** ... between brackets, possibly with one comma after the last. *)
  Definition list_text (o cl : N) (xs : list str) (text : str) : Prop :=
    exists g1 g2 s, text = g1 ++ o :: s ++ [cl] ++ g2 /\ gap g1 /\ gap g2 /\
      (items_text xs s \/ (exists s' g, items_text xs s' /\ gap g /\ s = s' ++ [44] ++ g) \/ xs = [] /\ gap s).
  (** Tuples are in [ ] in JSON, in ( ) in RON. *)
  Definition tup_open : N := match fm with Json => 91 | Ron => 40 end.
  Definition tup_close : N := match fm with Json => 93 | Ron => 41 end.

  (** The entries of a map. *)
  Definition entry_text (e : str * str) (s : str) : Prop :=
    exists a b c d, s = a ++ fst e ++ b ++ [58] ++ c ++ snd e ++ d /\
      gap a /\ gap b /\ gap c /\ gap d /\ value_text F fm (fst e) /\ value_text F fm (snd e).
  Inductive entries_text : list (str * str) -> str -> Prop :=
  | en_one e s : entry_text e s -> entries_text [e] s
  | en_more e s es r : entry_text e s -> entries_text es r -> entries_text (e :: es) (s ++ [44] ++ r).
  Definition map_text (es : list (str * str)) (text : str) : Prop :=
    exists g1 g2 s, text = g1 ++ 123 :: s ++ [125] ++ g2 /\ gap g1 /\ gap g2 /\
      (entries_text es s \/ (exists s' g, entries_text es s' /\ gap g /\ s = s' ++ [44] ++ g) \/ es = [] /\ gap s).
End Lists.

(** ** Enums: the name and the text of the payload *)
Section Enums.
  Variables (F : flt) (fm : fmt).
  (** A variant without fields: its name, a string in JSON, a word in RON. *)
  Definition unit_text (k text : str) : Prop :=
    exists g1 s g2, text = g1 ++ s ++ g2 /\ name_text fm k s /\ gap g1 /\ gap g2.
  (** One with fields: [{ "name" : payload }] in JSON, [name payload] in RON. *)
  Definition variant_text (k payload text : str) : Prop :=
    match fm with
    | Json => exists g1 a s b g2, text = g1 ++ 123 :: a ++ s ++ b ++ [58] ++ payload ++ [125] ++ g2 /\
        name_text fm k s /\ gap g1 /\ gap a /\ gap b /\ gap g2
    | Ron => exists g1 s, text = g1 ++ s ++ payload /\ name_text fm k s /\ gap g1
    end.
  (** Something in brackets (in RON the round ones). *)
  Definition bracketed_text (p : str) : Prop :=
    exists g1 o a cl g2, p = g1 ++ o :: a ++ [cl] ++ g2 /\ brackets fm o cl /\ (fm = Ron -> o = 40) /\ inside F fm a /\ gap g1 /\ gap g2.
End Enums.
