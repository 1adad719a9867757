(** Specification side of the messages. *)
From Verif Require Import Base Utf8 Types SpecText SpecGram.
Local Open Scope N_scope.

(** [d] is the decimal numeral of [n]: digits, no superfluous zero in front. *)
Definition numeral (d : str) (n : N) : Prop :=
  all_digits d /\ decimal d = n /\ (d = [48] \/ exists x r, d = x :: r /\ x <> 48).
(** The message [msg] of format [who] about [what], for the line [l] and column [k], counted from 1. *)
Definition reports (msg who what : str) (l k : N) : Prop :=
  exists dl dk, msg = who ++ chars " Deserialize error: " ++ what ++ chars ", line:" ++ dl ++ chars " col:" ++ dk /\
    numeral dl (l + 1) /\ numeral dk (k + 1).
