(** C50: partially read arrays are released exactly once. *)
From Verif Require Import Base Types BinModel Text TextModel SpecDrop ArrayDrop ArrayDropProofs.
From Verif Require Import PropsBin TextEx.
From Coq Require Import Permutation.
Local Open Scope nat_scope.

Section Nested.
  Context {St E A B : Type}.
  Lemma omap_owning (f : A -> B) (m : om St E (obj A)) : owning m -> owning (omap f m).
  Proof.
    intros H s l Hl. specialize (H s l Hl). unfold omap.
    destruct (m s l) as [[s' l'] [[a ids]|e|p| |]]; exact H.
  Qed.
End Nested.

(** Whatever the items and the punctuation do: if reading an item is honest about
    ownership, then so is reading an array of them. *)
Theorem C50_array_owning {St E A} (opn sep cls : St -> St * res E unit) (item : om St E (obj A)) n :
  owning item -> owning (de_array opn item sep cls n).
Proof. apply de_array_owning. Qed.

(** Binary, any element type, any dimensions, any input and offset. *)
Theorem C50_bin_arrays c G d fuel dims t : owning (bin_arrays c G d fuel dims t).
Proof.
  induction dims as [|n r IH]; cbn [bin_arrays]; [apply track_owning|].
  apply omap_owning, de_array_owning, IH.
Qed.

(** JSON and RON. *)
Theorem C50_text_arrays {S} (L : lexer S) F c G fm fuel dims t :
  owning (text_arrays L F c G fm fuel dims t).
Proof.
  induction dims as [|n r IH]; cbn [text_arrays]; [apply track_owning|].
  apply omap_owning, de_array_owning, IH.
Qed.

(** The runs with slots are the runs of the deserializers of BinModel.v and
    TextModel.v: same final position, same value, error or panic. *)
Lemma de_rep_plain (m : ty -> bm val) (t : ty) : forall n o,
  de_rep m n t o = plain_items (m t) (bret tt) n o.
Proof.
  induction n as [|n IH]; intros o; simpl; [reflexivity|].
  unfold bbind, bret. destruct (m t o) as [o1 [a|e|p|]]; try reflexivity.
  rewrite IH. unfold bret. destruct (plain_items _ _ n o1) as [o2 [r|e|p|]]; reflexivity.
Qed.

Theorem C50_bin_same c G d fuel t dims : forall o l, orderly l ->
  let r := bin_arrays c G d fuel dims t o l in
  let r' := de_bin c G d (length dims + fuel) (arr_ty dims t) o in
  fst (fst r) = fst r' /\ same_outcome (fun v => v) (snd r) (snd r').
Proof.
  cbv zeta. change (sim (fun v => v) (bin_arrays c G d fuel dims t) (de_bin c G d (length dims + fuel) (arr_ty dims t))).
  induction dims as [|n r IH]; cbn [bin_arrays length arr_ty Nat.add].
  - apply track_sim.
  - intros o l Hl.
    destruct (de_array_plain (bret tt) (bin_arrays c G d fuel r t) _ (bret tt) (bret tt) n o l
               (C50_bin_arrays _ _ _ _ _ _) IH Hl) as [H1 H2].
    cbn [de_bin]. unfold omap, bmap, bbind. rewrite de_rep_plain.
    unfold plain_array in H1, H2. change (@bret unit tt o) with (o, @Ok berr unit tt) in H1, H2.
    cbv iota beta in H1, H2.
    destruct (plain_items _ _ n o) as [o2 [vs2|e2|p2|]];
      destruct (de_array _ _ _ _ _ _ _) as [[o1 l1] [[vs ids]|e|p| |]];
      cbn in H1, H2 |- *; subst; auto; contradiction.
Qed.

Lemma de_list_plain {S} (L : lexer S) fm (de : ty -> pm val) (t : ty) : forall n s,
  de_list (repeat (de_item L fm de t) n) s = plain_items (de t) (eat_tcomma L fm) n s.
Proof.
  induction n as [|n IH]; intros s; simpl; [reflexivity|].
  unfold de_item at 1, pbind, pret. destruct (de t s) as [s1 [a|e|p|]]; try reflexivity.
  destruct (eat_tcomma L fm s1) as [s2 [u|e|p|]]; try reflexivity.
  rewrite IH. destruct (plain_items _ _ n s2) as [o2 [r|e|p|]]; reflexivity.
Qed.

Lemma text_arr_plain {S} (L : lexer S) fm (de : ty -> pm val) t n s :
  pmap VSeq (de_bracketed L fm (repeat (de_item L fm de t) n)) s =
  match plain_array (expect L (k_topen fm) (w_topen fm)) (de t) (eat_tcomma L fm)
          (expect L (k_tclose fm) (w_tclose fm)) n s with
  | (s', Ok l) => (s', Ok (VSeq l))
  | (s', Err e) => (s', Err e)
  | (s', Panic p) => (s', Panic p)
  | (s', NoFuel) => (s', NoFuel)
  end.
Proof.
  unfold pmap, de_bracketed, plain_array, pbind.
  destruct (expect L (k_topen fm) (w_topen fm) s) as [s0 [u|e|p|]]; try reflexivity.
  rewrite de_list_plain.
  destruct (plain_items _ _ n s0) as [o2 [vs2|e2|p2|]]; try reflexivity.
Qed.

Theorem C50_text_same {S} (L : lexer S) F c G fm fuel t dims : forall s l, orderly l ->
  let r := text_arrays L F c G fm fuel dims t s l in
  let r' := de_text L F c G fm (length dims + fuel) (arr_ty dims t) s in
  fst (fst r) = fst r' /\ same_outcome (fun v => v) (snd r) (snd r').
Proof.
  cbv zeta. change (sim (fun v => v) (text_arrays L F c G fm fuel dims t) (de_text L F c G fm (length dims + fuel) (arr_ty dims t))).
  induction dims as [|n r IH]; cbn [text_arrays length arr_ty Nat.add].
  - apply track_sim.
  - intros s l Hl.
    destruct (de_array_plain (expect L (k_topen fm) (w_topen fm)) (text_arrays L F c G fm fuel r t) _
               (eat_tcomma L fm) (expect L (k_tclose fm) (w_tclose fm)) n s l
               (C50_text_arrays _ _ _ _ _ _ _ _) IH Hl) as [H1 H2].
    cbn [de_text]. rewrite text_arr_plain. unfold omap.
    destruct (plain_array _ _ _ _ n s) as [o2 [vs2|e2|p2|]];
      destruct (de_array _ _ _ _ _ _ _) as [[o1 l1] [[vs ids]|e|p| |]];
      cbn in H1, H2 |- *; subst; auto; contradiction.
Qed.

(** The exact history of an array of [n] droppable items.  On success exactly [n]
    values were made, none was dropped, and the result owns each once.  On an
    error exactly the values made so far were dropped, each once: [k] of them if
    item [k] (from 0) failed, [k+1] if the separator after item [k] failed (that
    item had been read), [n] if the closing bracket was missing. *)
Theorem C50_history {St E A} (opn sep cls : St -> St * res E unit) (m : St -> St * res E A) n s :
  match de_array opn (track m) sep cls n s [] with
  | (_, l, OOk (vs, ids)) =>
    length vs = n /\ length ids = n /\ NoDup ids /\ l = map Made ids
  | (_, l, OErr e) =>
    exists ids ids', l = map Made ids ++ map Dropped ids' /\ NoDup ids /\ Permutation ids ids' /\
      ((exists s1, opn s = (s1, Err e)) /\ length ids = 0 \/
       exists s0 u, opn s = (s0, Ok u) /\
        ((exists k sk, reads m sep k s0 sk /\ k < n /\
           ((exists s1, m sk = (s1, Err e)) /\ length ids = k \/
            (exists s1 s2 a, m sk = (s1, Ok a) /\ sep s1 = (s2, Err e)) /\ length ids = S k)) \/
         (exists s1 s2, reads m sep n s0 s1 /\ cls s1 = (s2, Err e)) /\ length ids = n))
  | (_, _, OUB) => False
  | _ => True
  end.
Proof.
  pose proof (de_array_trace opn m sep cls n s [] orderly_nil) as H.
  pose proof (C50_array_owning opn sep cls (track m) n (track_owning m) s [] orderly_nil) as HO.
  destruct (de_array opn (track m) sep cls n s []) as [[s' l] [[vs ids]|e|p| |]]; simpl in H, HO |- *;
    try exact I; try tauto.
  destruct H as (ids & ids' & H1 & H2 & H3 & H4). exists ids, ids'.
  split; [exact H1|]. split; [exact H2|]. split; [exact H3|].
  destruct H4 as [[H4 ->] | (s0 & u & H4 & H5)]; [left; auto|].
  right. exists s0, u. split; [exact H4|]. unfold stopped in H5. tauto.
Qed.

(** What the property does not promise: an item whose reading panics (a Duration
    with too many nanoseconds, C08) leaves the items before it alive for ever. *)
Theorem C50_panic_leaks :
  exists l, snd (fst (bin_arrays c64 [] (repeat 0%N 12 ++ repeat 255%N 8 ++ [0; 202; 154; 59]%N) 3 [2] TDur 0%N [])) = l /\
    (exists p, snd (bin_arrays c64 [] (repeat 0%N 12 ++ repeat 255%N 8 ++ [0; 202; 154; 59]%N) 3 [2] TDur 0%N []) = OPanic p) /\
    exists i, alive l i.
Proof.
  eexists. split; [vm_compute; reflexivity|]. split; [eexists; vm_compute; reflexivity|].
  exists 1. split; [left; reflexivity|]. intros [H|[]]; discriminate.
Qed.

(** Concrete runs: [[u8; 2]; 2] cut short after three bytes drops all three bytes'
    values; with four bytes nothing is dropped. *)
Example C50_ex :
  let r := bin_arrays c64 [] [7; 8; 9]%N 3 [2; 2] (TInt U8) 0%N [] in
  snd (fst r) = [Made 1; Made 2; Made 3; Dropped 3; Dropped 1; Dropped 2] /\
  (exists e, snd r = OErr e) /\
  let r2 := bin_arrays c64 [] [7; 8; 9; 10]%N 3 [2; 2] (TInt U8) 0%N [] in
  snd r2 = OOk (VSeq [VSeq [VZ 7; VZ 8]; VSeq [VZ 9; VZ 10]], [1; 2; 3; 4]) /\
  snd (fst r2) = [Made 1; Made 2; Made 3; Made 4].
Proof.
  vm_compute. split; [reflexivity|]. split; [eexists; reflexivity|]. split; reflexivity.
Qed.

(** JSON: [ [1,2 3] ] as [[u8; 3]]: the separator after the second item is missing. *)
Example C50_ex_json :
  let s := fst (l_next (text_lexer toy Json) (start Json (chars "[1,2 3]"))) in
  let r := text_arrays (text_lexer toy Json) toy c64 [] Json 3 [3] (TInt U8) s [] in
  snd (fst r) = [Made 1; Made 2; Dropped 2; Dropped 1] /\ exists e, snd r = OErr e.
Proof. vm_compute. split; [reflexivity|]. eexists; reflexivity. Qed.
