(** Property C74: what an operator calls on a destination that is closed. [bare] is a destination that
    records every call, also when it is closed; [told] are the calls it got, [effects] the callbacks of the
    operator. [heeds]: the source looks at [is_closed] before each value, error or completion. *)
From Verif Require Import Base SubscrModel OpsModel OpsQuiet.
Set Implicit Arguments.

(** If the source heeds [is_closed], every operator tells values, then an end, then at most
    unsubscriptions. Partial: not for operators composed of others. *)
Theorem C74_orderly_partial : forall I E O F (o : oper I E O F) cs, plain o = true ->
  heeds (op_sub o (bare O F)) (s0 (op_sub o (bare O F))) cs -> orderly (told (run (op_sub o (bare O F)) cs)).
Proof. exact plain_orderly. Qed.
Print Assumptions C74_orderly_partial.
Example C74_orderly_example :
  let S := op_sub (@OBufferCount nat nat 1) (bare (list nat) nat) in
  let cs := [CN (Nxt 1); CN (Nxt 2); CN (Nxt 3); CN Cmp; CN Uns] in
  heeds S (s0 S) cs /\ told (run S cs) = [Nxt [1; 2]; Nxt [3]; Cmp; Uns].
Proof. vm_compute. intuition. Qed.

(** Composed: count tells its number and completes without looking, and is_empty, which has ended by then,
    tells that it was empty, after it had told that it was not. The callback of a tap_next behind it sees
    both, though the source did nothing wrong. *)
Theorem C74_composed_refuted : exists cs : list (call nat nat),
  let p (D : subscriber (ncall bool nat) bool nat) := op_sub (@OCount nat nat) (op_sub (@OIsEmpty nat nat) D) in
  heeds (p (bare bool nat)) (s0 (p (bare bool nat))) cs /\
  told (run (p (bare bool nat)) cs) = [Nxt false; Cmp; Nxt true] /\
  effects (run (p (op_sub (OTapNext nat (fun b : bool => if b then 1 else 0)) (bare bool nat))) cs) = [0; 1].
Proof. exists [CN (Nxt 7); CN Cmp]. vm_compute. intuition. Qed.
Print Assumptions C74_composed_refuted.

(** Also if the source heeds nothing: at most one value, or at most [n]. *)
Theorem C74_find : forall A E (p : A -> bool) cs, nexts (told (run (op_sub (OFind E p) (bare A (find_error E))) cs)) <= 1.
Proof. exact find_once. Qed.
Theorem C74_find_index : forall A E (p : A -> bool) cs, nexts (told (run (op_sub (OFindIndex E p) (bare nat (find_error E))) cs)) <= 1.
Proof. exact find_index_once. Qed.
Theorem C74_first : forall A E cs, nexts (told (run (op_sub (@OFirst A E) (bare A (first_error E))) cs)) <= 1.
Proof. exact first_once. Qed.
Theorem C74_element_at : forall A E i d cs, nexts (told (run (op_sub (@OElementAt A E i d) (bare A (element_at_error E))) cs)) <= 1.
Proof. exact element_at_once. Qed.
Theorem C74_take : forall A E n cs, nexts (told (run (op_sub (@OTake A E n) (bare A E)) cs)) <= n.
Proof. exact take_at_most. Qed.
Print Assumptions C74_find.
Print Assumptions C74_find_index.
Print Assumptions C74_first.
Print Assumptions C74_element_at.
Print Assumptions C74_take.
Example C74_at_most_example :
  let cs := [CN (@Nxt nat nat 1); CN (Nxt 2); CN (Nxt 3); CN (Nxt 2); CN Cmp; CN (Nxt 2)] in
  told (run (op_sub (OFind nat (fun a => a =? 2)) (bare nat (find_error nat))) cs) = [Nxt 2; Cmp] /\
  told (run (op_sub (@OTake nat nat 2) (bare nat nat)) cs) = [Nxt 1; Nxt 2; Cmp; Cmp] /\
  told (run (op_sub (@OElementAt nat nat 2 None) (bare nat (element_at_error nat))) cs) = [Nxt 3; Cmp].
Proof. vm_compute. auto. Qed.

(** is_empty is not one of them. *)
Theorem C74_is_empty_refuted : exists cs : list (call nat nat),
  nexts (told (run (op_sub (@OIsEmpty nat nat) (bare bool nat)) cs)) = 2.
Proof. exists [CN (Nxt 1); CN (Nxt 2)]. vm_compute. reflexivity. Qed.
Print Assumptions C74_is_empty_refuted.

(** The callbacks of tap: for the notifications up to the first error or completion, and none later
    ([taps]); also for those after an unsubscription. The callback of tap_next: for every value there is. *)
Theorem C74_tap : forall A E (fn : A -> nat) (fe : E -> nat) fc cs,
  effects (run (op_sub (OTap fn fe fc) (bare A E)) cs) = taps fn fe fc cs.
Proof. exact tap_effects. Qed.
Print Assumptions C74_tap.
Theorem C74_tap_next : forall A E (f : A -> nat) (cs : list (call A E)),
  effects (run (op_sub (OTapNext E f) (bare A E)) cs) = flat_map (fun c => match c with CN (Nxt a) => [f a] | _ => [] end) cs.
Proof. exact tap_next_effects. Qed.
Print Assumptions C74_tap_next.
Example C74_tap_example :
  let cs := [CN (@Nxt nat nat 1); CN Cmp; CN (Nxt 2); CN Cmp] in
  effects (run (op_sub (OTap (fun a => a) (fun e => e) 9) (bare nat nat)) cs) = [1; 9] /\
  effects (run (op_sub (OTapNext nat (fun a => a)) (bare nat nat)) cs) = [1; 2].
Proof. vm_compute. auto. Qed.

(** on_next: what the callback told, then the value if the callback said so and the destination is open
    still; in any state. *)
Theorem C74_on_next : forall A E (f : A -> list (ncall A E) * bool) s a,
  told (snd (step (op_sub (OOnNext f) (bare A E)) s (CN (Nxt a)))) =
  fst (f a) ++ (if snd (f a) && negb (closed (op_sub (OOnNext f) (bare A E)) s) && forallb is_next (fst (f a)) then [Nxt a] else []).
Proof. exact (fun A E f s a => match s with (q, b) => @on_next_step A E f q b a end). Qed.
Print Assumptions C74_on_next.
Example C74_on_next_example :
  let S := op_sub (OOnNext (fun a : nat => if a =? 2 then ([Nxt 5; Cmp], true) else ([], true))) (bare nat nat) in
  told (run S [CN (Nxt 1); CN (Nxt 2); CN (Nxt 3)]) = [Nxt 1; Nxt 5; Cmp].
Proof. vm_compute. reflexivity. Qed.
