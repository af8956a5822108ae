(** Destinations that unsubscribe in answer to a value, as predicates of what they were told. *)
From Verif Require Import Base SubscrModel SharedModel.
Set Implicit Arguments.

Section Re.
Context {A E : Type} (D : dest A E).
Variable d0 : dst D.

(** The destination after what it was told. *)
Definition after (l : list (ncall A E)) : dst D := fold_left (fun d n => fst (react D d n)) l d0.
(** It calls the shared subscriber only to unsubscribe. *)
Definition leaves : Prop := forall d n, snd (react D d n) = [] \/ snd (react D d n) = [Uns].
(** Once it has unsubscribed in answer to a value, it is given no more. *)
Definition heeded (l : list (ncall A E)) : Prop := forall l1 a l2, l = l1 ++ Nxt a :: l2 ->
  In Uns (snd (react D (after l1) (Nxt a))) -> forall b, ~ In (Nxt b) l2.
End Re.
