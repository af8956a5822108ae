(** What the behavior, replay and async subjects owe to those who use them from several threads. No
    proofs in this file. *)
From Verif Require Import Base SubscrModel PubConcModel PubConcSpec StoreConcModel.
Set Implicit Arguments.

Section Spec.
Variables V E B : Type.
(** The values thread [t] stored. *)
Definition stored (t : nat) (l : list (item V)) : list V := flat_map (fun i : item V => if fst i =? t then [snd i] else []) l.
(** The last element, if there is one. *)
Definition last1 {X} (l : list X) : list X := skipn (length l - 1) l.
(** Nobody is using the subject. *)
Definition at_rest (b : bst V E B) : Prop := idle (b_w b) /\ forall t, nth t (b_rest b) [] = [].
Definition open (b : bst V E B) : Prop := usable (b_w b).
(** What a destination was told: first the greeting, then this. *)
Definition told (b : bst V E B) (s : nat) : list (ncall (item V) E) := d_told (v_dest (b_w b) s).
Definition shut (b : bst V E B) (s : nat) : bool := d_closed (v_dest (b_w b) s).
Definition has (b : bst V E B) (s : nat) : Prop := v_had (b_w b) s = true.
(** Whether subscribing [s] has got further than looking whether the subject is closed. *)
Definition has_begun (b : bst V E B) (s : nat) : Prop :=
  v_used (b_w b) s = true \/ b_greet b s <> None \/
  exists t, In (KOp (OSub s)) (nth t (v_thr (b_w b)) []) \/
    exists m ms, nth t (b_rest b) [] = m :: ms /\ (m = MRead V E s \/ (exists l, m = MCheck E s l) \/ m = MFeed (OSub s)).
End Spec.
(** The reduction of a list of values, as the async subject is meant to hold it. *)
Definition reduced V (f : V -> V -> V) (l : list V) : option V :=
  match l with [] => None | x :: l' => Some (fold_left f l' x) end.
Definition as_list V (o : option V) : list V := match o with Some v => [v] | None => [] end.
