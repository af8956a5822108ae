(** Property C37: catch.

    A history is a list of calls of the source, [Src], and of the replacement after it was
    subscribed to, [Inn]; [mapper e] are the calls the replacement of [e] makes while it is being
    subscribed to. [down] says after which calls the destination has closed itself. *)
From Verif Require Import Base SubscrModel LifeModel CombModel LifeProofs CatchModel CatchSpec CatchProofs.
Set Implicit Arguments.

(** The destination is told exactly what the source sends up to its error, then what the
    replacement sends, up to the first end; nothing panics. *)
Theorem C37_catch : forall A E1 E2 (down : list (ncall A E2) -> bool) (mapper : E1 -> list (ncall A E2)) h, contract false false (source h) ->
  exists s, run down mapper h (init A E2) = Some s /\ t_out (c_told s) = upto down [] (caught mapper h).
Proof. exact @catch_told. Qed.
Print Assumptions C37_catch.

(** Nothing follows the end of what the destination is told. *)
Theorem C37_grammar : forall A E1 E2 (down : list (ncall A E2) -> bool) (mapper : E1 -> list (ncall A E2)) h s l1 c l2, contract false false (source h) ->
  run down mapper h (init A E2) = Some s -> t_out (c_told s) = l1 ++ c :: l2 -> is_closing c = true -> l2 = [].
Proof. exact @catch_grammar. Qed.
Print Assumptions C37_grammar.

(** All values of both, in order, then the end of the replacement. *)
Theorem C37_values : forall A E1 E2 (mapper : E1 -> list (ncall A E2)) vs (e : E1) (now later : list A) (c : ncall A E2), is_closing c = true -> mapper e = map Nxt now ->
  exists s, run (fun _ => false) mapper (map (fun v => Src (Nxt v)) vs ++ Src (Err e) :: map (fun d => Inn d) (map Nxt later ++ [c])) (init A E2) = Some s /\
    t_out (c_told s) = map Nxt (vs ++ now ++ later) ++ [c].
Proof. exact @catch_values. Qed.
Print Assumptions C37_values.

Definition never (l : list (ncall nat nat)) : bool := false.
Definition outs (o : option (st nat nat)) : option (list (ncall nat nat)) := option_map (fun s => t_out (c_told s)) o.
Definition asks (e : nat) : list (ncall nat nat) := if e =? 7 then [Nxt 20; Nxt 21] else [Nxt 30; Err 8].

Example C37_example : outs (run never asks [Src (Nxt 1); Src (Err 7); Inn (Nxt 22); Inn (Err 9); Inn (Nxt 23)] (init nat nat)) = Some [Nxt 1; Nxt 20; Nxt 21; Nxt 22; Err 9].
Proof. vm_compute. reflexivity. Qed.
Example C37_example_sync : outs (run never asks [Src (Nxt 1); Src (Err 5); Inn (Nxt 22)] (init nat nat)) = Some [Nxt 1; Nxt 30; Err 8].
Proof. vm_compute. reflexivity. Qed.
Example C37_example_complete : outs (run never asks [Src (Nxt 1); Src Cmp; Src Uns] (init nat nat)) = Some [Nxt 1; Cmp].
Proof. vm_compute. reflexivity. Qed.
Example C37_example_unsubscribed : outs (run never asks [Src (Nxt 1); Src (Err 7); Src Uns; Inn (Nxt 22)] (init nat nat)) = Some [Nxt 1; Nxt 20; Nxt 21; Uns].
Proof. vm_compute. reflexivity. Qed.

(** False: the replacement of the error of a synchronous source is heard to its end. Such sources
    (throw_observable.rs:33-43, through inert_subscription.rs:12-20) unsubscribe the subscriber
    they have told the error if it is not closed, and that ends the replacement. *)
Theorem C37_throw_refuted : exists (mapper : nat -> list (ncall nat nat)) (later : list (ncall nat nat)),
  outs (run never mapper ([Src (Err 7); Src Uns] ++ map (fun c => Inn c) later) (init nat nat)) <> Some (later).
Proof. exists (fun _ => []), [Nxt 1; Cmp]. vm_compute. discriminate. Qed.
Print Assumptions C37_throw_refuted.

(** False: after the destination has closed, so has the subscriber ([is_closed] is [c_torn]). *)
Definition after1 (l : list (ncall nat nat)) : bool := 1 <=? length l.
Theorem C37_closed_refuted : exists (h : list (act nat nat nat)) s, contract false false (source h) /\ run after1 (fun _ : nat => []) h (init nat nat) = Some s /\
  t_shut (c_told s) = true /\ c_torn s = false.
Proof. exists [Src (Err 7); Inn (Nxt 1)]. eexists. repeat split; vm_compute; reflexivity. Qed.
Print Assumptions C37_closed_refuted.
