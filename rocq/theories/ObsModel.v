(** The observers that come with the library, at the end of a pipeline. No proofs in this file. *)
From Verif Require Import Base SubscrModel OpsModel.
Set Implicit Arguments.

(** *** An observer: its methods, and what they make visible. *)
Record observer (X O F : Type) : Type := mkObserver {
  ob : Type;
  ob0 : ob;
  ob_call : ob -> notif O F -> ob * list (ev X)
}.

(** The observer used directly, with nothing in front of it. *)
Fixpoint used {X O F} (B : observer X O F) (b : ob B) (ns : list (notif O F)) : ob B * list (ev X) :=
  match ns with
  | [] => (b, [])
  | n :: r => let '(b1, w1) := ob_call B b n in let '(b2, w2) := used B b1 r in (b2, w1 ++ w2)
  end.

(** crates/rx_core_common/src/subscribers/subscriber_observer.rs:36-86 around any observer, which is what a derived
    observer is upgraded to (crates/rx_core_macro_common/src/derive_observer.rs:61-75,
    crates/rx_core_common/src/upgradeable_observer.rs). *)
Definition upgraded {X O F} (B : observer X O F) : subscriber X O F :=
  {| st := sdata * ob B; s0 := (mkSData false [], ob0 B); w0 := [];
     step := fun s c =>
       let '(d, b) := s in
       match c with
       | CN (Nxt o) => if sd_closed d then (s, [])
                       else let '(b', w) := ob_call B b (NNext o) in ((d, b'), w)
       | CN (Err e) => if sd_closed d then (s, [])
                       else let '(b', w) := ob_call B b (NError e) in
                            let '(d', w') := sd_unsubscribe d in ((d', b'), w ++ w')
       | CN Cmp => if sd_closed d then (s, [])
                   else let '(b', w) := ob_call B b NComplete in
                        let '(d', w') := sd_unsubscribe d in ((d', b'), w ++ w')
       | CN Uns => let '(d', w) := sd_unsubscribe d in ((d', b), w)
       | CAdd t => let '(d', w) := sd_add d t in ((d', b), w)
       | CDrop => let '(d', w) := sink_drop d in ((d', b), w)
       end;
     closed := fun s => sd_closed (fst s) |}.

(** *** FnObserver, crates/rx_core_observer_fn/src/fn_observer.rs:51-65. The callbacks for the error and the
    completion are taken when they are called; state: which of the two are there. What is visible are
    the calls of the callbacks. *)
Definition fn_observer (O F : Type) : observer (notif O F) O F :=
  {| ob := bool * bool; ob0 := (true, true);
     ob_call := fun b n =>
       match n with
       | NNext o => (b, [EObs (NNext o)])
       | NError e => if fst b then ((false, snd b), [EObs (NError e)]) else (b, [])
       | NComplete => if snd b then ((fst b, false), [EObs NComplete]) else (b, [])
       end |}.

(** *** DynFnObserver, crates/rx_core_observer_fn/src/dyn_fn_observer.rs. Callbacks have numbers. A panic is
    visible; what the model does after it means nothing. *)
Inductive dyn_ev (O F : Type) : Type :=
| DNext (k : nat) (o : O)
| DError (k : nat) (e : F)
| DComplete (k : nat)
| DPanic.
Arguments DNext {O F} k o. Arguments DError {O F} k e. Arguments DComplete {O F} k. Arguments DPanic {O F}.
Record dyn : Type := mkDyn { on_n : option nat; on_e : option nat; on_c : option nat }.
Definition dyn_default : dyn := mkDyn None None None.                                      (* :71-83 *)
Definition with_next (k : nat) (d : dyn) : dyn := mkDyn (Some k) (on_e d) (on_c d).        (* :25-28 *)
Definition with_error (k : nat) (d : dyn) : dyn := mkDyn (on_n d) (Some k) (on_c d).       (* :30-36 *)
Definition with_complete (k : nat) (d : dyn) : dyn := mkDyn (on_n d) (on_e d) (Some k).    (* :38-44 *)
Definition dyn_observer (O F : Type) (d0 : dyn) : observer (dyn_ev O F) O F :=
  {| ob := dyn; ob0 := d0;
     ob_call := fun d n =>                                                                 (* :50-68 *)
       match n with
       | NNext o => (d, match on_n d with Some k => [EObs (DNext k o)] | None => [] end)
       | NError e => match on_e d with
                     | Some k => (mkDyn (on_n d) None (on_c d), [EObs (DError k e)])
                     | None => (d, [EObs DPanic])
                     end
       | NComplete => match on_c d with
                      | Some k => (mkDyn (on_n d) (on_e d) None, [EObs (DComplete k)])
                      | None => (d, [])
                      end
       end |}.

(** *** NoopObserver, crates/rx_core_observer_noop/src/noop_observer.rs:26-34; the panic is that of a debug
    assertion. *)
Definition noop_observer (O F : Type) : observer (dyn_ev O F) O F :=
  {| ob := unit; ob0 := tt;
     ob_call := fun b n => (b, match n with NError _ => [EObs DPanic] | _ => [] end) |}.

(** *** PrintObserver, crates/rx_core_observer_print/src/print_observer.rs: upgrades to itself, so that
    nothing is in front of it. What is visible are the lines (the prefix is left out); [LDropped] stands
    for its drop and is not printed. *)
Inductive line (O F : Type) : Type :=
| LNext (o : O)
| LError (e : F)
| LCompleted
| LUnsubscribed
| LDropped.
Arguments LNext {O F} o. Arguments LError {O F} e. Arguments LCompleted {O F}. Arguments LUnsubscribed {O F}. Arguments LDropped {O F}.
Definition print_unsubscribe {O F} (d : sdata) : sdata * list (ev (line O F)) :=           (* :105-110 *)
  if sd_closed d then (d, []) else let '(d', w) := sd_unsubscribe d in (d', w ++ [EObs LUnsubscribed]).
Definition print_observer (O F : Type) : subscriber (line O F) O F :=
  {| st := sdata; s0 := mkSData false []; w0 := [];
     step := fun d c =>
       match c with
       | CN (Nxt o) => (d, [EObs (LNext o)])                                               (* :78-80 *)
       | CN (Err e) => let '(d', w) := print_unsubscribe d in (d', EObs (LError e) :: w)   (* :83-86 *)
       | CN Cmp => let '(d', w) := print_unsubscribe d in (d', EObs LCompleted :: w)       (* :89-92 *)
       | CN Uns => print_unsubscribe d
       | CAdd t => sd_add d t                                                              (* :119-121 *)
       | CDrop => let '(d', w) := sd_unsubscribe d in (d', w ++ [EObs LDropped])           (* :129-132 *)
       end;
     closed := sd_closed |}.
