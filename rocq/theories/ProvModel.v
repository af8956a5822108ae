(** The provenance subject: a behavior subject of pairs, and three pipelines on top of it.
    crates/rx_core_subject_provenance/src/provenance_subject.rs:28-42, :150-192. *)
From Verif Require Import Base SubscrModel OpsModel SubjectModel.
Set Implicit Arguments.

(** How a notification from the subject arrives at the head of a pipeline. *)
Definition feed {A E} (e : sev A E) : call A E :=
  match e with
  | SN a => CN (Nxt a) | SE e => CN (Err e) | SC => CN Cmp | SU => CN Uns
  end.

Section Views.
Context {A Pv E : Type}.
Context (eqb : Pv -> Pv -> bool).   (* PartialEq of the provenance *)

(** :76-86, :194-196 *)
Definition view_all : pipe (A * Pv) E A E := PCons (OMap E (@fst A Pv)) PNil.
(** :90-117, :207-214 *)
Definition view_replay_then (p : Pv) : pipe (A * Pv) E A E :=
  PCons (OFilter E (fun x i => (i =? 0) || eqb (snd x) p)) (PCons (OMap E (@fst A Pv)) PNil).
(** :122-147, :198-205 *)
Definition view_only (p : Pv) : pipe (A * Pv) E A E :=
  PCons (OFilter E (fun x _ => eqb (snd x) p)) (PCons (OMap E (@fst A Pv)) PNil).
End Views.

(** Specification: what is left of an event for an observer who wants the values whose
    provenance satisfies [f]. *)
Section Spec.
Context {A Pv E : Type}.
Definition strip (f : Pv -> bool) (e : sev (A * Pv) E) : list (notif A E) :=
  match e with
  | SN (a, p) => if f p then [NNext a] else []
  | SE e => [NError e]
  | SC => [NComplete]
  | SU => []
  end.
End Spec.
