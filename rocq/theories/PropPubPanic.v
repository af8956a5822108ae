(** Property C66: subscribers of a subject that panic.

    [pcalls prog boom ord (pnew P) us] is the state after the calls [us] made from outside on a subject
    of kind [P] (plain, behavior v, replay n, async f), of which a panic that gets out is caught by the
    caller. [prog] says how each subscriber reacts to what it is told, and [boom] whether it panics then;
    [ord] is the order in which the table of subscribers is iterated, each time. [outer_users] is the
    same without panics (PropSubjects.v). [ps_poison] tells whether a panic passed the locked table of
    subscribers. [history s i] is what subscriber [i] was told; dropping one that is open unsubscribes
    it, which its teardowns are told as [SU]. *)
From Coq Require Import Permutation.
From Verif Require Import Base SubjectModel SubjectSpec PubPanicModel PubPanicProofs.
Set Implicit Arguments.

Notation behaviour A E := (nat -> list (sev A E) -> list (ucmd A E) * bool).
(** subscribers and orders used in the examples *)
Definition deaf : behaviour nat bool := fun _ _ => ([], false).
Definition forwards : nat -> list nat -> list nat := fun _ l => l.
Definition backwards : nat -> list nat -> list nat := fun _ l => rev l.
(** subscriber [k] panics over the value [v] *)
Definition over (k v : nat) : nat -> list (sev nat bool) -> bool :=
  fun i h => Nat.eqb i k && match last h SU with SN a => Nat.eqb a v | _ => false end.

(** The calls that the four kinds of subject make on the publish subject within them. *)
Theorem C66_subjects : forall A E (v : A) n f,
  honest (@plain A E) /\ honest (@behavior A E v) /\ honest (@replay A E n) /\ honest (@async A E f).
Proof. exact @honest_all. Qed.
Print Assumptions C66_subjects.

(** As long as nobody panicked, everything is as without panics. *)
Theorem C66_before : forall A E (prog : behaviour A E) boom ord (P : policy A E) us,
  running (fold_left (pouter_user prog boom ord P) us (sj_new P)) = true ->
  pcalls prog boom ord (pnew P) us = mkPsubject P (outer_users prog ord P (sj_new P) us) None.
Proof. exact @before. Qed.
Print Assumptions C66_before.

(** In the call in which somebody panics for the first time, a subscriber is told the beginning of what
    it would be told otherwise, and then at most that it is unsubscribed. *)
Theorem C66_during : forall A E (prog : behaviour A E) boom ord (P : policy A E) us u,
  running (fold_left (pouter_user prog boom ord P) us (sj_new P)) = true -> forall j, exists h d l,
  history (ps_subject (pcalls prog boom ord (pnew P) (us ++ [u]))) j = h ++ d /\
  history (outer_users prog ord P (sj_new P) (us ++ [u])) j = h ++ l /\ (d = [] \/ d = [SU]).
Proof. exact @first_panic. Qed.
Print Assumptions C66_during.

(** Once a panic passed the table, nobody who was subscribed is ever told a value, an error or a
    completion again, whatever is called. Those in the table, or on their way into it, are not told
    anything at all, also not that they are unsubscribed. *)
Theorem C66_after : forall A E (prog : behaviour A E) boom ord (P : policy A E) (t : psubject P) us i,
  ps_poison t <> None -> i < sj_next_id (ps_subject t) ->
  let s := ps_subject t in let s1 := ps_subject (pcalls prog boom ord t us) in
  ps_poison (pcalls prog boom ord t us) <> None /\
  (history s1 i = history s i \/ history s1 i = history s i ++ [SU] /\ sj_shut s i = false) /\
  (In i (sj_tbl s) \/ In (MAdd i) (sj_queue s) -> history s1 i = history s i).
Proof. exact @after_all. Qed.
Print Assumptions C66_after.

(** A value over which a subscriber panics is told to those that come before it in the order of that
    iteration, and to nobody after it. That is the last that they are told. *)
Theorem C66_value : forall A E (prog : behaviour A E) boom ord (P : policy A E),
  (forall j h, fst (prog j h) = []) ->
  forall (t : psubject P) a i l1 l2 us, ps_poison t = None -> let s := ps_subject t in
  running s = true -> sj_closed s = false -> sj_queue s = [] ->
  (forall x c er, po_calls P x c er (UNext a) = [KNext a]) ->
  ord (sj_iter s) (sj_tbl s) = l1 ++ i :: l2 -> NoDup (l1 ++ i :: l2) ->
  (forall j, In j (l1 ++ i :: l2) -> In j (sj_tbl s) /\ j < sj_next_id s) ->
  (forall j, In j l1 -> sj_shut s j = false -> boom j (history s j ++ [SN a]) = false) ->
  sj_shut s i = false -> boom i (history s i ++ [SN a]) = true ->
  forall j, In j (l1 ++ i :: l2) ->
  history (ps_subject (pcalls prog boom ord t (UNext a :: us))) j =
    history s j ++ (if existsb (Nat.eqb j) (l1 ++ [i]) && negb (sj_shut s j) then [SN a] else []).
Proof. exact @panic_value. Qed.
Print Assumptions C66_value.

(** A new subscriber that panics over a stored value or the end harms nobody else. *)
Theorem C66_greeting : forall A E (prog : behaviour A E) boom ord (P : policy A E) (t : psubject P),
  honest P -> ps_poison t = None -> let s := ps_subject t in
  running s = true -> sj_queue s = [] ->
  let t1 := pcall prog boom ord t USub in
  ps_poison t1 = None /\ forall j, In j (sj_tbl s) -> j < sj_next_id s ->
  In j (sj_tbl (ps_subject t1)) /\ history (ps_subject t1) j = history s j /\ sj_shut (ps_subject t1) j = sj_shut s j.
Proof. exact @greeting. Qed.
Print Assumptions C66_greeting.

(** The subject still reports whether it is closed, as if its calls had been carried out, and no call
    but a subscription can panic. *)
Theorem C66_closed : forall A E (prog : behaviour A E) boom ord (P : policy A E) (t : psubject P) u,
  honest P -> ps_poison t <> None -> running (ps_subject t) = true ->
  sj_closed (ps_subject (pcall prog boom ord t u)) =
    sj_closed (ps_subject t) || match u with UErr _ | UCmp | UUns => true | _ => false end /\
  (u <> USub -> running (ps_subject (pcall prog boom ord t u)) = true).
Proof. exact @after_closed. Qed.
Print Assumptions C66_closed.

(** A subscriber that was taken out of the table, but not told so, is unsubscribed when its subscription
    is. *)
Theorem C66_off : forall A E (prog : behaviour A E) boom ord (P : policy A E) (t : psubject P) i,
  honest P -> ps_poison t <> None -> running (ps_subject t) = true -> i < sj_next_id (ps_subject t) ->
  sj_shut (ps_subject t) i = false -> stuck P (ps_subject t) i = false ->
  history (ps_subject (pcall prog boom ord t (UOff i))) i = history (ps_subject t) i ++ [SU].
Proof. exact @after_off. Qed.
Print Assumptions C66_off.

(** A new subscriber is told the stored values, and the end if the subject is closed, and then never
    anything again. *)
Theorem C66_new : forall A E (prog : behaviour A E) boom ord,
  (forall n l j, In j (ord n l) -> In j l) ->
  forall (P : policy A E) us us1 r,
  let t := pcalls prog boom ord (pnew P) us in let s := ps_subject t in let i := sj_next_id s in
  (forall h, fst (prog i h) = []) -> (forall h, boom i h = false) ->
  honest P -> ps_poison t <> None -> running s = true ->
  po_calls P (po_keep P (sj_store s) USub) (sj_closed s) (match sj_err s with Some _ => true | None => false end) USub = [KSub r] ->
  history (ps_subject (pcalls prog boom ord t (USub :: us1))) i =
    upto (fun h => snd (prog i h)) [] (map SN r ++
      (if sj_closed s
       then [match sj_err s, sj_cmp s with Some e, _ => SE e | None, true => SC | None, false => SU end]
       else [])).
Proof. exact @late_new. Qed.
Print Assumptions C66_new.

(** The values pushed are kept. *)
Theorem C66_kept : forall A E (prog : behaviour A E) boom ord (P : policy A E),
  (forall x c er a, po_calls P x c er (UNext a) = [KNext a]) -> forall l (t : psubject P),
  ps_poison t <> None -> running (ps_subject t) = true -> sj_closed (ps_subject t) = false ->
  sj_queue (ps_subject (pcalls prog boom ord t (map UNext l))) = sj_queue (ps_subject t) ++ map MNext l.
Proof. exact @kept_values. Qed.
Print Assumptions C66_kept.

(** When the subject and all subscriptions are dropped, every subscriber that is not closed is
    unsubscribed, once. *)
Theorem C66_dropped : forall A E (P : policy A E) (t : psubject P) i,
  history (dropped t) i = history (ps_subject t) i ++
    (if (i <? sj_next_id (ps_subject t)) && negb (sj_shut (ps_subject t) i) then [SU] else []).
Proof. exact @dropped_spec. Qed.
Print Assumptions C66_dropped.

(** Two subscribers of a publish subject; the first panics over 2. The second is told 2 or not,
    depending on the order, and nothing afterwards: not 3, not the completion, and not that it was
    unsubscribed. One that comes late is told of the completion. *)
Example C66_ex :
  let us := [USub; USub; UNext 1; UNext 2; UNext 3; UOff 1; UCmp; USub] in
  let t := pcalls deaf (over 0 2) forwards (pnew plain) us in
  let b := pcalls deaf (over 0 2) backwards (pnew plain) us in
  ps_poison t = Some (Some 0) /\ running (ps_subject t) = true /\ sj_closed (ps_subject t) = true /\
  map (history (ps_subject t)) [0; 1; 2] = [[SN 1; SN 2]; [SN 1]; [SC]] /\
  map (history (ps_subject b)) [0; 1; 2] = [[SN 1; SN 2]; [SN 1; SN 2]; [SC]] /\
  map (history (dropped t)) [0; 1; 2] = [[SN 1; SN 2; SU]; [SN 1; SU]; [SC]] /\
  sj_queue (ps_subject t) = [MNext 3; MOff 1; MCmp] /\
  history (outer_users deaf forwards plain (sj_new plain) us) 1 = [SN 1; SN 2; SN 3; SU].
Proof. vm_compute. repeat split. Qed.

(** The same without anyone panicking is [C66_before]; its premise holds here. *)
Example C66_before_ex :
  running (fold_left (pouter_user deaf (over 0 2) forwards plain) [USub; USub; UNext 1; UNext 3; UCmp] (sj_new plain)) = true /\
  running (fold_left (pouter_user deaf (over 0 2) forwards plain) [USub; USub; UNext 1; UNext 2; UCmp] (sj_new plain)) = false.
Proof. vm_compute. auto. Qed.

(** The second of three panics while the subject is unsubscribed: the table was emptied before, so
    the third is unsubscribed only when its subscription is. *)
Example C66_unsubscribing_ex :
  let boom := fun i h => Nat.eqb i 1 && match last h SC with SU => true | _ => false end in
  let t := pcalls deaf boom forwards (pnew plain) [USub; USub; USub; UNext 1; UUns] in
  sj_tbl (ps_subject t) = [] /\ sj_shut (ps_subject t) 2 = false /\ stuck plain (ps_subject t) 2 = false /\
  map (history (ps_subject t)) [0; 1; 2] = [[SN 1; SU]; [SN 1; SU]; [SN 1]] /\
  history (ps_subject (pcalls deaf boom forwards t [UNext 2; UOff 2])) 2 = [SN 1; SU].
Proof. vm_compute. repeat split. Qed.

(** A new subscriber that panics over a stored value harms nobody else. *)
Example C66_greeting_ex :
  let t := pcalls deaf (over 1 5) forwards (pnew (behavior 5)) [USub; USub; UNext 6; UCmp] in
  ps_poison t = None /\ map (history (ps_subject t)) [0; 1] = [[SN 5; SN 6; SC]; [SN 5; SU]].
Proof. vm_compute. auto. Qed.

(** A behavior subject goes on giving its latest value to new subscribers. *)
Example C66_behavior_ex :
  let t := pcalls deaf (over 0 2) forwards (pnew (behavior 1)) [USub; UNext 2; UNext 3; USub; UNext 4; UErr true; USub] in
  ps_poison t = Some (Some 0) /\
  map (history (ps_subject t)) [0; 1; 2] = [[SN 1; SN 2]; [SN 3]; [SE true]].
Proof. vm_compute. auto. Qed.

(** The premises of [C66_value]. *)
Example C66_value_ex :
  let t := pcalls deaf (over 1 7) backwards (pnew (replay 2)) [USub; USub; USub; UNext 1] in
  ps_poison t = None /\ running (ps_subject t) = true /\ sj_closed (ps_subject t) = false /\ sj_queue (ps_subject t) = [] /\
  backwards (sj_iter (ps_subject t)) (sj_tbl (ps_subject t)) = [2] ++ 1 :: [0] /\
  map (history (ps_subject (pcalls deaf (over 1 7) backwards t [UNext 7; UCmp]))) [0; 1; 2] = [[SN 1]; [SN 1; SN 7]; [SN 1; SN 7]].
Proof. vm_compute. repeat split. Qed.
