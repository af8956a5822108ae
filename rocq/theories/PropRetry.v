(** Property C38: retry.

    [sync j] are the calls the source makes while it is being subscribed to for the j-th time,
    [live j] says whether its subscription is then open. A history [h] is what happens later: calls
    of the source, [AIn], and the user's unsubscription, [AUser]. [r_tr (run … h)] is the list of
    everything that happened since the subscription to the result. *)
From Verif Require Import Base SubscrModel LifeModel CombModel CatchSpec RetryModel RetrySpec RetryProofs RetrySync.
Set Implicit Arguments.

(** A source that is done when it has been subscribed to is subscribed to until it completes or
    [max + 1] attempts have failed. The destination is told all values of all attempts, then the
    completion or the last error. *)
Theorem C38_sync : forall A E (down : list (ncall A E) -> bool) vs ends tail max h,
  outs (r_tr (run down (sync vs ends tail) (fun _ => false) max h)) = upto down [] (retried vs ends max 0).
Proof. exact @retry_sync. Qed.
Print Assumptions C38_sync.

(** Attempts are made one after the other, each after the failure of all before. *)
Theorem C38_one_by_one : forall A E (down : list (ncall A E) -> bool) sync live max h, always (@numbered A E) (r_tr (run down sync live max h)).
Proof. exact @retry_numbered. Qed.
Print Assumptions C38_one_by_one.

(** At most [max + 1] of them, if none fails after it was subscribed to. *)
Theorem C38_attempts : forall A E (down : list (ncall A E) -> bool) sync live max h, forallb early h = true -> attempts (r_tr (run down sync live max h)) <= S max.
Proof. exact @retry_early. Qed.
Print Assumptions C38_attempts.

(** One more, otherwise. *)
Theorem C38_attempts_all : forall A E (down : list (ncall A E) -> bool) sync live max h, attempts (r_tr (run down sync live max h)) <= S (S max).
Proof. exact @retry_attempts. Qed.
Print Assumptions C38_attempts_all.

(** Values and completion of every attempt are passed on at once. *)
Theorem C38_passes_on : forall A E (down : list (ncall A E) -> bool) sync live max h, paid down (r_tr (run down sync live max h)).
Proof. exact @retry_paid. Qed.
Print Assumptions C38_passes_on.

(** The destination is told nothing else but an error when [max + 1] attempts have failed, and is
    unsubscribed only by the user, by the source, or in the last attempt; nothing after its end. *)
Theorem C38_relays : forall A E (down : list (ncall A E) -> bool) sync live max h, always (relays down max) (r_tr (run down sync live max h)).
Proof. exact @retry_relays. Qed.
Print Assumptions C38_relays.

(** A failure is followed by another attempt or the end, and [max + 1] failures by the end. *)
Theorem C38_goes_on : forall A E (down : list (ncall A E) -> bool) sync live max h, goes_on down (r_tr (run down sync live max h)).
Proof. exact @retry_goes_on. Qed.
Print Assumptions C38_goes_on.
Theorem C38_gives_up : forall A E (down : list (ncall A E) -> bool) sync live max h, gives_up down max (r_tr (run down sync live max h)).
Proof. exact @retry_gives_up. Qed.
Print Assumptions C38_gives_up.

(** After the user has unsubscribed, there are no calls and no attempts. *)
Theorem C38_obeys : forall A E (down : list (ncall A E) -> bool) sync live max h, always (@obeys A E) (r_tr (run down sync live max h)).
Proof. exact @retry_obeys. Qed.
Print Assumptions C38_obeys.

(** An attempt is unsubscribed only if it has failed or everything is over, and then none is left. *)
Theorem C38_ends : forall A E (down : list (ncall A E) -> bool) sync live max h, always (ends down) (r_tr (run down sync live max h)).
Proof. exact @retry_ends. Qed.
Print Assumptions C38_ends.
Theorem C38_released : forall A E (down : list (ncall A E) -> bool) sync live max h,
  ~ open down (r_tr (run down sync live max h)) \/ In TUser (r_tr (run down sync live max h)) -> forall j, r_open (run down sync live max h) j = false.
Proof. exact @retry_released. Qed.
Print Assumptions C38_released.

Definition never (l : list (ncall nat nat)) : bool := false.
Definition quiet (j : nat) : list (ncall nat nat) := [].
Definition all (b : bool) (j : nat) : bool := b.
Definition fails (k j : nat) : option nat := if j <? k then Some (10 + j) else None.

Example C38_example_sync : outs (r_tr (run never (sync (fun j => [j; j]) (fails 2) (fun _ => 1)) (all false) 2 [])) = [Nxt 0; Nxt 0; Nxt 1; Nxt 1; Nxt 2; Nxt 2; Cmp].
Proof. vm_compute. reflexivity. Qed.
Example C38_example_sync_fails : outs (r_tr (run never (sync (fun j => [j]) (fails 5) (fun _ => 1)) (all false) 2 [])) = [Nxt 0; Nxt 1; Nxt 2; Err 12].
Proof. vm_compute. reflexivity. Qed.
Example C38_example_later : r_tr (run never quiet (all true) 1 [AIn 0 (Nxt 1); AIn 0 (Err 7); AIn 1 (Nxt 2); AIn 0 (Nxt 3); AIn 1 Cmp]) =
  [TSub 0; TIn 0 (Nxt 1); TOut (Nxt 1); TIn 0 (Err 7); TEnd 0; TSub 1; TIn 1 (Nxt 2); TOut (Nxt 2); TIn 1 Cmp; TOut Cmp; TEnd 1].
Proof. vm_compute. reflexivity. Qed.
Example C38_example_user : r_tr (run never quiet (all true) 1 [AIn 0 (Err 7); AIn 1 (Nxt 2); AUser; AIn 1 (Nxt 3); AUser]) =
  [TSub 0; TIn 0 (Err 7); TEnd 0; TSub 1; TIn 1 (Nxt 2); TOut (Nxt 2); TUser; TEnd 1; TOut Uns].
Proof. vm_compute. reflexivity. Qed.
Example C38_example_given_up : outs (r_tr (run never (fun j => [Nxt j]) (all true) 1 [AIn 0 (Err 7); AIn 1 (Err 8)])) = [Nxt 0; Nxt 1; Nxt 2; Err 8].
Proof. vm_compute. reflexivity. Qed.

(** False: at most [max + 1] attempts. The loop of the subscriber subscribes once more. *)
Theorem C38_attempts_refuted : exists max (h : list (act nat nat)), S max < attempts (r_tr (run never quiet (all true) max h)).
Proof. exists 1, [AIn 0 (Err 7); AIn 1 (Err 8)]. vm_compute. lia. Qed.
Print Assumptions C38_attempts_refuted.

(** False: the last attempt is left alone. If it is still running when it has been subscribed to,
    it is unsubscribed: with [max = 0] no asynchronous source delivers anything. *)
Theorem C38_alone_refuted : exists (h : list (act nat nat)), r_tr (run never quiet (all true) 0 h) = [TSub 0; TOut Uns; TEnd 0].
Proof. exists [AIn 0 (Nxt 1)]. vm_compute. reflexivity. Qed.
Print Assumptions C38_alone_refuted.
Theorem C38_alone_later_refuted : exists (h : list (act nat nat)), r_tr (run never (fun j => if j =? 0 then [Err 7] else []) (all true) 1 h) =
  [TSub 0; TIn 0 (Err 7); TEnd 0; TSub 1; TOut Uns; TEnd 1].
Proof. exists []. vm_compute. reflexivity. Qed.
Print Assumptions C38_alone_later_refuted.

(** False: the error is the last one. It is that of the attempt that failed late, not those of the
    attempts made after it. *)
Theorem C38_error_refuted : exists (h : list (act nat nat)), r_tr (run never (fun j => if j =? 0 then [] else [Err (10 + j)]) (fun j => j =? 0) 1 h) =
  [TSub 0; TIn 0 (Err 7); TEnd 0; TSub 1; TIn 1 (Err 11); TSub 2; TIn 2 (Err 12); TOut (Err 7)].
Proof. exists [AIn 0 (Err 7)]. vm_compute. reflexivity. Qed.
Print Assumptions C38_error_refuted.
