(** Property C77: the subject that the tests of operators use as their source. [notes cs] are the
    notifications among the calls [cs]; [heeds] and [orderly] are those of OpsQuiet.v: nothing is told to a
    destination that says it is closed; values, then an end, then at most unsubscriptions. [s_subj] and
    [s_user]: the subject and the subscription still have their clone of the shared subscriber.
    [share i n true b] is what the history [b] does to the [i]-th of [n] subscriptions and [alone] is the
    one subscription with that and nothing else. *)
From Verif Require Import Base SubscrModel OpsModel OpsQuiet TSubjModel TSubjProofs TSubjCalls.
Set Implicit Arguments.

(** Whatever a test does with the subject and with its subscriptions, each destination is called as by a
    source that keeps the contract: it is told nothing, not even that it is unsubscribed, when it says that
    it is closed, and it is dropped once, as the last thing, when both clones are gone, and then it was closed or
    has just been unsubscribed. The subscription is closed exactly if the destination is or was told
    something other than a value (for destinations that do not open again). *)
Theorem C77_calls : forall X I E (D : subscriber X I E) a d b, let w := wexec a (new_subject D) in w_alive w = true ->
  exists s l cs,
  nth_error (w_sessions (wexec (a ++ WSubscribe D d :: b) (new_subject D))) (length (w_sessions w)) = Some (s, l) /\
  run_from D d cs = (s_dst s, l) /\
  (forall q n r, cs = q ++ CN n :: r -> closed D (fst (run_from D d q)) = false) /\ heeds D d cs /\ orderly (notes cs) /\
  (if s_subj s || s_user s then filter is_drop cs = []
   else exists q, cs = q ++ [CDrop] /\ filter is_drop q = [] /\ (closed D (fst (run_from D d q)) = true \/ exists k, q = k ++ [CN Uns])) /\
  ((forall x c, closed D x = true -> closed D (fst (step D x c)) = true) -> s_subj s || s_user s = true ->
   is_closed s = closed D (s_dst s) || existsb (fun m => negb (is_next m)) (notes cs)).
Proof. exact @made_calls. Qed.
Print Assumptions C77_calls.
Example C77_calls_ex :
  let D := sink nat nat in let d := mkSData false [] in
  map snd (w_sessions (wexec [WSubscribe D d; WAdd D 0 [7]; WCall D (Nxt 1); WCall D Cmp; WCall D (Nxt 2); WDropSub D 0; WAdd D 0 [8]; WEnd D]
                             (new_subject D))) = [[EObs (NNext 1); EObs NComplete; ETd 7]].
Proof. vm_compute. reflexivity. Qed.

(** The subject has its clone until something else subscribes or the subject is gone, and the subscription
    has its own until it is dropped. *)
Theorem C77_clones : forall X I E (D : subscriber X I E) a d b, let w := wexec a (new_subject D) in w_alive w = true ->
  exists s l,
  nth_error (w_sessions (wexec (a ++ WSubscribe D d :: b) (new_subject D))) (length (w_sessions w)) = Some (s, l) /\
  s_subj s = negb (existsb (fun o => match o with WSubscribe _ _ | WEnd _ => true | _ => false end) b) /\
  s_user s = negb (existsb (fun o => match o with WDropSub _ j => length (w_sessions w) =? j | _ => false end) b).
Proof. exact @made_clones. Qed.
Print Assumptions C77_clones.
Example C77_clones_ex :
  let D := sink nat nat in let d := mkSData false [] in
  map (fun e => (s_subj (fst e), s_user (fst e)))
      (w_sessions (wexec [WSubscribe D d; WSubscribe D d; WDropSub D 1; WCall D Cmp; WSubscribe D d; WCall D Cmp] (new_subject D))) =
  [(false, true); (false, false); (true, true)].
Proof. vm_compute. reflexivity. Qed.

(** The subject answers [is_closed] for the latest subscription. *)
Theorem C77_is_closed : forall X I E (D : subscriber X I E) ops, let w := wexec ops (new_subject D) in w_alive w = true ->
  forall s l, nth_error (w_sessions w) (length (w_sessions w) - 1) = Some (s, l) -> snd (wdo (WIsClosed D) w) = Says (is_closed s).
Proof. exact @answers_latest. Qed.
Print Assumptions C77_is_closed.
Example C77_is_closed_ex :
  let D := sink nat nat in let d := mkSData false [] in
  snd (wdo (WIsClosed D) (wexec [WSubscribe D d; WCall D Cmp] (new_subject D))) = Says true /\
  snd (wdo (WIsClosed D) (wexec [WSubscribe D d; WCall D Cmp; WSubscribe D d] (new_subject D))) = Says false.
Proof. vm_compute. auto. Qed.

(** Subscriptions do not influence each other, except that a later one takes the subject away. *)
Theorem C77_alone : forall X I E (D : subscriber X I E) a d b, let w := wexec a (new_subject D) in w_alive w = true ->
  nth_error (w_sessions (wexec (a ++ WSubscribe D d :: b) (new_subject D))) (length (w_sessions w)) =
  Some (alone (share (length (w_sessions w)) (S (length (w_sessions w))) true b) (mkSession D false false d true true, [])).
Proof. exact @made_alone. Qed.
Print Assumptions C77_alone.

(** A subscription that is not the latest is told nothing any more, also not that it is unsubscribed,
    whatever is done with the subject (also if it goes away) and with the others. *)
Theorem C77_passed_over : forall X I E (D : subscriber X I E) (w : world D) i e ops,
  nth_error (w_sessions w) i = Some e -> S i < length (w_sessions w) ->
  Forall (fun o => match o with WUnsub _ j | WAdd _ j _ | WDropSub _ j => j <> i | _ => True end) ops ->
  nth_error (w_sessions (wexec ops w)) i = Some e.
Proof. exact @passed_over. Qed.
Print Assumptions C77_passed_over.
Example C77_passed_over_ex :
  let D := sink nat nat in let d := mkSData false [] in
  let w := wexec [WSubscribe D d; WAdd D 0 [7]; WCall D (Nxt 1); WSubscribe D d; WCall D (Nxt 2); WCall D Uns; WEnd D] (new_subject D) in
  map snd (w_sessions w) = [[EObs (NNext 1)]; [EObs (NNext 2)]] /\
  map (fun e => is_closed (fst e)) (w_sessions w) = [false; true] /\
  map snd (w_sessions (wexec [WDropSub D 0] w)) = [[EObs (NNext 1); ETd 7]; [EObs (NNext 2)]].
Proof. vm_compute. auto. Qed.

(** It panics exactly if nothing has ever subscribed; an ended or unsubscribed subscription is enough,
    although the comment at test_subject.rs:18 asks for an active one. *)
Theorem C77_panics : forall X I E (D : subscriber X I E) ops o, let w := wexec ops (new_subject D) in w_alive w = true ->
  (snd (wdo o w) = Panics <->
   existsb (fun p => match p with WSubscribe _ _ => true | _ => false end) ops = false /\
   match o with WCall _ _ | WIsClosed _ => True | _ => False end).
Proof. exact @panics_iff. Qed.
Print Assumptions C77_panics.
Example C77_panics_ex :
  let D := sink nat nat in let d := mkSData false [] in
  snd (wdo (WCall D (Nxt 1)) (new_subject D)) = Panics /\ snd (wdo (WIsClosed D) (new_subject D)) = Panics /\
  let w := wexec [WSubscribe D d; WDropSub D 0] (new_subject D) in
  snd (wdo (WCall D (Nxt 1)) w) = Done /\ snd (wdo (WIsClosed D) w) = Says true.
Proof. vm_compute. auto. Qed.
