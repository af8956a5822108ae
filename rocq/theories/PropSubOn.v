(** Property C59: subscribe_on, on a scheduler with arbitrary other tasks. See PropTime.v for
    [syss], [destination] and [others]. [src]: what the source says while it is being
    subscribed to; what it says later are calls from outside. The record has [XSub] twice: the
    subscription to the result of subscribe_on, and the one to the source. *)
From Verif Require Import Base SubscrModel SchedModel TimeModel TimeSpec SubOnModel SubOnSpec SubOn PropTime.
Set Implicit Arguments.

(** The source is subscribed to at most once, in a tick, not before its time, only if the
    destination is open, and by the end of the first tick in which it is due; the
    destination is told what the source just said, and all of it at once; what the source
    says while it is being subscribed to is said before anything else happens. *)
Theorem C59_subscribe_on : forall A E X d src (down : destination A E X) (user : others A A E X) fuel depth h m,
  syss (subscribe_on X d src) down user fuel (start (subscribe_on X d src) depth) h = Fine m ->
  let tr := w_tr (m_world m) in
  always (subscribed_on down d) tr /\ answered down (@passed_on A E) tr /\
  forall p s, tr = p ++ XSub :: s -> since p <> None ->
  exists s1 s2, s = s1 ++ s2 /\ said s1 = to_end src /\ Forall (@quiet A E) s1.
Proof. exact subscribe_on_ok. Qed.
Print Assumptions C59_subscribe_on.

(** So the destination, while open, was told exactly what the source said since it was
    subscribed to. *)
Theorem C59_mirrors : forall A E X d (down : destination A E X) src (user : others A A E X) fuel depth h m,
  syss (subscribe_on X d src) down user fuel (start (subscribe_on X d src) depth) h = Fine m ->
  open down (w_tr (m_world m)) -> outs (w_tr (m_world m)) = heard (w_tr (m_world m)).
Proof. exact subscribe_on_mirrors. Qed.
Print Assumptions C59_mirrors.

(** Once the destination is closed, for example because it was unsubscribed, no subscription
    to the source is made any more. *)
Theorem C59_never : forall A E X d (down : destination A E X) src (user : others A A E X) fuel depth h m p s,
  syss (subscribe_on X d src) down user fuel (start (subscribe_on X d src) depth) h = Fine m ->
  w_tr (m_world m) = p ++ s -> since p <> None -> ~ open down p -> subs (p ++ s) = subs p.
Proof. exact subscribe_on_never. Qed.
Print Assumptions C59_never.

Definition of_two : list (ncall nat nat) := [Nxt 1; Nxt 2].

(** Subscribed at time 0 with a delay of 3: what is said before is not heard; the source is
    subscribed to in the tick to 4. *)
Example C59_example :
  let T := subscribe_on nat 3 of_two in
  trace T user0 [SDo [CSub; n 7]; STick 2; STick 2; SDo [n 3; CUp Cmp]; STick 1] =
    [XSub; XUp (Nxt 7); XTick 2; XEnd; XTick 4; XSub; XUp (Nxt 1); XOut (Nxt 1); XUp (Nxt 2); XOut (Nxt 2); XEnd;
     XUp (Nxt 3); XOut (Nxt 3); XUp Cmp; XOut Cmp; XTick 5; XEnd] /\
  trace T user0 [SDo [CSub]; STick 2; SDo [CUp Uns]; STick 2; STick 3] =
    [XSub; XTick 2; XEnd; XUp Uns; XOut Uns; XTick 4; XEnd; XTick 7; XEnd] /\
  trace (subscribe_on nat 0 [Nxt 1; Cmp; Nxt 2]) user0 [SDo [CSub]; STick 0; SDo [n 3]] =
    [XSub; XTick 0; XSub; XUp (Nxt 1); XOut (Nxt 1); XUp Cmp; XOut Cmp; XEnd].
Proof. vm_compute. repeat split. Qed.
