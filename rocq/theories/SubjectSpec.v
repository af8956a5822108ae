(** What subscriber [i] of a publish subject should be told, as a function of
    the calls made on the subject in the order they were made. Nothing else matters:
    not who made the calls, not other subscribers, not any iteration order. *)
From Verif Require Import Base SubjectModel.
Set Implicit Arguments.

Inductive ending (E : Type) : Type :=
| EndErr (e : E)
| EndCmp
| EndUns.
Arguments EndErr {E} e.
Arguments EndCmp {E}.
Arguments EndUns {E}.

Section View.
Context {A E : Type}.
(** when does the subscriber close itself *)
Context (quits : list (sev A E) -> bool).

Record view : Type := mkView {
  vw_subs : nat;                  (* subscribe calls so far *)
  vw_end : option (ending E);     (* how the subject was finished *)
  vw_live : bool;                 (* our subscriber is subscribed and open *)
  vw_told : list (sev A E)
}.

Definition view0 : view := mkView 0 None false [].

Definition last_words (x : ending E) : sev A E :=
  match x with EndErr e => SE e | EndCmp => SC | EndUns => SU end.

Definition finish (v : view) (x : ending E) : view :=
  match vw_end v with
  | Some _ => v
  | None => mkView (vw_subs v) (Some x) false
              (if vw_live v then vw_told v ++ [last_words x] else vw_told v)
  end.

(** The stored values, up to the one on which the subscriber closes itself. *)
Definition given (told : list (sev A E)) (r : list A) : list (sev A E) * bool :=
  fold_left (fun (p : list (sev A E) * bool) a => if snd p then (fst p ++ [SN a], negb (quits (fst p ++ [SN a]))) else p)
    r (told, true).

Definition view_step (i : nat) (v : view) (c : cmd A E) : view :=
  match c with
  | KNext a =>
      if vw_live v
      then mkView (vw_subs v) (vw_end v) (negb (quits (vw_told v ++ [SN a]))) (vw_told v ++ [SN a])
      else v
  | KErr e => finish v (EndErr e)
  | KCmp => finish v EndCmp
  | KUns => finish v EndUns
  | KSub r =>
      if Nat.eqb (vw_subs v) i
      then let g := given (vw_told v) r in
           match vw_end v with
           | None => mkView (S (vw_subs v)) None (snd g) (fst g)
           | Some x => mkView (S (vw_subs v)) (Some x) false
                         (if snd g then fst g ++ [last_words x] else fst g)
           end
      else mkView (S (vw_subs v)) (vw_end v) (vw_live v) (vw_told v)
  | KOff j =>
      if Nat.eqb j i && vw_live v
      then mkView (vw_subs v) (vw_end v) false (vw_told v ++ [SU])
      else v
  end.

Definition view_of (i : nat) (cs : list (cmd A E)) : view := fold_left (view_step i) cs view0.

End View.
Arguments view A E : clear implicits.

(** How the calls of users become calls on the publish subject. *)
Section Expand.
Context {A E : Type} (P : policy A E).

Definition end_of (c : cmd A E) : option (ending E) :=
  match c with
  | KErr e => Some (EndErr e) | KCmp => Some EndCmp | KUns => Some EndUns | _ => None
  end.

(** how the first finishing call finished the subject *)
Definition first_end (cs : list (cmd A E)) : option (ending E) :=
  fold_left (fun x c => match x with Some _ => x | None => end_of c end) cs None.

Definition finished (cs : list (cmd A E)) : bool :=
  match first_end cs with Some _ => true | None => false end.
Definition failed (cs : list (cmd A E)) : bool :=
  match first_end cs with Some (EndErr _) => true | _ => false end.

Definition expand_step (p : po_store P * list (cmd A E)) (u : ucmd A E) :
  po_store P * list (cmd A E) :=
  let x := po_keep P (fst p) u in
  (x, snd p ++ po_calls P x (finished (snd p)) (failed (snd p)) u).

Definition expand (us : list (ucmd A E)) : po_store P * list (cmd A E) :=
  fold_left expand_step us (po_init P, []).

End Expand.

(** ** What one subscriber is told, in terms of the calls of the users *)
Section Told.
Context {A E : Type}.

(** after it subscribed *)
Fixpoint told_after (i : nat) (us : list (ucmd A E)) : list (sev A E) :=
  match us with
  | [] => []
  | UNext a :: us' => SN a :: told_after i us'
  | UErr e :: _ => [SE e]
  | UCmp :: _ => [SC]
  | UUns :: _ => [SU]
  | UOff j :: us' => if Nat.eqb j i then [SU] else told_after i us'
  | USub :: us' => told_after i us'
  end.

(** how the subject was finished, if it was *)
Fixpoint finish_of (us : list (ucmd A E)) : option (sev A E) :=
  match us with
  | [] => None
  | UErr e :: _ => Some (SE e)
  | UCmp :: _ => Some SC
  | UUns :: _ => Some SU
  | _ :: us' => finish_of us'
  end.

(** A subscriber who subscribed after the calls [before] and before the calls [after]. *)
Definition told_late (i : nat) (before after : list (ucmd A E)) : list (sev A E) :=
  match finish_of before with
  | Some x => [x]
  | None => told_after i after
  end.

Fixpoint subs_of (us : list (ucmd A E)) : nat :=
  match us with [] => 0 | USub :: us' => S (subs_of us') | _ :: us' => subs_of us' end.

(** all values pushed *)
Fixpoint pushed (us : list (ucmd A E)) : list A :=
  match us with [] => [] | UNext a :: us' => a :: pushed us' | _ :: us' => pushed us' end.

(** A list of events up to the one on which the subscriber closes itself; [h] is what it
    was told before. *)
Fixpoint upto (quits : list (sev A E) -> bool) (h l : list (sev A E)) : list (sev A E) :=
  match l with
  | [] => []
  | SN a :: l' => SN a :: (if quits (h ++ [SN a]) then [] else upto quits (h ++ [SN a]) l')
  | e :: _ => [e]
  end.

(** for an async subject: the values pushed, combined *)
Definition reduced (reduce : A -> A -> A) (vs : list A) : list A :=
  match vs with [] => [] | a :: vs' => [fold_left reduce vs' a] end.

Fixpoint told_async (reduce : A -> A -> A) (i : nat) (vs : list A) (us : list (ucmd A E)) :
  list (sev A E) :=
  match us with
  | [] => []
  | UNext a :: us' => told_async reduce i (vs ++ [a]) us'
  | UErr e :: _ => [SE e]
  | UCmp :: _ => map SN (reduced reduce vs) ++ [SC]
  | UUns :: _ => [SU]
  | UOff j :: us' => if Nat.eqb j i then [SU] else told_async reduce i vs us'
  | USub :: us' => told_async reduce i vs us'
  end.

(** An async subject completes in two steps: it pushes the value and then completes. Its subscribers
    can make calls between the two, when they are given the value. [ADone] is the second step. *)
Inductive acall : Type := AUser (u : ucmd A E) | ADone.
Definition users (m : list acall) : list (ucmd A E) := flat_map (fun x => match x with AUser u => [u] | ADone => [] end) m.
(** Each completion has a second step: the number of those still to come, given how many there were. *)
Fixpoint awaited (n : nat) (m : list acall) : option nat :=
  match m with
  | [] => Some n
  | AUser UCmp :: m' => awaited (S n) m'
  | ADone :: m' => match n with 0 => None | S n' => awaited n' m' end
  | _ :: m' => awaited n m'
  end.
Fixpoint finish_in (m : list acall) : option (sev A E) :=
  match m with
  | [] => None
  | AUser (UErr e) :: _ => Some (SE e)
  | AUser UUns :: _ => Some SU
  | ADone :: _ => Some SC
  | _ :: m' => finish_in m'
  end.
Fixpoint told_in (reduce : A -> A -> A) (i : nat) (vs : list A) (m : list acall) : list (sev A E) :=
  match m with
  | [] => []
  | AUser (UNext a) :: m' => told_in reduce i (vs ++ [a]) m'
  | AUser (UErr e) :: _ => [SE e]
  | AUser UCmp :: m' => map SN (reduced reduce vs) ++ told_in reduce i vs m'
  | ADone :: _ => [SC]
  | AUser UUns :: _ => [SU]
  | AUser (UOff j) :: m' => if Nat.eqb j i then [SU] else told_in reduce i vs m'
  | AUser USub :: m' => told_in reduce i vs m'
  end.

Definition errored (us : list (ucmd A E)) : bool :=
  match finish_of us with Some (SE _) => true | _ => false end.

(** Subscribers of which no part, or at least not the teardown, calls the subject. *)
Definition quiet (prog : nat -> list (sev A E) -> list (ucmd A E) * bool) : Prop :=
  forall i h, fst (prog i h) = [].
Definition calm (prog : nat -> list (sev A E) -> list (ucmd A E) * bool) : Prop :=
  forall i h, fst (prog i (h ++ [SU])) = [].

End Told.
Arguments acall A E : clear implicits.
Arguments ADone {A E}.
