(** What a re-entrant cascade should look like, independent of the queue
    mechanism: one unbounded first-in first-out work list. *)
From Verif Require Import Base SubscrModel SharedModel.
Set Implicit Arguments.

(** [cascade D G d todo d' l]: starting from destination state [d] with the calls
    [todo] outstanding, each tagged with its generation, the destination receives
    exactly the calls [l] and ends in [d']. A call made while processing a call of
    generation [g] has generation [S g] and goes to the end of the line. The first
    closing call ends everything. No generation exceeds [G]. *)
Inductive cascade {A E} (D : dest A E) (G : nat)
  : dst D -> list (nat * ncall A E) -> dst D -> list (ncall A E) -> Prop :=
| cascade_done : forall d, cascade D G d [] d []
| cascade_close : forall d g n todo d' cs,
    closing n = true ->
    react D d n = (d', cs) ->
    cs = [] \/ g < G ->
    cascade D G d ((g, n) :: todo) d' [n]
| cascade_next : forall d g n todo d1 cs d' l,
    closing n = false ->
    react D d n = (d1, cs) ->
    cs = [] \/ g < G ->
    cascade D G d1 (todo ++ map (pair (S g)) cs) d' l ->
    cascade D G d ((g, n) :: todo) d' (n :: l).

(** The values among the calls a destination received. *)
Fixpoint nexts {A E} (l : list (ncall A E)) : list A :=
  match l with
  | [] => []
  | Nxt a :: l' => a :: nexts l'
  | _ :: l' => nexts l'
  end.

(** A well-formed log: at most one closing call, except that an unsubscribe may
    still follow a terminal notification. *)
Fixpoint closes_once {A E} (l : list (ncall A E)) : Prop :=
  match l with
  | [] => True
  | Nxt _ :: l' => closes_once l'
  | Uns :: l' => l' = []
  | _ :: l' => l' = [] \/ l' = [Uns]
  end.

(** Values of one thread, tagged. *)
Definition of_thread {V} (t : nat) (l : list (nat * V)) : list (nat * V) :=
  filter (fun p => Nat.eqb (fst p) t) l.
