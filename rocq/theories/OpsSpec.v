(** List-level meaning of every operator, written independently of the
    operator subscribers of [OpsModel]: a function from the history of the source
    (its values and how it ended) to what the observer is to see. *)
From Verif Require Import Base SubscrModel OpsModel.
Set Implicit Arguments.

(** The calls a source with history [t] makes. *)
Definition fin_calls {A E} (f : fin E) : list (ncall A E) :=
  match f with FOpen => [] | FErr e => [Err e] | FDone => [Cmp] | FUnsub => [Uns] end.
Definition ncs {A E} (t : trace A E) : list (ncall A E) := map Nxt (fst t) ++ fin_calls (snd t).
Definition calls {A E} (t : trace A E) : list (call A E) := map (fun n => CN n) (ncs t).

(** The history made of a list of signals: everything up to the first terminal. *)
Fixpoint cut {A E} (ns : list (ncall A E)) : trace A E :=
  match ns with
  | [] => ([], FOpen)
  | Nxt a :: r => (a :: fst (cut r), snd (cut r))
  | Err e :: _ => ([], FErr e)
  | Cmp :: _ => ([], FDone)
  | Uns :: _ => ([], FUnsub)
  end.

(** Change the error type of an ending; [d] replaces a completion. *)
Definition fin_map {E F} (g : E -> F) (f : fin E) : fin F :=
  match f with FOpen => FOpen | FErr e => FErr (g e) | FDone => FDone | FUnsub => FUnsub end.

Definition enumerated {A} (l : list A) : list (A * nat) := combine l (seq 0 (length l)).

Fixpoint index_of {A} (p : A -> bool) (l : list A) : option nat :=
  match l with
  | [] => None
  | a :: r => if p a then Some 0 else option_map S (index_of p r)
  end.

Fixpoint somes {A} (l : list (option A)) : list A :=
  match l with [] => [] | Some a :: r => a :: somes r | None :: r => somes r end.

Definition absurd_list {B} (l : list Empty_set) : list B := map (fun x : Empty_set => match x with end) l.
Definition absurd_fin {F} (f : fin Empty_set) : fin F := fin_map (fun x : Empty_set => match x with end) f.

(** One value if the source completes, nothing otherwise. *)
Definition at_end {B E} (b : B) (f : fin E) : trace B E :=
  match f with FDone => ([b], FDone) | _ => ([], f) end.

Definition spec_first {A E} (t : trace A E) : trace A (first_error E) :=
  match fst t with
  | a :: _ => ([a], FDone)
  | [] => ([], match snd t with
               | FDone => FErr FirstNoNext
               | f => fin_map FirstUpstream f
               end)
  end.

Definition spec_element_at {A E} (i : nat) (def : option A) (t : trace A E) : trace A (element_at_error E) :=
  match nth_error (fst t) i, snd t, def with
  | Some a, _, _ => ([a], FDone)
  | None, FDone, Some d => ([d], FDone)
  | None, FDone, None => ([], FErr (IndexOutOfRange i (length (fst t))))
  | None, f, _ => ([], fin_map ElementAtUpstream f)
  end.

Definition find_result {A E B} (l : list A) (f : fin E) (r : option B) : trace B (find_error E) :=
  match r with
  | Some b => ([b], FDone)
  | None => ([], match f with
                 | FDone => FErr (match l with [] => FindNoNext | _ => FindNoMatch end)
                 | _ => fin_map FindUpstream f
                 end)
  end.

Definition full_chunks {A} (n : nat) (l : list A) : list (list A) :=
  map (fun j => firstn n (skipn (j * n) l)) (seq 0 (length l / n)).
Definition chunk_rest {A} (n : nat) (l : list A) : list A := skipn (length l / n * n) l.

(** Nexts of a list of notifications up to the first terminal one, which decides the end. *)
Fixpoint spec_demat {A E} (l : list (notif A E)) (f : fin E) : trace A E :=
  match l with
  | [] => ([], f)
  | NNext a :: r => (a :: fst (spec_demat r f), snd (spec_demat r f))
  | NError e :: _ => ([], FErr e)
  | NComplete :: _ => ([], FDone)
  end.

Fixpoint spec_lift_result {A E} (l : list (A + E)) (f : fin E) : trace A E :=
  match l with
  | [] => ([], f)
  | inl a :: r => (a :: fst (spec_lift_result r f), snd (spec_lift_result r f))
  | inr e :: _ => ([], FErr e)
  end.

Fixpoint spec {I E O F} (o : oper I E O F) : trace I E -> trace O F :=
  match o in oper I E O F return trace I E -> trace O F with
  | OMap _ f => fun t => (map f (fst t), snd t)
  | OFilter _ p => fun t => (map fst (filter (fun x => p (fst x) (snd x)) (enumerated (fst t))), snd t)
  | OSkip _ _ n => fun t => (skipn n (fst t), snd t)
  | OTake _ _ n => fun t => if n <=? length (fst t) then (firstn n (fst t), FDone) else t
  | OFirst _ _ => spec_first
  | OElementAt _ i d => spec_element_at i d
  | OFind _ p => fun t => find_result (fst t) (snd t) (find p (fst t))
  | OFindIndex _ p => fun t => find_result (fst t) (snd t) (index_of p (fst t))
  | OIsEmpty _ _ => fun t => match fst t with [] => at_end true (snd t) | _ => ([false], FDone) end
  | OScan _ f s => fun t => (map (fun k => fold_left f (firstn k (fst t)) s) (seq 1 (length (fst t))), snd t)
  | OReduce _ f s => fun t => at_end (fold_left f (fst t) s) (snd t)
  | OCount _ _ => fun t => at_end (length (fst t)) (snd t)
  | OEnumerate _ _ => fun t => (enumerated (fst t), snd t)
  | OPairwise _ _ => fun t => (combine (fst t) (tl (fst t)), snd t)
  | OBufferCount _ _ k => fun t =>
      (full_chunks (S k) (fst t) ++
       match snd t, chunk_rest (S k) (fst t) with FDone, a :: r => [a :: r] | _, _ => [] end,
       snd t)
  | OStartWith _ a => fun t => (a :: fst t, snd t)
  | OEndWith _ a => fun t => (fst t ++ match snd t with FDone => [a] | _ => [] end, snd t)
  | OMaterialize _ _ => fun t =>
      (map NNext (fst t) ++ match snd t with FErr e => [NError e] | FDone => [NComplete] | _ => [] end,
       match snd t with FErr _ | FDone => FDone | FOpen => FOpen | FUnsub => FUnsub end)
  | ODematerialize _ _ => fun t => spec_demat (fst t) (absurd_fin (snd t))
  | OIntoResult _ _ => fun t =>
      (map inl (fst t) ++ match snd t with FErr e => [inr e] | _ => [] end,
       match snd t with FErr _ => FOpen | FOpen => FOpen | FDone => FDone | FUnsub => FUnsub end)
  | OLiftOption _ _ => fun t => (somes (fst t), snd t)
  | OLiftResult _ _ => fun t => spec_lift_result (fst t) (absurd_fin (snd t))
  | OMapError _ f => fun t => (fst t, fin_map f (snd t))
  | OMapInto f g => fun t => (map f (fst t), fin_map g (snd t))
  | OMapNeverNext _ _ => fun t => (absurd_list (fst t), snd t)
  | OMapNeverError _ _ => fun t => (fst t, absurd_fin (snd t))
  | OMapNeverBoth _ _ => fun t => (absurd_list (fst t), absurd_fin (snd t))
  | OErrorBoundary _ => fun t => t
  | OIdentity _ _ => fun t => t
  | OTapNext _ _ => fun t => t
  | OTap _ _ _ => fun t => t
  | OOnNext f => fun t =>
      cut (flat_map (fun a => fst (f a) ++ if snd (f a) then [Nxt a] else []) (fst t) ++ fin_calls (snd t))
  | OOnSubscribe l => fun t => cut (l ++ ncs t)
  | OFinalize _ _ _ => fun t => t
  | OComposite a b => fun t => spec b (spec a t)
  | OOptSome o => fun t => spec o t
  | OOptNone _ _ => fun t => t
  end.

Fixpoint spec_pipe {I E O F} (p : pipe I E O F) : trace I E -> trace O F :=
  match p in pipe I E O F return trace I E -> trace O F with
  | PNil => fun t => t
  | PCons o p' => fun t => spec_pipe p' (spec o t)
  end.

(** Teardowns the operators themselves register when subscribed, in order:
    the most downstream operator is subscribed first. *)
Fixpoint op_adds {I E O F} (o : oper I E O F) : list nat :=
  match o with
  | OFinalize _ _ k => [k]
  | OComposite a b => op_adds b ++ op_adds a
  | OOptSome o => op_adds o
  | _ => []
  end.
Fixpoint pipe_adds {I E O F} (p : pipe I E O F) : list nat :=
  match p with
  | PNil => []
  | PCons o p' => pipe_adds p' ++ op_adds o
  end.

(** Every operator except into_result closes its destination when it gets an error. *)
Fixpoint closes_on_error {I E O F} (o : oper I E O F) : bool :=
  match o with
  | OIntoResult _ _ => false
  | OComposite a b => closes_on_error a && closes_on_error b
  | OOptSome o => closes_on_error o
  | _ => true
  end.
Fixpoint pipe_closes_on_error {I E O F} (p : pipe I E O F) : bool :=
  match p with
  | PNil => true
  | PCons o p' => closes_on_error o && pipe_closes_on_error p'
  end.
