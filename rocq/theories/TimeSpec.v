(** What the operators on a scheduler have to do, as predicates of what happened
    ([tev] of TimeModel.v). *)
From Verif Require Import Base SubscrModel SchedModel TimeModel.
Set Implicit Arguments.

Section Spec.
Variables A B E X : Type.
Notation ev := (tev A B E).

(** The time the scheduler has: the latest a tick was given. *)
Definition clock (l : list ev) : nat :=
  fold_left (fun c e => match e with XTick t => Nat.max c t | _ => c end) l 0.

(** A tick is being executed. *)
Definition ticking (l : list ev) : bool :=
  fold_left (fun b e => match e with XTick _ => true | XEnd => false | _ => b end) l false.

(** The source's values, each with the time it was pushed. *)
Fixpoint pushes_from (c : nat) (l : list ev) : list (nat * A) :=
  match l with
  | [] => []
  | XTick t :: l' => pushes_from (Nat.max c t) l'
  | XUp (Nxt a) :: l' => (c, a) :: pushes_from c l'
  | _ :: l' => pushes_from c l'
  end.
Definition pushes : list ev -> list (nat * A) := pushes_from 0.

(** The values the destination was given. *)
Definition values (l : list ev) : list B :=
  flat_map (fun c => match c with Nxt b => [b] | _ => [] end) (outs l).

(** The destination is open: it was not told that it is over, and did not close itself. *)
Definition open (down : list (ncall B E) -> bool * list (req X)) (l : list ev) : Prop :=
  forall os c os', outs l = os ++ c :: os' -> (exists b, c = Nxt b) /\ fst (down (os ++ [c])) = false.

(** Each event was right given what happened before it. *)
Definition always (good : list ev -> ev -> Prop) (l : list ev) : Prop :=
  forall p e s, l = p ++ e :: s -> good p e.

(** Each event that asks for an answer ([f], given what happened before) after which the
    destination is open is answered at once. *)
Definition answered (down : list (ncall B E) -> bool * list (req X))
    (f : list ev -> ev -> option (ncall B E)) (l : list ev) : Prop :=
  forall p e o s, l = p ++ e :: s -> f p e = Some o -> open down (p ++ [e]) ->
  exists s', s = XOut o :: s'.
End Spec.

(** delay and friends: the values come out in order, none before its time [due]. *)
Section Delay.
Variables A E X : Type.
Variable down : list (ncall A E) -> bool * list (req X).
Notation ev := (tev A A E).

Definition errors (p : list ev) (e : ev) : option (ncall A E) :=
  match e with XUp (Err x) => Some (Err x) | _ => None end.

Definition delayed (d : nat) (p : list ev) (e : ev) : Prop :=
  match e with
  | XOut c => open down p /\
      match c with
      | Nxt a => exists s, nth_error (pushes p) (length (values p)) = Some (s, a) /\ s + d <= clock p /\
               ticking p = true
      | Cmp => In (XUp Cmp) p /\ length (values p) = length (pushes p)
      | Uns => In (XUp Uns) p /\ length (values p) = length (pushes p)
      | Err x => exists p', p = p' ++ [XUp (Err x)]
      end
  | XEnd => open down p -> forall n s a,
      nth_error (pushes p) n = Some (s, a) -> s + d <= clock p -> n < length (values p)
  | _ => True
  end.

(** observe_on: during ticks, all of them by the end of the tick. *)
Definition observed (p : list ev) (e : ev) : Prop :=
  match e with
  | XOut c => open down p /\
      match c with
      | Nxt a => ticking p = true /\ nth_error (map snd (pushes p)) (length (values p)) = Some a
      | Cmp => In (XUp Cmp) p /\ length (values p) = length (pushes p)
      | Uns => In (XUp Uns) p /\ length (values p) = length (pushes p)
      | Err x => exists p', p = p' ++ [XUp (Err x)]
      end
  | XEnd => open down p -> length (values p) = length (pushes p)
  | _ => True
  end.

(** debounce_time: the last value pushed, if the destination was told nothing since then. *)
Definition pending (l : list ev) : option (nat * A) :=
  snd (fold_left (fun x e => match e with
    | XTick t => (Nat.max (fst x) t, snd x)
    | XUp (Nxt a) => (fst x, Some (fst x, a))
    | XOut _ => (fst x, None)
    | _ => x end) l (0, None)).

Definition debounced (d : nat) (p : list ev) (e : ev) : Prop :=
  match e with
  | XOut c => open down p /\
      match c with
      | Nxt a => exists s, pending p = Some (s, a) /\ s + d <= clock p /\ ticking p = true
      | Cmp => In (XUp Cmp) p /\ pending p = None
      | Uns => In (XUp Uns) p /\ pending p = None
      | Err x => exists p', p = p' ++ [XUp (Err x)]
      end
  | XEnd => open down p -> forall s a, pending p = Some (s, a) -> clock p < s + d
  | _ => True
  end.

(** The other tasks push no values. *)
Definition pushless (user : X -> nat -> list ev -> X * bool * list (cmd A E X)) : Prop :=
  forall x t l a, ~ In (CUp (Nxt a)) (snd (user x t l)).
End Delay.

(** The others. *)
Section Others.
Variables A B E X : Type.
Variable down : list (ncall B E) -> bool * list (req X).
Notation ev := (tev A B E).

(** The value pushed last, since the destination was given one. *)
Definition latest (l : list ev) : option A :=
  fold_left (fun x e => match e with
    | XUp (Nxt a) => Some a
    | XOut (Nxt _) => None
    | _ => x end) l None.
(** The time the current tick was given. *)
Definition given_time (l : list ev) : nat :=
  fold_left (fun x e => match e with XTick t => t | _ => x end) l 0.
(** How many values the destination was given in the current tick. *)
Definition in_tick (l : list ev) : nat :=
  fold_left (fun x e => match e with XTick _ => 0 | XOut (Nxt _) => S x | _ => x end) l 0.
(** When the subscription was made. *)
Definition since (l : list ev) : option nat :=
  snd (fold_left (fun (x : nat * option nat) e => match e with
    | XTick t => (Nat.max (fst x) t, snd x)
    | XSub => (fst x, match snd x with None => Some (fst x) | s => s end)
    | _ => x end) l (0, None)).
(** How many ticks there were since then, with the one in which it was made. *)
Definition ticks (l : list ev) : nat :=
  snd (fold_left (fun (x : bool * bool * nat) e => match e with
    | XTick _ => ((true, snd (fst x)), if snd (fst x) then S (snd x) else snd x)
    | XEnd => ((false, snd (fst x)), snd x)
    | XSub => ((fst (fst x), true), if fst (fst x) && negb (snd (fst x)) then S (snd x) else snd x)
    | _ => x end) l ((false, false), 0)).
Definition last_is (l : list ev) (e : ev) : Prop := exists l', l = l' ++ [e].

Definition terminals (p : list ev) (e : ev) : option (ncall B E) :=
  match e with XUp (Err x) => Some (Err x) | XUp Cmp => Some Cmp | XUp Uns => Some Uns | _ => None end.
Definition unsubscribes (p : list ev) (e : ev) : option (ncall B E) :=
  match e with XUp Uns => Some Uns | _ => None end.

(** timer. *)
Definition timed_once (d : nat) (p : list ev) (e : ev) : Prop :=
  match e with
  | XOut c => open down p /\
      match c with
      | Nxt _ => ticking p = true /\ values p = [] /\ exists s, since p = Some s /\ s + d <= clock p
      | Cmp => exists b, last_is p (XOut (Nxt b))
      | Uns => last_is p (XUp Uns)
      | Err x => False
      end
  | XEnd => open down p -> forall s, since p = Some s -> clock p < s + d
  | _ => True
  end.
Definition timer_answers (p : list ev) (e : ev) : option (ncall B E) :=
  match e with XUp Uns => Some Uns | XOut (Nxt _) => Some Cmp | _ => None end.

(** iterator_on_tick. *)
Definition first_items (item : nat -> option B) (now : bool) : nat :=
  if now then match item 0 with Some _ => 1 | None => 0 end else 0.
Definition on_ticks (item : nat -> option B) (n : nat) (now : bool) (p : list ev) (e : ev) : Prop :=
  match e with
  | XOut c => open down p /\
      match c with
      | Nxt b => item (length (values p)) = Some b /\
          (now = true /\ last_is p XSub \/
           ticking p = true /\ ticks p mod n = 0 /\
           S (length (values p)) = first_items item now + ticks p / n)
      | Cmp => (exists b, last_is p (XOut (Nxt b))) /\ item (length (values p)) = None
      | Uns => last_is p (XUp Uns)
      | Err x => False
      end
  | XEnd => open down p -> item (length (values p)) <> None ->
      length (values p) = match since p with Some _ => first_items item now + ticks p / n | None => 0 end
  | _ => True
  end.
Definition is_sub (e : ev) : bool := match e with XSub => true | _ => false end.
Definition on_tick_answers (item : nat -> option B) (now : bool) (p : list ev) (e : ev) : option (ncall B E) :=
  match e with
  | XUp Uns => Some Uns
  | XOut (Nxt _) =>
      if now && is_sub (last p XEnd) then None
      else match item (S (length (values p))) with None => Some Cmp | Some _ => None end
  | _ => None
  end.
End Others.

(** fallback_when_silent. *)
Section Fallback.
Variables A E X : Type.
Variable down : list (ncall A E) -> bool * list (req X).
Notation ev := (tev A A E).
Definition fallen (fb : nat -> nat -> A) (p : list ev) (e : ev) : Prop :=
  match e with
  | XOut c => open down p /\
      match c with
      | Nxt a => ticking p = true /\ in_tick p = 0 /\
          a = match latest p with Some a => a | None => fb (given_time p) (length (values p)) end
      | Cmp => last_is p (XUp Cmp)
      | Uns => last_is p (XUp Uns)
      | Err x => last_is p (XUp (Err x))
      end
  | XEnd => open down p -> since p <> None -> in_tick p = 1
  | _ => True
  end.
End Fallback.

(** interval. *)
Section Interval.
Variables A E X : Type.
Variable down : list (ncall nat E) -> bool * list (req X).
Notation ev := (tev A nat E).

(** The number of periods that ended in ticks, counting at most [cap] for each tick. *)
Definition periods (d cap : nat) (l : list ev) : nat :=
  snd (fold_left (fun (x : nat * option nat * nat) e => match e with
    | XTick t =>
        let c := fst (fst x) in
        let c' := Nat.max c t in
        ((c', snd (fst x)),
         match snd (fst x) with
         | Some s => snd x + Nat.min cap ((c' - s) / d - (c - s) / d)
         | None => snd x
         end)
    | XSub => ((fst (fst x), match snd (fst x) with None => Some (fst (fst x)) | s => s end), snd x)
    | _ => x end) l ((0, None), 0)).

Definition at_intervals (d : nat) (now : bool) (cap : nat) (p : list ev) (e : ev) : Prop :=
  let b := if now then 1 else 0 in
  match e with
  | XOut c => open down p /\
      match c with
      | Nxt n => n = length (values p) /\ n < b + periods d cap p /\
          (now = true /\ last_is p XSub \/ ticking p = true)
      | Uns => last_is p (XUp Uns)
      | _ => False
      end
  | XEnd => open down p -> length (values p) = match since p with Some _ => b + periods d cap p | None => 0 end
  | _ => True
  end.
End Interval.

(** throttle_time: what does hold of it. *)
Section Throttle.
Variables A E X : Type.
Variable down : list (ncall A E) -> bool * list (req X).
Notation ev := (tev A A E).

(** How many values the destination was given since the last tick ended. *)
Definition gap (l : list ev) : nat :=
  fold_left (fun x e => match e with XEnd => 0 | XOut (Nxt _) => S x | _ => x end) l 0.

Definition throttled (d : nat) (leading trailing : bool) (p : list ev) (e : ev) : Prop :=
  match e with
  | XOut c => open down p /\
      match c with
      | Nxt a => leading = true /\ last_is p (XUp (Nxt a)) /\ (ticking p = false -> gap p = 0) \/
                 trailing = true /\ ticking p = true /\ In a (map snd (pushes p))
      | Cmp => In (XUp Cmp) p
      | Uns => In (XUp Uns) p
      | Err x => last_is p (XUp (Err x))
      end
  | XEnd => open down p -> In (XUp Cmp) p \/ In (XUp Uns) p -> 0 < d ->
      exists ps x, pushes p = ps ++ [x] /\ given_time p < fst x + d
  | _ => True
  end.
Definition throttle_answers (leading : bool) (p : list ev) (e : ev) : option (ncall A E) :=
  match e with
  | XUp (Err x) => Some (Err x)
  | XUp (Nxt a) => if leading then match pushes p with [] => Some (Nxt a) | _ => None end else None
  | _ => None
  end.

(** The other tasks leave the operator alone. *)
Definition aloof (user : X -> nat -> list ev -> X * bool * list (cmd A E X)) : Prop :=
  forall x t l c, ~ In (CUp c) (snd (user x t l)).
End Throttle.

(** The values the destination was given, each with the time. *)
Definition handed {A B E} (l : list (tev A B E)) : list (nat * B) :=
  snd (fold_left (fun (x : nat * list (nat * B)) e => match e with
    | XTick t => (Nat.max (fst x) t, snd x)
    | XOut (Nxt b) => (fst x, snd x ++ [(fst x, b)])
    | _ => x end) l (0, [])).
