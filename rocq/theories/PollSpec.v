(** What the observables of PollModel.v have to do, as predicates of what happened. *)
From Verif Require Import Base SubscrModel SchedModel TimeModel TimeSpec PollModel.
Set Implicit Arguments.

Section Spec.
Variables A B E X : Type.
Variable down : list (ncall B E) -> bool * list (req X).
Notation ev := (tev A B E).

(** The operations on the world, oldest first. *)
Definition ops (l : list ev) : list A :=
  flat_map (fun e => match e with XUp (Nxt a) => [a] | _ => [] end) l.
(** The values the destination was given in the current (or last) tick. *)
Definition tick_values (l : list ev) : list B :=
  fold_left (fun x e => match e with XTick _ => [] | XOut (Nxt b) => x ++ [b] | _ => x end) l [].

(** In every tick the destination is given the values [due] (given all that happened), in
    order, all of them unless it closes; outside of ticks nothing. It is never told of an
    error or a completion. *)
Definition polled (due : list ev -> list B -> Prop) (p : list ev) (e : ev) : Prop :=
  match e with
  | XOut c => open down p /\
      match c with
      | Nxt b => ticking p = true /\ exists rest, due p (tick_values p ++ b :: rest)
      | Uns => last_is p (XUp Uns)
      | _ => False
      end
  | XEnd => open down p -> since p <> None -> due p (tick_values p)
  | _ => True
  end.
End Spec.

(** The world changes only between ticks: the other tasks on the scheduler leave it alone. *)
Definition world_rests {A B E X} (user : X -> nat -> list (tev A B E) -> X * bool * list (cmd A E X)) : Prop :=
  forall x t l a, ~ In (CUp (Nxt a)) (snd (user x t l)).

(** *** Messages. *)
Section Messages.
Variables M E : Type.
Variable s0 : messages M.
Notation ev := (tev (mop M) M E).

(** All messages there were, with those that were there to begin with. *)
Definition written (l : list ev) : list M :=
  ms_old s0 ++ ms_new s0 ++ flat_map (fun a => match a with MWrite m => [m] | MUpdate => [] end) (ops l).
(** Those not dropped: written after the last update but one. *)
Definition kept (l : list ev) : list M :=
  let x := fold_left (fun x a => match a with MWrite m => (fst x, snd x ++ [m]) | MUpdate => (snd x, []) end)
             (ops l) (ms_old s0, ms_new s0) in
  fst x ++ snd x.
(** There was a tick between any two updates, and if there were old messages, one between
    the subscription and the first. *)
Definition regular (l : list ev) : bool :=
  snd (fold_left (fun (x : bool * bool) e => match e with
    | XSub => (match ms_old s0 with [] => true | _ => false end, snd x)
    | XEnd => (true, snd x)
    | XUp (Nxt MUpdate) => (false, fst x && snd x)
    | _ => x end) l (match ms_old s0 with [] => true | _ => false end, true)).

(** In every tick the destination is given everything that is there and was not given before;
    and if updates were regular, all messages. Nothing outside of ticks, no errors and no
    completion. *)
Definition relayed {X} (down : list (ncall M E) -> bool * list (req X)) (p : list ev) (e : ev) : Prop :=
  match e with
  | XOut c => open down p /\
      match c with
      | Nxt _ => ticking p = true
      | Uns => last_is p (XUp Uns)
      | _ => False
      end
  | XEnd => open down p -> since p <> None ->
      (exists before, values p = before ++ kept p) /\ (regular p = true -> values p = written p)
  | _ => True
  end.

Inductive sub : list M -> list M -> Prop :=
| sub_nil : sub [] []
| sub_skip m l l' : sub l l' -> sub l (m :: l')
| sub_take m l l' : sub l l' -> sub (m :: l) (m :: l').
End Messages.

(** *** Keyboard. *)
Section Keyboard.
Variables K E : Type.
Variable eqb : K -> K -> bool.
Variable s0 : keys K.
Notation ev := (tev (kop K) K E).

Definition is_down (k : K) (os : list (kop K)) : bool :=
  fold_left (fun b o => match o with
    | KPress j => if eqb k j then true else b
    | KRelease j => if eqb k j then false else b
    | KClear => b end) os (existsb (eqb k) (ks_down s0)).
(** Since the last clear, the key went down (was pressed while it was up), or up. *)
Definition went (down : bool) (k : K) (os : list (kop K)) : Prop :=
  (exists os1 os2, os = os1 ++ (if down then KPress k else KRelease k) :: os2 /\ ~ In KClear os2 /\
     is_down k os1 = negb down) \/
  (~ In KClear os /\ In k (if down then ks_went_down s0 else ks_went_up s0)).
Definition shows (m : kmode) (k : K) (l : list ev) : Prop :=
  match m with
  | JustPressed => went true k (ops l)
  | JustReleased => went false k (ops l)
  | WhilePressed => is_down k (ops l) = true
  end.
(** A tick's values: the keys that show, each once. *)
Definition keys_due (m : kmode) (l : list ev) (ks : list K) : Prop :=
  NoDup ks /\ forall k, In k ks <-> shows m k l.
End Keyboard.

(** *** Resource. *)
Section Resource.
Variables R B E : Type.
Variable reader : R -> B.
Variables on_added on_changed : bool.
Notation V := (bool * option R)%type.
Variable v0 : V.
Notation ev := (tev V B E).

(** What the world showed in the ticks since the subscription, latest first. *)
Definition sights (l : list ev) : list V :=
  snd (fold_left (fun (x : bool * bool * V * list V) e =>
    let '(sub, tick, v, vs) := x in
    match e with
    | XSub => if sub then x else (true, tick, v, if tick then v :: vs else vs)
    | XTick _ => (sub, true, v, if sub then v :: vs else vs)
    | XEnd => (sub, false, v, vs)
    | XUp (Nxt v') => (sub, tick, v', vs)
    | _ => x
    end) l (false, false, v0, [])).
Definition resource_due (l : list ev) (bs : list B) : Prop :=
  bs = match sights l with
       | (changed, Some r) :: (_, Some _) :: _ => if on_changed && changed then [reader r] else []
       | (_, Some r) :: _ => if on_added then [reader r] else []
       | _ => []
       end.
End Resource.
