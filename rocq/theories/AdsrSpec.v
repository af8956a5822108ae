(** What the adsr operator has to do, as a predicate of what happened. *)
From Verif Require Import Base SubscrModel SchedModel TimeModel TimeSpec AdsrModel.
Set Implicit Arguments.

Section Spec.
Variables E X : Type.
Variable down : list (ncall signal E) -> bool * list (req X).
Notation ev := (tev trigger signal E).
Variable sample : curve.
Variables (always_none reset : bool) (env : envelope).

(** The envelope as of the last tick that ended: subscribed, the time of the current (last)
    tick, the input, the envelope's state and the time of its last frame, and whether time
    went backwards since then. *)
Record view : Type := mkView {
  v_sub : bool; v_given : nat; v_sh : shared; v_es : env_state; v_last : nat; v_dead : bool
}.
Definition view0 : view := mkView false 0 (mkShared false false env) es_new 0 false.

(** One frame in each tick, with the time since the one before. *)
Definition framed (v : view) : view :=
  if v_sub v && negb (v_dead v) then
    if v_given v <? v_last v then mkView (v_sub v) (v_given v) (v_sh v) (v_es v) (v_last v) true
    else
      let '(_, sh, es) := adsr_frame sample always_none reset (v_given v - v_last v) (v_sh v) (v_es v) in
      mkView (v_sub v) (v_given v) sh es (v_given v) false
  else v.
(** What it emits. *)
Definition due (v : view) : option signal :=
  if v_sub v && negb (v_dead v) && negb (v_given v <? v_last v) then
    fst (fst (adsr_frame sample always_none reset (v_given v - v_last v) (v_sh v) (v_es v)))
  else None.

Definition view_step (v : view) (e : ev) : view :=
  match e with
  | XSub => mkView true (v_given v) (v_sh v) (v_es v) (v_last v) (v_dead v)
  | XTick t => mkView (v_sub v) t (v_sh v) (v_es v) (v_last v) (v_dead v)
  | XEnd => framed v
  | XUp (Nxt a) => mkView (v_sub v) (v_given v) (adsr_next a (v_sh v)) (v_es v) (v_last v) (v_dead v)
  | _ => v
  end.
Definition viewed (l : list ev) : view := fold_left view_step l view0.

(** In every tick what is due comes out, once, and nothing else; terminals are forwarded. *)
Definition enveloped (p : list ev) (e : ev) : Prop :=
  match e with
  | XOut c => open down p /\
      match c with
      | Nxt g => ticking p = true /\ in_tick p = 0 /\ due (viewed p) = Some g
      | Cmp => last_is p (XUp Cmp)
      | Uns => last_is p (XUp Uns)
      | Err x => last_is p (XUp (Err x))
      end
  | XEnd => open down p -> in_tick p = match due (viewed p) with Some _ => 1 | None => 0 end
  | _ => True
  end.

(** *** When other tasks push triggers during a tick, it matters when in the tick the frame is
    taken: what happened, with the frames marked. *)
Inductive mev : Type := MEv (e : ev) | MFrame.
Definition unmark (m : list mev) : list ev := flat_map (fun x => match x with MEv e => [e] | MFrame => [] end) m.
(** The envelope as of the last frame. *)
Definition seen_step (v : view) (x : mev) : view :=
  match x with
  | MFrame => framed v
  | MEv XEnd => v
  | MEv e => view_step v e
  end.
Definition seen (m : list mev) : view := fold_left seen_step m view0.
(** The frames in the current tick. *)
Definition frames (m : list mev) : nat :=
  fold_left (fun n x => match x with MEv (XTick _) => 0 | MFrame => S n | _ => n end) m 0.

(** One frame in each tick (unless time went backwards); a value comes out only in a frame, and is
    what is due then. *)
Definition timely (p : list mev) (x : mev) : Prop :=
  match x with
  | MFrame => ticking (unmark p) = true /\ frames p = 0 /\ open down (unmark p) /\
              v_sub (seen p) = true /\ v_dead (seen p) = false
  | MEv (XOut (Nxt g)) => exists p', p = p' ++ [MFrame] /\ due (seen p') = Some g
  | MEv XEnd => open down (unmark p) -> v_sub (seen p) = true -> v_dead (seen p) = true \/ frames p = 1
  | _ => True
  end.
(** What is due in a frame comes out in it. *)
Definition prompt (m : list mev) : Prop :=
  forall p s g, m = p ++ MFrame :: s -> due (seen p) = Some g -> exists s', s = MEv (XOut (Nxt g)) :: s'.

(** The rest: values only during ticks, terminals are forwarded. *)
Definition forwarded (p : list ev) (e : ev) : Prop :=
  match e with
  | XOut c => open down p /\
      match c with
      | Nxt g => ticking p = true
      | Cmp => last_is p (XUp Cmp)
      | Uns => last_is p (XUp Uns)
      | Err x => last_is p (XUp (Err x))
      end
  | _ => True
  end.
End Spec.

Arguments MFrame {E}.

(** Time never goes backwards. *)
Definition steady {A B E} (l : list (tev A B E)) : Prop :=
  always (fun p e => match e with XTick t => clock p <= t | _ => True end) l.
(** The other tasks push no values. *)
Definition quiet {A B E X} (user : X -> nat -> list (tev A B E) -> X * bool * list (cmd A E X)) : Prop :=
  forall x t l a, ~ In (CUp (Nxt a)) (snd (user x t l)).
