(** What EventObservable has to do, as functions of what happened. *)
From Verif Require Import Base SubscrModel SchedModel EvModel.
Set Implicit Arguments.

Section Spec.
Variables A X : Type.
Notation call := (ncall A Empty_set).

(** What is there to be heard once listening: the events up to the end of the entity or of the
    subscription. *)
Fixpoint hear (l : list (lev A)) : list call :=
  match l with
  | [] => []
  | LTrig a :: l' => Nxt a :: hear l'
  | LKill :: _ => [Cmp]
  | LUnsub :: _ => []
  | LSpawn :: l' => hear l'
  end.
(** Before, nothing; then the completion if the entity does not exist any more. *)
Fixpoint heard (alive : bool) (l : list (lev A)) : list call :=
  match l with
  | [] => []
  | LSpawn :: l' => if alive then hear l' else [Cmp]
  | LKill :: l' => heard false l'
  | LTrig _ :: l' => heard alive l'
  | LUnsub :: _ => []
  end.
(** The calls until the destination closes itself. *)
Fixpoint until (stop : list call -> bool) (told l : list call) : list call :=
  match l with
  | [] => []
  | c :: l' => c :: (if stop (told ++ [c]) then [] else until stop (told ++ [c]) l')
  end.

(** The others do not use the ids of the observable, nor cancel invoked tasks. *)
Definition fair (r : req (clos X)) : Prop :=
  match r with
  | QSched cid _ k => cid <> 0 /\ exists x, k = KOther x
  | QCancel cid => cid <> 0
  | QAddInv iid _ k => iid <> 0 /\ exists x, k = KOther x
  | QInvoke iid => iid <> 0
  | QCancelInv _ => False
  end.
Definition fair_act (o : oact A X) : Prop := match o with OReq r => fair r | _ => True end.
Definition fair_acts (h : list (act A X)) : Prop :=
  Forall (fun a => match a with EDo l => Forall fair_act l | _ => True end) h.
Definition fair_user (user : X -> nat -> list (lev A) -> X * bool * list (oact A X)) : Prop :=
  forall x t l, Forall fair_act (snd (user x t l)).
Definition fair_down (down : list call -> bool * list (req (clos X))) : Prop :=
  forall l, Forall fair (snd (down l)).
Definition spawns (l : list (lev A)) : nat := length (filter (fun e => match e with LSpawn => true | _ => false end) l).
End Spec.
