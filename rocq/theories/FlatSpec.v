(** The result of switch and exhaust, as a function of what the outer and the inner observables do
    and nothing else. *)
From Verif Require Import Base SubscrModel CombModel HoModel FlatModel.
Set Implicit Arguments.

Section Spec.
Variables A E : Type.
Notation call := (ncall A E).

(** The inner observable that is listened to makes some calls. [outer_done]: it is the last one. Its
    values are passed on until it is over; then it is either waited for the next one or all is over,
    which the destination is told. *)
Inductive fate : Type := Going | Gone | Over.
Fixpoint play (outer_done : bool) (l : list call) : list call * fate :=
  match l with
  | [] => ([], Going)
  | Nxt a :: l' => let (os, f) := play outer_done l' in (Nxt a :: os, f)
  | Err x :: _ => ([Err x], Over)
  | c :: _ => if outer_done then ([c], Over) else ([], Gone)
  end.

(** The inner observables are numbered as they arrive, [n] have; [cur] is listened to. One that
    arrives takes the place of [cur] if [latest]; otherwise it is ignored while there is [cur]. The
    calls that an inner observable makes while it is subscribed to come with its arrival. *)
Fixpoint listened (latest : bool) (n : nat) (cur : option nat) (outer_done : bool) (h : list (act A E)) : list call :=
  match h with
  | [] => []
  | AArrive l :: h' =>
      match latest, cur with
      | false, Some _ => listened latest (S n) cur outer_done h'
      | _, _ =>
          let (os, f) := play outer_done l in
          os ++ match f with
                | Going => listened latest (S n) (Some n) outer_done h'
                | Gone => listened latest (S n) None outer_done h'
                | Over => []
                end
      end
  | AInner i c :: h' =>
      if match cur with Some j => i =? j | None => false end then
        let (os, f) := play outer_done [c] in
        os ++ match f with
              | Going => listened latest n cur outer_done h'
              | Gone => listened latest n None outer_done h'
              | Over => []
              end
      else listened latest n cur outer_done h'
  | AErr x :: _ => [Err x]
  | ACmp :: h' => match cur with None => [Cmp] | Some _ => listened latest n cur true h' end
  | AUns :: _ => [Uns]
  end.
Definition switched : list (act A E) -> list call := listened true 0 None false.
Definition exhausted : list (act A E) -> list call := listened false 0 None false.
End Spec.

Section Map.
Variables A E U X M : Type.
Variable mapper : M -> U -> M * list (ncall A E).
Variable error_mapper : X -> E.
(** The values of the outer observable. *)
Definition values (h : list (oact A E U X)) : list U := flat_map (fun a => match a with OVal u => [u] | _ => [] end) h.
(** What the mapper has captured after it was called with [us]. *)
Definition captured (m : M) (us : list U) : M := fold_left (fun m u => fst (mapper m u)) us m.
(** What happens, with each value replaced by its observable. *)
Fixpoint mapped (m : M) (h : list (oact A E U X)) : list (act A E) :=
  match h with
  | [] => []
  | OVal u :: h' => AArrive (snd (mapper m u)) :: mapped (fst (mapper m u)) h'
  | OErr x :: h' => AErr (error_mapper x) :: mapped m h'
  | OCmp :: h' => ACmp :: mapped m h'
  | OUns :: h' => AUns :: mapped m h'
  | OInner i c :: h' => AInner i c :: mapped m h'
  end.
(** The outer observable errors at most once. *)
Definition errors (h : list (oact A E U X)) : nat := length (filter (fun a => match a with OErr _ => true | _ => false end) h).
End Map.
