(** Property C63: the result of switch and exhaust as a function of what the outer and the inner
    observables do; the operators that map and flatten.

    [down] is the destination: after which calls it has closed itself. *)
From Verif Require Import Base SubscrModel CombModel HoModel HoSpec MergeSpec FlatModel FlatSpec FlatProofs.
From Verif Require LifeProofs.
Set Implicit Arguments.
Definition never (l : list (ncall nat nat)) : bool := false.
Definition after (n : nat) (l : list (ncall nat nat)) : bool := n <=? length l.

(** Whatever the outer and the inner observables do: if no call panics, the destination is told just
    this, up to the call after which it has closed itself. *)
Theorem C63_switch : forall A E (down : list (ncall A E) -> bool) fuel (h : list (act A E)) s, flatten down Switch fuel h init = Fine s ->
  outs (s_tr s) = until down [] (switched h).
Proof. exact @switch_is. Qed.
Print Assumptions C63_switch.
Theorem C63_exhaust : forall A E (down : list (ncall A E) -> bool) fuel (h : list (act A E)) s, flatten down Exhaust fuel h init = Fine s ->
  outs (s_tr s) = until down [] (exhausted h).
Proof. exact @exhaust_is. Qed.
Print Assumptions C63_exhaust.
(** No call panics if the destination does not close itself and the outer observable keeps the
    contract; the inner ones need not. *)
Theorem C63_switch_runs : forall A E (down : list (ncall A E) -> bool) (h : list (act A E)), (forall l, down l = false) -> LifeProofs.contract false false (outer h) ->
  exists fuel, forall fuel', fuel <= fuel' -> exists s, flatten down Switch fuel' h init = Fine s /\ outs (s_tr s) = switched h.
Proof. exact @switch_runs. Qed.
Print Assumptions C63_switch_runs.
Theorem C63_exhaust_runs : forall A E (down : list (ncall A E) -> bool) (h : list (act A E)), (forall l, down l = false) -> LifeProofs.contract false false (outer h) ->
  exists fuel, forall fuel', fuel <= fuel' -> exists s, flatten down Exhaust fuel' h init = Fine s /\ outs (s_tr s) = exhausted h.
Proof. exact @exhaust_runs. Qed.
Print Assumptions C63_exhaust_runs.

(** *** switch_map and exhaust_map. The mapper may change what it has captured. *)
Theorem C63_switch_map : forall A E U X M (mapper : M -> U -> M * list (ncall A E)) (g : X -> E) down fuel h m s,
  snd (map_operator down Switch mapper g fuel h m) = Fine s -> outs (s_tr s) = until down [] (switched (mapped mapper g m h)).
Proof. exact @switch_map_is. Qed.
Print Assumptions C63_switch_map.
Theorem C63_exhaust_map : forall A E U X M (mapper : M -> U -> M * list (ncall A E)) (g : X -> E) down fuel h m s,
  snd (map_operator down Exhaust mapper g fuel h m) = Fine s -> outs (s_tr s) = until down [] (exhausted (mapped mapper g m h)).
Proof. exact @exhaust_map_is. Qed.
Print Assumptions C63_exhaust_map.
(** concat_map and merge_map: the same as mapping and then flattening, by all that has been proved
    about the latter. *)
Theorem C63_map : forall A E U X M (mapper : M -> U -> M * list (ncall A E)) (g : X -> E) down k fuel h m, errors h <= 1 ->
  snd (map_operator down k mapper g fuel h m) = flatten down k fuel (mapped mapper g m h) init.
Proof. exact @map_is. Qed.
Print Assumptions C63_map.
Theorem C63_merge_map : forall A E U X M (mapper : M -> U -> M * list (ncall A E)) (g : X -> E) down L fuel h m s, 1 <= L -> no_uns (mapped mapper g m h) = true ->
  snd (map_operator down (Concurrent L) mapper g fuel h m) = Fine s -> outs (s_tr s) = until down [] (merged 0 false (s_tr s)).
Proof. exact @merge_map_is. Qed.
Print Assumptions C63_merge_map.
(** The mapper is called once with each value of the outer observable, in order; also with those
    whose observable is not subscribed to, and those after the end. *)
Theorem C63_mapper : forall A E U X M (mapper : M -> U -> M * list (ncall A E)) (g : X -> E) down k fuel h m s,
  snd (map_operator down k mapper g fuel h m) = Fine s -> fst (map_operator down k mapper g fuel h m) = captured mapper m (values h).
Proof. exact @mapper_is. Qed.
Print Assumptions C63_mapper.
(** If each completes while it is subscribed to, nothing is lost: both concatenate. *)
Theorem C63_values : forall A E latest n (vss : list (list A)),
  listened latest n None false (map (fun vs => AArrive (map (@Nxt A E) vs ++ [Cmp])) vss ++ [ACmp]) = map Nxt (concat vss) ++ [Cmp].
Proof. exact @listened_values. Qed.
Print Assumptions C63_values.

Definition told (r : res nat nat) : option (list (ncall nat nat)) := match r with Fine s => Some (outs (s_tr s)) | _ => None end.
Definition h63 : list (act nat nat) :=
  [AInner 0 (Nxt 9); AArrive [Nxt 1]; AInner 0 (Nxt 2); AArrive [Nxt 3]; AInner 0 (Nxt 4); AInner 1 (Nxt 5); AInner 0 Cmp; AInner 1 Cmp;
   AArrive [Nxt 6; Cmp; Nxt 7]; AArrive [Nxt 8]; ACmp; AInner 3 (Nxt 10); AInner 3 Cmp; AInner 3 (Nxt 11)].
Example C63_example :
  LifeProofs.contract false false (outer h63) /\
  told (flatten never Switch 100 h63 init) = Some [Nxt 1; Nxt 2; Nxt 3; Nxt 5; Nxt 6; Nxt 8; Nxt 10; Cmp] /\
  switched h63 = [Nxt 1; Nxt 2; Nxt 3; Nxt 5; Nxt 6; Nxt 8; Nxt 10; Cmp] /\
  told (flatten never Exhaust 100 h63 init) = Some [Nxt 1; Nxt 2; Nxt 4; Nxt 6; Nxt 8; Nxt 10; Cmp] /\
  exhausted h63 = [Nxt 1; Nxt 2; Nxt 4; Nxt 6; Nxt 8; Nxt 10; Cmp] /\
  told (flatten (after 3) Switch 100 h63 init) = Some [Nxt 1; Nxt 2; Nxt 3].
Proof. split; [cbn; repeat split|]. vm_compute. auto 10. Qed.
(** An inner observable that unsubscribes its subscriber counts as completed unless it is the last:
    then the destination is unsubscribed. *)
Example C63_unsubscribed :
  told (flatten never Switch 100 [AArrive [Nxt 1; Uns]; ACmp] init) = Some [Nxt 1; Cmp] /\
  told (flatten never Switch 100 [AArrive [Nxt 1]; ACmp; AInner 0 Uns] init) = Some [Nxt 1; Uns] /\
  told (flatten never Exhaust 100 [AArrive [Nxt 1]; ACmp; AInner 0 Uns] init) = Some [Nxt 1; Uns].
Proof. vm_compute. auto. Qed.
(** A mapper that counts: it is called for the value that exhaust ignores, and after the end. *)
Definition counting (n u : nat) : nat * list (ncall nat nat) := (S n, [Nxt (10 * u + n)]).
Definition o63 : list (oact nat nat nat bool) := [OVal 1; OVal 2; OInner 0 Cmp; OVal 3; OErr true; OVal 4; OErr false].
Example C63_map_example :
  fst (map_operator never Exhaust counting (fun b : bool => if b then 1 else 0) 100 o63 0) = 4 /\
  told (snd (map_operator never Exhaust counting (fun b : bool => if b then 1 else 0) 100 o63 0)) = Some [Nxt 10; Nxt 32; Err 1] /\
  told (snd (map_operator never Switch counting (fun b : bool => if b then 1 else 0) 100 o63 0)) = Some [Nxt 10; Nxt 21; Nxt 32; Err 1] /\
  told (snd (map_operator never (Concurrent 2) counting (fun b : bool => if b then 1 else 0) 100 o63 0)) = Some [Nxt 10; Nxt 21; Nxt 32; Err 1] /\
  values o63 = [1; 2; 3; 4].
Proof. vm_compute. auto 10. Qed.
Example C63_all_example :
  told (all_operator never Switch (fun x : nat => x) 100 [OVal [Nxt 1]; OVal [Nxt 2]; OCmp; OInner 0 (Nxt 3); OInner 1 Cmp]) = Some [Nxt 1; Nxt 2; Cmp].
Proof. vm_compute. auto. Qed.
