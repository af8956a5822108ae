(** What the combining observables should tell their destination, from the history of calls
    alone. *)
From Verif Require Import Base SubscrModel LifeModel LifeProofs CombModel.
Set Implicit Arguments.

Section Spec.
Variables A1 A2 E : Type.
Notation event := (either2 A1 A2 E).

(** The calls of one source. *)
Fixpoint on1 (p : list event) : list (ncall A1 E) :=
  match p with [] => [] | On1 n :: r => n :: on1 r | On2 _ :: r => on1 r end.
Fixpoint on2 (p : list event) : list (ncall A2 E) :=
  match p with [] => [] | On2 n :: r => n :: on2 r | On1 _ :: r => on2 r end.
(** Both sources keep the observer contract. *)
Definition lawful (p : list event) : Prop :=
  contract false false (on1 p) /\ contract false false (on2 p).

Section Side.
Variable A : Type.
Definition completed (l : list (ncall A E)) : bool :=
  existsb (fun n => match n with Cmp => true | _ => false end) l.
Definition ended (l : list (ncall A E)) : bool :=
  existsb (fun n => match n with Nxt _ => false | _ => true end) l.
Fixpoint latest_of (l : list A) : option A :=
  match l with [] => None | a :: r => match latest_of r with Some b => Some b | None => Some a end end.
Definition none (l : list A) : bool := match l with [] => true | _ => false end.
End Side.

(** One source sends [n]; [mine] and [other] are what it and the other one sent before. *)
Section Ends.
Variables A A' B : Type.
Implicit Types (mine : list (ncall A E)) (other : list (ncall A' E)).

(** combine_latest. A source that completes before it and the other have sent anything only
    unsubscribes the result. *)
Definition cl_ends mine other (n : ncall A E) : list (ncall B E) :=
  match n with
  | Nxt _ => []
  | Err x => [Err x]
  | Cmp => if completed other || (none (values mine) && negb (none (values other))) then [Cmp]
           else if ended other || none (values mine) then [Uns] else []
  | Uns => if ended mine then [] else if ended other then [Uns]
           else if none (values mine) && none (values other) then [Uns] else []
  end.
(** combine_changes and join; [last] is told before the completion. *)
Definition both_ends (last : list (ncall B E)) mine other (n : ncall A E) : list (ncall B E) :=
  match n with
  | Nxt _ => []
  | Err x => [Err x]
  | Cmp => if completed other then last ++ [Cmp] else if ended other then [Uns] else []
  | Uns => if ended mine then [] else if ended other then [Uns] else []
  end.
(** zip. Nothing while values are left over. *)
Definition zip_end_of other : list (ncall B E) :=
  if completed other then [Cmp] else if ended other then [Uns] else [].
Definition zip_ends_by (left_over : bool) mine (n : ncall A E) : list (ncall B E) :=
  match n with
  | Nxt _ => []
  | Err x => [Err x]
  | Cmp => if left_over then [] else [Cmp]
  | Uns => if ended mine || left_over then [] else [Uns]
  end.
End Ends.

Definition cl_answer (p : list event) (e : event) : list (ncall (A1 * A2) E) :=
  match e with
  | On1 (Nxt a) => match latest_of (values (on2 p)) with Some b => [Nxt (a, b)] | None => [] end
  | On2 (Nxt b) => match latest_of (values (on1 p)) with Some a => [Nxt (a, b)] | None => [] end
  | On1 n => cl_ends _ (on1 p) (on2 p) n
  | On2 n => cl_ends _ (on2 p) (on1 p) n
  end.

Definition known {A} (o : option A) : change A := match o with Some a => Latest a | None => NoChange end.
Definition cc_answer (p : list event) (e : event) : list (ncall (change A1 * change A2) E) :=
  match e with
  | On1 (Nxt a) => [Nxt (JustUpdated a, known (latest_of (values (on2 p))))]
  | On2 (Nxt b) => [Nxt (known (latest_of (values (on1 p))), JustUpdated b)]
  | On1 n => both_ends [] (on1 p) (on2 p) n
  | On2 n => both_ends [] (on2 p) (on1 p) n
  end.

Definition join_answer (p : list event) (e : event) : list (ncall (A1 * A2) E) :=
  let last := match latest_of (values (on1 p)), latest_of (values (on2 p)) with
              | Some a, Some b => [Nxt (a, b)] | _, _ => [] end in
  match e with
  | On1 n => both_ends last (on1 p) (on2 p) n
  | On2 n => both_ends last (on2 p) (on1 p) n
  end.

(** zip without overflow: the i-th value is paired with the i-th. *)
Definition zip_answer (p : list event) (e : event) : list (ncall (A1 * A2) E) :=
  let v1 := values (on1 p) in
  let v2 := values (on2 p) in
  let left_over := negb (length v1 =? length v2) in
  match e with
  | On1 (Nxt a) =>
      match nth_error v2 (length v1) with
      | Some b => Nxt (a, b) :: (if length v2 =? S (length v1) then zip_end_of _ (on2 p) else [])
      | None => []
      end
  | On2 (Nxt b) =>
      match nth_error v1 (length v2) with
      | Some a => Nxt (a, b) :: (if length v1 =? S (length v2) then zip_end_of _ (on1 p) else [])
      | None => []
      end
  | On1 n => zip_ends_by _ left_over (on1 p) n
  | On2 n => zip_ends_by _ left_over (on2 p) n
  end.

(** zip in general: the values not yet paired, in two bounded queues. *)
Definition unpaired_step (max : nat) (o : overflow) (q : list A1 * list A2) (e : event) : list A1 * list A2 :=
  let q' := match e with
            | On1 (Nxt a) => (enqueue max o a (fst q), snd q)
            | On2 (Nxt b) => (fst q, enqueue max o b (snd q))
            | _ => q
            end in
  match q' with (_ :: l1, _ :: l2) => (l1, l2) | _ => q' end.
Definition unpaired max o (p : list event) : list A1 * list A2 := fold_left (unpaired_step max o) p ([], []).
Definition zipq_answer (max : nat) (o : overflow) (p : list event) (e : event) : list (ncall (A1 * A2) E) :=
  let '(q1, q2) := unpaired max o p in
  let left_over := negb (none q1 && none q2) in
  match e with
  | On1 (Nxt a) =>
      match q2 with
      | b :: r => Nxt (a, b) :: (if none r then zip_end_of _ (on2 p) else [])
      | [] => []
      end
  | On2 (Nxt b) =>
      match q1 with
      | a :: r => Nxt (a, b) :: (if none r then zip_end_of _ (on1 p) else [])
      | [] => []
      end
  | On1 n => zip_ends_by _ left_over (on1 p) n
  | On2 n => zip_ends_by _ left_over (on2 p) n
  end.
(** The queues never overflow. *)
Definition fits (max : nat) (p : list event) : Prop := forall q r, p = q ++ r ->
  length (values (on1 q)) <= length (values (on2 q)) + max /\
  length (values (on2 q)) <= length (values (on1 q)) + max.

(** with_latest_from; the first source is the one it is applied to. *)
Definition wl_answer (p : list event) (e : event) : list (ncall (A1 * A2) E) :=
  match e with
  | On1 (Nxt a) => match latest_of (values (on2 p)) with Some b => [Nxt (a, b)] | None => [] end
  | On1 (Err x) | On2 (Err x) => [Err x]
  | On1 Cmp => [Cmp]
  | On1 Uns => [Uns]
  | On2 Cmp => if none (values (on2 p)) then [Cmp] else []
  | On2 _ => []
  end.

(** *** The whole: each call is answered as long as the destination is open. A deferred error
    gets through also when it is not. *)
Section Answers.
Variable B : Type.
Variable down : list (ncall B E) -> bool.
(** Does it look at the destination between two calls? *)
Variable looks : bool.
Variable answer : list event -> event -> list (ncall B E).

Definition give (w : told B E) (c : ncall B E) : told B E := if looks && t_shut w then w else tell down c w.
Definition error_in (e : event) : option E :=
  match e with On1 (Err x) | On2 (Err x) => Some x | _ => None end.
Definition answered (p : list event) (w : told B E) (d : bool) (e : event) : told B E :=
  if t_shut w then (match error_in e with Some x => if d then tell down (Err x) w else w | None => w end)
  else fold_left give (answer p e) w.
Fixpoint answers (p : list event) (w : told B E) (h : list (bool * event)) : told B E :=
  match h with
  | [] => w
  | (d, e) :: r => answers (p ++ [e]) (answered p w d e) r
  end.
Definition all_told (h : list (bool * event)) : list (ncall B E) := t_out (answers [] t_new h).
End Answers.

(** Nothing can be emitted any more, whatever the sources send. *)
Definition mute {B} (answer : list event -> event -> list (ncall B E)) (p : list event) : Prop :=
  forall r e, lawful (p ++ r ++ [e]) -> values (answer (p ++ r) e) = [].
End Spec.

(** The destination is told that it ended. *)
Definition ends_it {B E} (l : list (ncall B E)) : Prop := In Cmp l \/ In Uns l.

(** No call that closes the destination is followed by another. *)
Definition polite {B E} (down : list (ncall B E) -> bool) (l : list (ncall B E)) : Prop :=
  forall q c c' r, l = q ++ c :: c' :: r -> is_closing c = false /\ down (q ++ [c]) = false.
