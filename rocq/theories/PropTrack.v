(** Property C76: the iterator that counts how it is used. A history is a list of what a test did with
    the answers it got: [begun h] iterations were begun, [got x h] is what was taken from the [x]-th of
    them, [items] are the items among it and [ended] whether it contains the end. [calm h]: no iterator
    panicked. [nth_result it s0 n] is what the wrapped iterator on its own gives when it is asked
    for the [n]-th time. *)
From Verif Require Import Base SubscrModel OpsModel SourceModel TrackModel TrackProofs.
Set Implicit Arguments.

(** However iterations over clones are interleaved: each of them gives what the wrapped iterator gives
    on its own; it is counted under the number of iterations begun before it; what is read is what was
    taken; asking for an iteration that was not begun panics. *)
Theorem C76_answers : forall A S (it : S -> ires A * S) (s0 : S) ops, let w := fst (texec it s0 ops fresh_tracked) in
  let h := snd (texec it s0 ops fresh_tracked) in calm h -> forall o,
  snd (tdo it s0 o w) =
    match o with
    | TInto => TMade
    | TNext x => if x <? begun h then
                   match nth_result it s0 (length (got x h)) with IItem a => TGot (Some a) | IEnd => TGot None | IPanic => TPanic end
                 else TVoid
    | TRead i => if i <? begun h then TNum (items (got i h)) else TPanic
    | TFin i => if i <? begun h then TBool (ended (got i h)) else TPanic
    end.
Proof. exact (fun A S it s0 ops H o => @answers A S it s0 ops o H). Qed.
Print Assumptions C76_answers.
Example C76_answers_ex :
  let it := at_pos (fun k => nth_error [10; 20] k) in
  snd (texec it 0 [TInto; TNext 0; TInto; TNext 1; TNext 0; TNext 0; TRead 0; TFin 0; TRead 1; TFin 1; TRead 2; TNext 1] fresh_tracked) =
  [(TInto, TMade); (TNext 0, TGot (Some 10)); (TInto, TMade); (TNext 1, TGot (Some 10)); (TNext 0, TGot (Some 20));
   (TNext 0, TGot None); (TRead 0, TNum 2); (TFin 0, TBool true); (TRead 1, TNum 1); (TFin 1, TBool false); (TRead 2, TPanic);
   (TNext 1, TGot (Some 20))].
Proof. vm_compute. reflexivity. Qed.

(** Once an iterator has panicked, nothing can be read any more, of no iteration, and none can go on. *)
Theorem C76_poison : forall A S (it : S -> ires A * S) (s0 : S) ops w, let r := texec it s0 ops w in
  (exists x, In (TNext x, TPanic) (snd r)) ->
  (forall o, match o with TNext _ => False | _ => True end -> snd (tdo it s0 o (fst r)) = TPanic) /\
  forall x, snd (tdo it s0 (TNext x) (fst r)) = TPanic \/ snd (tdo it s0 (TNext x) (fst r)) = TVoid.
Proof. exact (fun A S it s0 ops w H => conj (fun o Ho => @poison_stays A S it s0 ops w o H Ho) (fun x => @poison_next A S it s0 ops w x H)). Qed.
Print Assumptions C76_poison.
Example C76_poison_ex :
  let it := fun k : nat => (match k with 0 => IItem 5 | _ => IPanic end, S k) in
  snd (texec it 0 [TInto; TInto; TNext 0; TNext 0; TRead 0; TNext 1; TInto] fresh_tracked) =
  [(TInto, TMade); (TInto, TMade); (TNext 0, TGot (Some 5)); (TNext 0, TPanic); (TRead 0, TPanic); (TNext 1, TPanic); (TInto, TPanic)].
Proof. vm_compute. reflexivity. Qed.

(** A test of the iterator observable reads the truth: after whatever was done with the tracked iterator
    before, the loop of the observable does with it what it does with the plain one (C54); the count that
    is read is the number of items it has taken; if it is finished there was no further item, and if not the
    destination was closed; other iterations are not affected. *)
Theorem C76_observable : forall A X E (f : nat -> option A) (D : subscriber X A E) ops fuel d n d' e,
  let w0 := fst (texec (at_pos f) 0 ops fresh_tracked) in
  let x := begun (snd (texec (at_pos f) 0 ops fresh_tracked)) in
  iter_loop D fuel f 0 d = Some (n, d', e) -> exists w b,
    tracked_loop (at_pos f) D fuel x (fst (into_iter (A := A) 0 w0)) d = Some (w, d', e) /\
    read_next_count x w = TNum (A := A) n /\ is_finished x w = TBool (A := A) b /\
    (if b then f n = None else closed D d' = true) /\
    forall y, y <> x -> read_next_count y w = read_next_count (A := A) y w0 /\ is_finished y w = is_finished (A := A) y w0.
Proof. exact (fun A X E f D ops fuel d n d' e => @observable_tracked A f X E D ops fuel d n d' e). Qed.
Print Assumptions C76_observable.
(** Two are let through: of three items all are taken, and the end is not reached; of two items the end
    is reached. *)
Example C76_observable_ex :
  let D := head (PCons (OTake nat nat 2) PNil) in
  let try := fun l => match tracked_loop (at_pos (fun k => nth_error l k)) D 10 0 (fst (into_iter (A := nat) 0 fresh_tracked)) (s0 D) with
                      | Some (w, d, e) => Some (read_next_count (A := nat) 0 w, is_finished (A := nat) 0 w, e)
                      | None => None
                      end in
  try [7; 8; 9; 10] = Some (TNum 3, TBool false, [EObs (NNext 7); EObs (NNext 8); EObs NComplete]) /\
  try [7; 8] = Some (TNum 2, TBool true, [EObs (NNext 7); EObs (NNext 8); EObs NComplete]).
Proof. vm_compute. auto. Qed.
