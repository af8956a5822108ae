(** Proofs for TrackModel.v. *)
From Verif Require Import Base SubscrModel SourceModel TrackModel.
From Coq Require Import Lia.
Set Implicit Arguments.

Section Track.
Context {A S : Type}.
Variable it : S -> ires A * S.
Variable s0 : S.

(** The wrapped iterator on its own. *)
Fixpoint moved (n : nat) (s : S) : S := match n with 0 => s | Datatypes.S m => moved m (snd (it s)) end.
Definition nth_result (n : nat) : ires A := fst (it (moved n s0)).

(** What a history says. *)
Definition hist := list (top * tout A).
Definition got (x : nat) (h : hist) : list (option A) :=
  flat_map (fun e => match e with (TNext y, TGot r) => if x =? y then [r] else [] | _ => [] end) h.
Definition begun (h : hist) : nat := length (filter (fun e => match e with (TInto, TMade) => true | _ => false end) h).
Definition items (l : list (option A)) : nat := length (filter (fun r => match r with Some _ => true | None => false end) l).
Definition ended (l : list (option A)) : bool := existsb (fun r => match r with Some _ => false | None => true end) l.
Definition calm (h : hist) : Prop := forall x, ~ In (TNext x, TPanic) h.

Lemma moved_S : forall n s, moved (Datatypes.S n) s = snd (it (moved n s)).
Proof. induction n; intros; [reflexivity|]. change (moved (Datatypes.S (Datatypes.S n)) s) with (moved (Datatypes.S n) (snd (it s))). rewrite IHn. reflexivity. Qed.
Lemma got_app : forall x a b, got x (a ++ b) = got x a ++ got x b.
Proof. intros. apply flat_map_app. Qed.
Lemma begun_app : forall a b, begun (a ++ b) = begun a + begun b.
Proof. intros. unfold begun. rewrite filter_app, app_length. reflexivity. Qed.
Lemma items_app : forall a b, items (a ++ b) = items a + items b.
Proof. intros. unfold items. rewrite filter_app, app_length. reflexivity. Qed.
Lemma ended_app : forall a b, ended (a ++ b) = ended a || ended b.
Proof. intros. apply existsb_app. Qed.

Lemma get_put : forall m i j c, get_cell j (put_cell i c m) = if j =? i then Some c else get_cell j m.
Proof.
  induction m as [|[k d] m IH]; intros i j c; cbn; [destruct (j =? i); reflexivity|].
  destruct (Nat.eqb_spec i k) as [->|Hik]; cbn.
  - destruct (j =? k); reflexivity.
  - rewrite IH. destruct (Nat.eqb_spec j k) as [->|]; [|reflexivity]. destruct (Nat.eqb_spec k i); [congruence|reflexivity].
Qed.
Lemma put_at_length : forall T (l : list T) x a, length (put_at x a l) = length l.
Proof. induction l; intros [|x] b; cbn; auto. Qed.
Lemma nth_put_at : forall T (l : list T) x y a, x < length l -> nth_error (put_at x a l) y = if y =? x then Some a else nth_error l y.
Proof. induction l as [|b l IH]; intros [|x] [|y] a H; cbn in *; try lia; auto. apply IH. lia. Qed.

Definition inv (w : tracked S) (h : hist) : Prop :=
  poisoned w = false /\ next_instance_id w = begun h /\ length (iterations w) = begun h /\
  (forall x, x < begun h -> nth_error (iterations w) x = Some (x, moved (length (got x h)) s0)
                            /\ get_cell x (instances w) = Some (mkCell (items (got x h)) (ended (got x h)))) /\
  (forall x, begun h <= x -> get_cell x (instances w) = None /\ got x h = []).

Lemma inv0 : inv fresh_tracked [].
Proof. unfold inv. cbn. repeat (split; [reflexivity|]). split; [intros x Hx; lia|intros x _; split; reflexivity]. Qed.

Definition answer (o : top) (h : hist) : tout A :=
  match o with
  | TInto => TMade
  | TNext x => if x <? begun h then
                 match nth_result (length (got x h)) with IItem a => TGot (Some a) | IEnd => TGot None | IPanic => TPanic end
               else TVoid
  | TRead i => if i <? begun h then TNum (items (got i h)) else TPanic
  | TFin i => if i <? begun h then TBool (ended (got i h)) else TPanic
  end.

Lemma inv_answer : forall w h o, inv w h -> snd (tdo it s0 o w) = answer o h.
Proof.
  intros w h o (P & N & L & H1 & H2). destruct o as [|x|i|i]; cbn [tdo snd answer].
  - unfold into_iter. rewrite P. reflexivity.
  - unfold tnext. destruct (Nat.ltb_spec x (begun h)) as [Hx|Hx].
    + destruct (H1 x Hx) as [E C]. rewrite E, P. unfold nth_result. destruct (it (moved (length (got x h)) s0)) as [[a| |] s']; cbn [fst]; rewrite ?C; reflexivity.
    + assert (E : nth_error (iterations w) x = None) by (apply nth_error_None; lia). rewrite E. reflexivity.
  - unfold read_next_count. rewrite P. destruct (Nat.ltb_spec i (begun h)) as [Hx|Hx]; [destruct (H1 i Hx) as [_ C]|destruct (H2 i Hx) as [C _]]; rewrite C; reflexivity.
  - unfold is_finished. rewrite P. destruct (Nat.ltb_spec i (begun h)) as [Hx|Hx]; [destruct (H1 i Hx) as [_ C]|destruct (H2 i Hx) as [C _]]; rewrite C; reflexivity.
Qed.

Lemma inv_quiet : forall w h o a, inv w h -> (forall x, got x [(o, a)] = []) -> begun [(o, a)] = 0 -> inv w (h ++ [(o, a)]).
Proof.
  intros w h o a (P & N & L & H1 & H2) Hg Hb. unfold inv. rewrite begun_app, Hb, Nat.add_0_r.
  split; [exact P|]. split; [exact N|]. split; [exact L|].
  split; intros x Hx; rewrite got_app, Hg, app_nil_r; [apply H1|apply H2]; exact Hx.
Qed.

Lemma inv_step : forall w h o, inv w h -> (forall x, o = TNext x -> snd (tdo it s0 o w) <> TPanic) ->
  inv (fst (tdo it s0 o w)) (h ++ [(o, snd (tdo it s0 o w))]).
Proof.
  intros w h o I Hc. pose proof I as (P & N & L & H1 & H2). destruct o as [|x|i|i].
  - cbn [tdo]. unfold into_iter. rewrite P. cbn [fst snd]. unfold inv. rewrite begun_app. cbn [begun filter length poisoned next_instance_id iterations instances].
    assert (G : forall x, got x (h ++ [(TInto, TMade)]) = got x h) by (intros; rewrite got_app; cbn; apply app_nil_r).
    rewrite app_length, N, L. cbn [length]. split; [reflexivity|]. split; [lia|]. split; [lia|]. split; intros x Hx; rewrite !G, get_put.
    + destruct (Nat.eqb_spec x (begun h)) as [->|Hne].
      * rewrite nth_error_app2 by lia. rewrite L, Nat.sub_diag. destruct (H2 (begun h) (Nat.le_refl _)) as [_ E]. rewrite E. split; reflexivity.
      * rewrite nth_error_app1 by lia. apply H1. lia.
    + destruct (Nat.eqb_spec x (begun h)) as [->|Hne]; [lia|]. apply H2. lia.
  - cbn [tdo] in *. specialize (Hc x eq_refl). unfold tnext in *. destruct (Nat.lt_ge_cases x (begun h)) as [Hx|Hx].
    + destruct (H1 x Hx) as [E C]. rewrite E, P in *. destruct (it (moved (length (got x h)) s0)) as [r s'] eqn:Ei.
      assert (Es : s' = moved (Datatypes.S (length (got x h))) s0) by (rewrite moved_S, Ei; reflexivity).
      assert (K : forall c (q : option A), c = mkCell (items (got x h ++ [q])) (ended (got x h ++ [q])) ->
        inv (mkTracked (next_instance_id w) (put_cell x c (instances w)) (put_at x (x, s') (iterations w)) false) (h ++ [(TNext x, TGot q)])).
      { intros c q Hq. unfold inv. cbn [poisoned next_instance_id iterations instances]. rewrite begun_app. cbn [begun filter length]. rewrite Nat.add_0_r, put_at_length.
        split; [reflexivity|]. split; [exact N|]. split; [exact L|]. split; intros y Hy; rewrite got_app; cbn [got flat_map]; rewrite ?app_nil_r, get_put, ?nth_put_at by lia.
        - destruct (Nat.eqb_spec y x) as [->|Hne].
          + rewrite app_length. cbn [length]. rewrite Nat.add_1_r, <- Es, Hq. split; reflexivity.
          + rewrite app_nil_r. apply H1. exact Hy.
        - destruct (Nat.eqb_spec y x) as [->|Hne]; [lia|]. rewrite app_nil_r. apply H2. exact Hy. }
      destruct r as [a| |]; rewrite ?C in *; cbn [fst snd] in *; [| |congruence]; apply K; rewrite items_app, ended_app; cbn; rewrite ?orb_false_r, ?orb_true_r, ?Nat.add_1_r, ?Nat.add_0_r; reflexivity.
    + assert (E : nth_error (iterations w) x = None) by (apply nth_error_None; lia). rewrite E. cbn [fst snd]. apply inv_quiet; auto.
  - apply inv_quiet; auto.
  - apply inv_quiet; auto.
Qed.

Lemma texec_snoc : forall ops o w, texec it s0 (ops ++ [o]) w =
  (fst (tdo it s0 o (fst (texec it s0 ops w))), snd (texec it s0 ops w) ++ [(o, snd (tdo it s0 o (fst (texec it s0 ops w))))]).
Proof.
  induction ops as [|p ops IH]; intros o w; cbn [texec app fst snd]; [destruct (tdo it s0 o w); reflexivity|].
  destruct (tdo it s0 p w) as [w1 a]. rewrite IH. destruct (texec it s0 ops w1). reflexivity.
Qed.
Lemma calm_app : forall a b, calm (a ++ b) -> calm a /\ calm b.
Proof. intros a b H. split; intros x Hx; apply (H x), in_or_app; auto. Qed.

Theorem texec_inv : forall ops, calm (snd (texec it s0 ops fresh_tracked)) ->
  inv (fst (texec it s0 ops fresh_tracked)) (snd (texec it s0 ops fresh_tracked)).
Proof.
  induction ops as [|o ops IH] using rev_ind; intros H; [exact inv0|]. rewrite texec_snoc in *. cbn [fst snd] in *.
  destruct (calm_app _ _ H) as [Ha Hb]. apply inv_step; [exact (IH Ha)|]. intros x -> Hp. apply (Hb x). rewrite Hp. left. reflexivity.
Qed.

Theorem answers : forall ops o, let r := texec it s0 ops fresh_tracked in calm (snd r) ->
  snd (tdo it s0 o (fst r)) = answer o (snd r).
Proof. intros ops o r H. apply inv_answer, texec_inv, H. Qed.

(** After a panic of an iterator. *)
Lemma poison_step : forall w o, poisoned w = true -> poisoned (fst (tdo it s0 o w)) = true /\ length (iterations (fst (tdo it s0 o w))) = length (iterations w) /\
  snd (tdo it s0 o w) = match o with TNext x => if x <? length (iterations w) then TPanic else TVoid | _ => TPanic end.
Proof.
  intros w o P. destruct o as [|x|i|i]; cbn [tdo]; unfold into_iter, read_next_count, is_finished; rewrite ?P; cbn [fst snd]; auto.
  unfold tnext. destruct (Nat.ltb_spec x (length (iterations w))) as [Hx|Hx].
  - destruct (nth_error (iterations w) x) as [[i s]|] eqn:E; [|apply nth_error_None in E; lia]. rewrite P. auto.
  - apply nth_error_None in Hx. rewrite Hx. auto.
Qed.
Lemma next_panic_poisons : forall w x, snd (tdo it s0 (TNext x) w) = TPanic -> poisoned (fst (tdo it s0 (TNext x) w)) = true.
Proof.
  intros w x. cbn [tdo]. unfold tnext. destruct (nth_error (iterations w) x) as [[i s]|]; [|discriminate].
  destruct (poisoned w) eqn:P; [auto|]. destruct (it s) as [[a| |] s']; [destruct (get_cell i (instances w))|destruct (get_cell i (instances w))|]; cbn; congruence.
Qed.
Theorem poison_stays : forall ops w o, let r := texec it s0 ops w in (exists x, In (TNext x, TPanic) (snd r)) ->
  match o with TNext x => False | _ => True end -> snd (tdo it s0 o (fst r)) = TPanic.
Proof.
  intros ops w o r [x Hx] Ho. subst r.
  assert (P : poisoned (fst (texec it s0 ops w)) = true).
  { revert Hx. induction ops as [|p ops IH] using rev_ind; intros Hx; [destruct Hx|]. rewrite texec_snoc in *. cbn [fst snd] in *.
    apply in_app_or in Hx. destruct Hx as [Hx|[Hx|[]]]; [apply poison_step, IH, Hx|]. injection Hx as -> Hp. apply next_panic_poisons, Hp. }
  destruct (poison_step _ o P) as (_ & _ & E). rewrite E. destruct o; auto. destruct Ho.
Qed.
Theorem poison_next : forall ops w x, let r := texec it s0 ops w in (exists x, In (TNext x, TPanic) (snd r)) ->
  snd (tdo it s0 (TNext x) (fst r)) = TPanic \/ snd (tdo it s0 (TNext x) (fst r)) = TVoid.
Proof.
  intros ops w x r [y Hx]. subst r.
  assert (P : poisoned (fst (texec it s0 ops w)) = true).
  { revert Hx. induction ops as [|p ops IH] using rev_ind; intros Hx; [destruct Hx|]. rewrite texec_snoc in *. cbn [fst snd] in *.
    apply in_app_or in Hx. destruct Hx as [Hx|[Hx|[]]]; [apply poison_step, IH, Hx|]. injection Hx as -> Hp. apply next_panic_poisons, Hp. }
  destruct (poison_step _ (TNext x) P) as (_ & _ & E). rewrite E. destruct (x <? _); auto.
Qed.
End Track.

(** *** The iterator observable on a tracked iterator. *)
Section Loop.
Context {A : Type}.
Variable f : nat -> option A.
Definition at_pos (k : nat) : ires A * nat := (match f k with Some a => IItem a | None => IEnd end, S k).
Lemma moved_pos : forall n k, moved at_pos n k = k + n.
Proof. induction n; intros k; cbn; [lia|]. rewrite IHn. lia. Qed.
Context {X E : Type}.
Variable D : subscriber X A E.

Lemma loop_tracked : forall fuel x w h k d, inv at_pos 0 w h -> x < begun h -> length (got x h) = k -> items (got x h) = k -> ended (got x h) = false ->
  forall n d' e, iter_loop D fuel f k d = Some (n, d', e) -> exists w' g,
    tracked_loop at_pos D fuel x w d = Some (w', d', e) /\ inv at_pos 0 w' (h ++ g) /\
    (forall y, y <> x -> got y g = []) /\ begun g = 0 /\ items (got x (h ++ g)) = n /\
    if ended (got x (h ++ g)) then f n = None else closed D d' = true.
Proof.
  induction fuel as [|fuel IH]; intros x w h k d I Hx Hl Hi He n d' e Hr; cbn [iter_loop tracked_loop] in *; [discriminate|].
  pose proof (inv_answer (TNext x) I) as Ha. cbn [answer tdo] in Ha. apply Nat.ltb_lt in Hx. rewrite Hx in Ha. apply Nat.ltb_lt in Hx.
  unfold nth_result in Ha. rewrite moved_pos, Hl in Ha. cbn [at_pos fst] in Ha. change (0 + k) with k in Ha.
  pose proof (inv_step (o := TNext x) I) as Hs. cbn [tdo] in Hs.
  destruct (tnext at_pos x w) as [w1 o]. cbn [fst snd] in *. subst o.
  destruct (f k) as [a|] eqn:Ef.
  - specialize (Hs ltac:(intros; discriminate)).
    assert (G : got x (h ++ [(TNext x, TGot (Some a))]) = got x h ++ [Some a]) by (rewrite got_app; cbn; rewrite Nat.eqb_refl; reflexivity).
    destruct (closed D d) eqn:Ec.
    + injection Hr as <- <- <-. exists w1, [(TNext x, TGot (Some a))]. split; [reflexivity|]. split; [exact Hs|]. split.
      * intros y Hy. cbn. apply Nat.eqb_neq in Hy. rewrite Hy. reflexivity.
      * split; [reflexivity|]. rewrite G, items_app, ended_app, Hi, He. cbn. split; [lia|exact Ec].
    + destruct (step D d (CN (Nxt a))) as [d1 e1]. destruct (iter_loop D fuel f (S k) d1) as [[[n2 d2] e2]|] eqn:Er; [|discriminate].
      injection Hr as <- <- <-.
      edestruct (IH x w1 (h ++ [(TNext x, TGot (Some a))]) (S k) d1 Hs) as (w' & g & R1 & R2 & R3 & R4 & R5); [| | | |exact Er|].
      * rewrite begun_app. cbn. lia.
      * rewrite G, app_length. cbn. lia.
      * rewrite G, items_app. cbn. lia.
      * rewrite G, ended_app, He. reflexivity.
      * exists w', ([(TNext x, TGot (Some a))] ++ g). rewrite R1. split; [reflexivity|]. rewrite !app_assoc. split; [exact R2|]. split; [|split; [exact R4|exact R5]].
        intros y Hy. rewrite got_app, (R3 y Hy). cbn. apply Nat.eqb_neq in Hy. rewrite Hy. reflexivity.
  - specialize (Hs ltac:(intros; discriminate)). injection Hr as <- <- <-. exists w1, [(TNext x, TGot None)]. split; [reflexivity|]. split; [exact Hs|]. split.
    + intros y Hy. cbn. apply Nat.eqb_neq in Hy. rewrite Hy. reflexivity.
    + split; [reflexivity|]. rewrite got_app. cbn. rewrite Nat.eqb_refl, items_app, ended_app, Hi, He. cbn. split; [lia|exact Ef].
Qed.

Lemma calm_pos : forall ops, calm (snd (texec at_pos 0 ops fresh_tracked)).
Proof.
  induction ops as [|o ops IH] using rev_ind; [exact (fun _ H => H)|]. rewrite texec_snoc. cbn [snd]. intros z Hz.
  apply in_app_or in Hz. destruct Hz as [Hz|[Hz|[]]]; [exact (IH z Hz)|]. injection Hz as -> Hz.
  pose proof (answers at_pos 0 ops (TNext z) IH) as Ha. rewrite Hz in Ha. cbn [answer] in Ha.
  destruct (z <? _); [|discriminate]. unfold nth_result in Ha. cbn in Ha. destruct (f _); discriminate.
Qed.

(** What a test reads after it has subscribed: [ops] is what it did before. *)
Theorem observable_tracked : forall ops fuel d n d' e, let r := texec at_pos 0 ops fresh_tracked in
  let x := begun (snd r) in
  iter_loop D fuel f 0 d = Some (n, d', e) -> exists w b,
    tracked_loop at_pos D fuel x (fst (into_iter (A := A) 0 (fst r))) d = Some (w, d', e) /\
    read_next_count x w = TNum (A := A) n /\ is_finished x w = TBool (A := A) b /\
    (if b then f n = None else closed D d' = true) /\
    forall y, y <> x -> read_next_count y w = read_next_count (A := A) y (fst r) /\ is_finished y w = is_finished (A := A) y (fst r).
Proof.
  intros ops fuel d n d' e r x Hr.
  pose proof (calm_pos ops) as C.
  pose proof (texec_inv at_pos 0 ops C) as I. fold r in I.
  pose proof (inv_step (o := TInto) I ltac:(intros; discriminate)) as I1. cbn [tdo] in I1.
  pose proof (inv_answer TInto I) as M. cbn [tdo answer] in M. rewrite M in I1.
  pose proof I as (_ & _ & _ & _ & H2). destruct (H2 x (Nat.le_refl _)) as [_ Hg].
  assert (G : forall y, got y (snd r ++ [(TInto, TMade)]) = got y (snd r)) by (intros; rewrite got_app; cbn; apply app_nil_r).
  edestruct (loop_tracked fuel (x := x) (k := 0) d I1) as (w & g & R1 & R2 & R3 & R4 & R5 & R6); [| | | |exact Hr|].
  - rewrite begun_app. unfold x. cbn. lia.
  - rewrite G, Hg. reflexivity.
  - rewrite G, Hg. reflexivity.
  - rewrite G, Hg. reflexivity.
  - exists w, (ended (got x ((snd r ++ [(TInto, TMade)]) ++ g))). split; [exact R1|].
    pose proof (inv_answer (TRead x) R2) as Q1. pose proof (inv_answer (TFin x) R2) as Q2. cbn [tdo snd answer] in Q1, Q2.
    assert (B : begun ((snd r ++ [(TInto, TMade)]) ++ g) = S x) by (rewrite !begun_app, R4; unfold x; cbn; lia).
    rewrite B in Q1, Q2. assert (L : x <? S x = true) by (apply Nat.ltb_lt; lia). rewrite L in Q1, Q2. rewrite Q1, Q2, R5.
    split; [reflexivity|]. split; [reflexivity|]. split; [exact R6|]. intros y Hy.
    pose proof (inv_answer (TRead y) R2) as P1. pose proof (inv_answer (TFin y) R2) as P2. pose proof (inv_answer (TRead y) I) as P3. pose proof (inv_answer (TFin y) I) as P4.
    cbn [tdo snd answer] in *. rewrite P1, P2, P3, P4, B, !got_app, (R3 y Hy), app_nil_r. fold (got y [(TInto, TMade (A := A))]). cbn [got flat_map]. rewrite !app_nil_r.
    change (begun (snd r)) with x. assert (Ly : (y <? S x) = (y <? x)) by (destruct (Nat.ltb_spec y (S x)), (Nat.ltb_spec y x); lia || reflexivity).
    rewrite Ly. split; reflexivity.
Qed.
End Loop.
