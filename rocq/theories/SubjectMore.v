(** From the view of the calls on the publish subject to the calls of the users. *)
From Coq Require Import Permutation.
From Verif Require Import Base SubjectModel SubjectSpec SubjectProofs.
Set Implicit Arguments.

(** ** The view in closed form *)
Section ViewForm.
Context {A E : Type}.
Implicit Types (cs : list (cmd A E)) (us : list (ucmd A E)).

Definition shape (c : cmd A E) : ucmd A E :=
  match c with
  | KNext a => UNext a | KErr e => UErr e | KCmp => UCmp | KUns => UUns
  | KSub _ => USub | KOff i => UOff i
  end.

Lemma subs_app : forall us1 us2, subs_of (us1 ++ us2) = subs_of us1 + subs_of us2.
Proof. induction us1 as [|[] us1 IH]; intros; cbn; auto. Qed.

Lemma pushed_app : forall us1 us2, pushed (us1 ++ us2) = pushed us1 ++ pushed us2.
Proof. induction us1 as [|[] us1 IH]; intros; cbn; rewrite ?IH; auto. Qed.

Lemma first_end_app : forall cs c, first_end (cs ++ [c]) =
  match first_end cs with Some x => Some x | None => end_of c end.
Proof. intros. unfold first_end. rewrite fold_left_app. cbn. destruct (fold_left _ _ _); auto. Qed.

Lemma finish_app : forall us u, finish_of (us ++ [u]) =
  match finish_of us with Some x => Some x | None => finish_of [u] end.
Proof. induction us as [|[] us IH]; intros; cbn; auto; apply IH. Qed.

Lemma first_end_shape : forall cs, finish_of (map shape cs) =
  match first_end cs with Some x => Some (last_words x) | None => None end.
Proof.
  induction cs as [|c cs IH] using rev_ind; auto.
  rewrite map_app. cbn [map]. rewrite finish_app, first_end_app, IH.
  destruct (first_end cs); auto. destruct c; auto.
Qed.

Lemma view_subs : forall q i cs, vw_subs (view_of q i cs) = subs_of (map shape cs).
Proof.
  intros q i cs. induction cs as [|c cs IH] using rev_ind; auto.
  rewrite view_of_app, map_app, subs_app, <- IH.
  destruct (view_of q i cs) as [n x l t]. cbn.
  destruct c; cbn; unfold finish; cbn; try lia.
  - destruct l; cbn; lia.
  - destruct x; cbn; lia.
  - destruct x; cbn; lia.
  - destruct x; cbn; lia.
  - destruct (n =? i); [destruct x|]; cbn; lia.
  - destruct (i0 =? i), l; cbn; lia.
Qed.

Lemma view_early : forall q i cs, subs_of (map shape cs) <= i ->
  vw_live (view_of q i cs) = false /\ vw_told (view_of q i cs) = [].
Proof.
  intros q i cs. induction cs as [|c cs IH] using rev_ind; intros H; auto.
  pose proof (view_subs q i cs) as Hs.
  rewrite map_app, subs_app in H. destruct IH as [H1 H2]; [lia|].
  rewrite view_of_app. unfold view_step, finish. rewrite H1, H2, Hs.
  destruct c; cbn in H |- *; auto.
  - destruct (vw_end _); auto.
  - destruct (vw_end _); auto.
  - destruct (vw_end _); auto.
  - replace (subs_of (map shape cs) =? i) with false; auto. symmetry. apply Nat.eqb_neq. lia.
  - rewrite andb_false_r. auto.
Qed.

Lemma given_gone : forall q (r : list A) (h : list (sev A E)),
  fold_left (fun (p : list (sev A E) * bool) a => if snd p then (fst p ++ [SN a], negb (q (fst p ++ [SN a]))) else p)
    r (h, false) = (h, false).
Proof. induction r; intros; cbn; auto. Qed.

Lemma given_upto : forall q r (h rest : list (sev A E)),
  let g := given q h r in
  h ++ upto q h (map SN r ++ rest) =
  fst g ++ (if snd g then upto q (fst g) rest else []).
Proof.
  induction r as [|a r IH]; intros h rest; cbn; auto.
  unfold given in *. cbn. destruct (q (h ++ [SN a])); cbn.
  - rewrite given_gone. cbn. rewrite app_nil_r. auto.
  - specialize (IH (h ++ [SN a]) rest). cbn in IH. rewrite <- IH, <- app_assoc. auto.
Qed.

Lemma view_dead : forall q i cs v, vw_live v = false -> i < vw_subs v ->
  vw_told (fold_left (view_step q i) cs v) = vw_told v.
Proof.
  induction cs as [|c cs IH]; cbn; intros v H1 H2; auto.
  assert (X : vw_live (view_step q i v c) = false /\ vw_told (view_step q i v c) = vw_told v /\
              i < vw_subs (view_step q i v c)).
  { destruct v as [n x l t]; cbn in *; subst. destruct c; cbn; unfold finish; cbn; auto.
    - destruct x; auto.
    - destruct x; auto.
    - destruct x; auto.
    - replace (n =? i) with false; [cbn; auto|]. symmetry. apply Nat.eqb_neq. lia.
    - rewrite andb_false_r. auto. }
  destruct X as (X1 & X2 & X3). rewrite IH; auto.
Qed.

Lemma view_alive : forall q i cs v, vw_live v = true -> vw_end v = None -> i < vw_subs v ->
  vw_told (fold_left (view_step q i) cs v) =
  vw_told v ++ upto q (vw_told v) (told_after i (map shape cs)).
Proof.
  induction cs as [|c cs IH]; cbn [fold_left map told_after]; intros v H1 H2 H3.
  - cbn. rewrite app_nil_r. auto.
  - destruct v as [n x l t]; cbn in *; subst. destruct c; cbn [shape told_after].
    + cbn. destruct (q (t ++ [SN a])) eqn:Hq; cbn.
      * rewrite view_dead; auto.
      * rewrite IH; cbn; auto. rewrite <- app_assoc. auto.
    + cbn. rewrite view_dead; auto.
    + cbn. rewrite view_dead; auto.
    + cbn. rewrite view_dead; auto.
    + cbn. replace (n =? i) with false; [rewrite IH; cbn; auto|].
      symmetry. apply Nat.eqb_neq. lia.
    + cbn. destruct (i0 =? i) eqn:Hi; cbn.
      * rewrite view_dead; auto.
      * rewrite IH; auto.
Qed.

Theorem view_closed_form : forall q i cs1 r cs2, subs_of (map shape cs1) = i ->
  vw_told (view_of q i (cs1 ++ KSub r :: cs2)) =
  upto q [] (map SN r ++ told_late i (map shape cs1) (map shape cs2)).
Proof.
  intros q i cs1 r cs2 Hi. unfold view_of. rewrite fold_left_app. fold (view_of q i cs1).
  destruct (@view_early q i cs1) as [H1 H2]; [lia|].
  pose proof (view_subs q i cs1) as H3. pose proof (view_end q i cs1) as H4.
  unfold told_late. rewrite first_end_shape.
  pose proof (@given_upto q r []) as G. cbn [app] in G. cbn zeta in G. rewrite G.
  cbn [fold_left]. unfold view_step at 2. rewrite H3, Hi, Nat.eqb_refl, H2, H4.
  destruct (given q [] r) as [t l]. cbn [fst snd].
  destruct (first_end cs1) as [x|].
  - rewrite view_dead; cbn; auto. destruct l; cbn; [|rewrite app_nil_r; auto].
    destruct x; auto.
  - destruct l.
    + rewrite view_alive; cbn; auto.
    + rewrite view_dead; cbn; auto. rewrite app_nil_r. auto.
Qed.

End ViewForm.

(** ** Policies *)
Section Policies.
Context {A E : Type}.

Lemma polite_plain : polite (@plain A E).
Proof. intros x c e []; cbn; eauto; left; intros j [H|[]]; discriminate. Qed.
Lemma polite_behavior : forall v, polite (@behavior A E v).
Proof. intros v x c e []; cbn; eauto; left; intros j [H|[]]; discriminate. Qed.
Lemma polite_replay : forall n, polite (@replay A E n).
Proof. intros n x c e []; cbn; eauto; left; intros j [H|[]]; discriminate. Qed.
Lemma polite_async : forall f, polite (@async A E f).
Proof.
  intros f x c e []; cbn; eauto; left; intros j H; cbn in H; try (intuition discriminate).
  apply in_app_iff in H. cbn in H. destruct x; cbn in H; intuition discriminate.
Qed.

(** one call for each call, of the same kind *)
Definition faithful (P : policy A E) : Prop := forall x c e u,
  exists k, po_calls P x c e u = [k] /\ shape k = u.

Lemma faithful_plain : faithful (@plain A E).
Proof. intros x c e []; cbn; eauto. Qed.
Lemma faithful_behavior : forall v, faithful (@behavior A E v).
Proof. intros v x c e []; cbn; eauto. Qed.
Lemma faithful_replay : forall n, faithful (@replay A E n).
Proof. intros n x c e []; cbn; eauto. Qed.

Lemma faithful_single : forall P, faithful P -> single P.
Proof. intros P H x c e u. destruct (H x c e u) as (k & Hk & _). eauto. Qed.

Lemma expand_app : forall (P : policy A E) us1 us2,
  expand P (us1 ++ us2) = fold_left (@expand_step A E P) us2 (expand P us1).
Proof. intros. unfold expand. apply fold_left_app. Qed.

Lemma expand_more : forall (P : policy A E) us p, exists cs,
  snd (fold_left (@expand_step A E P) us p) = snd p ++ cs.
Proof.
  induction us as [|u us IH]; intros p; cbn.
  - exists []. rewrite app_nil_r. auto.
  - destruct (IH (expand_step P p u)) as [cs ->]. cbn. rewrite <- app_assoc. eauto.
Qed.

Lemma shape_more : forall (P : policy A E), faithful P -> forall us p,
  map shape (snd (fold_left (@expand_step A E P) us p)) = map shape (snd p) ++ us.
Proof.
  intros P HP. induction us as [|u us IH]; intros p; cbn.
  - rewrite app_nil_r. auto.
  - rewrite IH. cbn. rewrite map_app.
    destruct (HP (po_keep P (fst p) u) (finished (snd p)) (failed (snd p)) u) as (k & -> & Hk).
    cbn. rewrite Hk, <- app_assoc. auto.
Qed.

Lemma shape_expand : forall (P : policy A E), faithful P -> forall us,
  map shape (snd (expand P us)) = us.
Proof. intros P HP us. unfold expand. rewrite shape_more; auto. Qed.

(** the replayed values *)
Definition replayed (P : policy A E) us : list A :=
  match po_calls P (po_keep P (fst (expand P us)) USub) (finished (snd (expand P us)))
          (failed (snd (expand P us))) USub with
  | [KSub r] => r
  | _ => []
  end.

Lemma expand_split : forall (P : policy A E), faithful P -> forall us1 us2, exists cs,
  snd (expand P (us1 ++ USub :: us2)) =
    snd (expand P us1) ++ KSub (replayed P us1) :: cs /\ map shape cs = us2.
Proof.
  intros P HP us1 us2. rewrite expand_app. cbn [fold_left].
  pose proof (@shape_more P HP us2 (expand_step P (expand P us1) USub)) as Hs.
  destruct (@expand_more P us2 (expand_step P (expand P us1) USub)) as [cs Hc].
  exists cs. rewrite Hc in *. rewrite map_app in Hs. apply app_inv_head in Hs. split; auto.
  unfold replayed. cbn.
  destruct (HP (po_keep P (fst (expand P us1)) USub) (finished (snd (expand P us1)))
    (failed (snd (expand P us1))) USub) as (k & -> & Hk).
  destruct k; try discriminate. rewrite <- app_assoc. auto.
Qed.

Theorem view_faithful : forall (P : policy A E), faithful P -> forall q us1 us2,
  vw_told (view_of q (subs_of us1) (snd (expand P (us1 ++ USub :: us2)))) =
  upto q [] (map SN (replayed P us1) ++ told_late (subs_of us1) us1 us2).
Proof.
  intros P HP q us1 us2. destruct (@expand_split P HP us1 us2) as (cs & -> & Hc).
  rewrite view_closed_form; rewrite (shape_expand HP); auto. rewrite Hc. auto.
Qed.

Theorem view_faithful_early : forall (P : policy A E), faithful P -> forall q i us,
  subs_of us <= i -> vw_told (view_of q i (snd (expand P us))) = [].
Proof. intros P HP q i us H. apply view_early. rewrite shape_expand; auto. Qed.

Lemma replayed_plain : forall us, replayed (@plain A E) us = [].
Proof. reflexivity. Qed.

Lemma failed_shape : forall cs : list (cmd A E), failed cs = errored (map shape cs).
Proof.
  intros cs. unfold failed, errored. rewrite first_end_shape.
  destruct (first_end cs) as [[]|]; auto.
Qed.

Lemma finished_shape : forall cs : list (cmd A E), finished cs = some (finish_of (map shape cs)).
Proof.
  intros cs. unfold finished. rewrite first_end_shape.
  destruct (first_end cs) as [[]|]; auto.
Qed.

Lemma store_behavior : forall v us, fst (expand (@behavior A E v) us) = last (pushed us) v.
Proof.
  intros v us. induction us as [|u us IH] using rev_ind; auto.
  rewrite expand_app, pushed_app. destruct u; cbn; rewrite ?app_nil_r; auto.
  symmetry. apply last_last.
Qed.

Lemma replayed_behavior : forall v us, replayed (@behavior A E v) us =
  if errored us then [] else [last (pushed us) v].
Proof.
  intros v us. unfold replayed. cbn [po_calls behavior po_keep].
  rewrite failed_shape, (shape_expand (@faithful_behavior v)), store_behavior. auto.
Qed.

Lemma skipn_skipn' : forall x y (l : list A), skipn x (skipn y l) = skipn (y + x) l.
Proof.
  induction y as [|y IH]; intros l; auto. destruct l; cbn; [destruct x; auto|apply IH].
Qed.

Lemma lastn_app : forall n (l : list A) a, lastn n (lastn n l ++ [a]) = lastn n (l ++ [a]).
Proof.
  intros n l a. unfold lastn. rewrite !app_length, skipn_length. cbn [length].
  rewrite !skipn_app, skipn_length.
  replace (length l - (length l - n) + 1 - n - (length l - (length l - n)))
    with (length l + 1 - n - length l) by lia.
  f_equal. destruct (le_lt_dec (length l) n) as [H|H].
  - replace (length l - n) with 0 by lia. cbn [skipn].
    replace (length l - 0 + 1 - n) with (length l + 1 - n) by lia. auto.
  - rewrite skipn_skipn'. f_equal. lia.
Qed.

Lemma store_replay : forall n us, fst (expand (@replay A E n) us) = lastn n (pushed us).
Proof.
  intros n us. induction us as [|u us IH] using rev_ind.
  - cbn. unfold lastn. cbn. auto.
  - rewrite expand_app, pushed_app. destruct u; cbn [pushed]; rewrite ?app_nil_r; auto.
    cbn. cbn in IH. rewrite IH. apply lastn_app.
Qed.

Lemma replayed_replay : forall n us, replayed (@replay A E n) us =
  if errored us then [] else lastn n (pushed us).
Proof.
  intros n us. unfold replayed. cbn [po_calls replay po_keep].
  rewrite failed_shape, (shape_expand (@faithful_replay n)), store_replay. auto.
Qed.

End Policies.

(** ** The async subject *)
Section Async.
Context {A E : Type}.
Context (f : A -> A -> A).
Notation P := (@async A E f).

Fixpoint calls_from (p : option A * list (cmd A E)) (us : list (ucmd A E)) : list (cmd A E) :=
  match us with
  | [] => []
  | u :: us' => po_calls P (po_keep P (fst p) u) (finished (snd p)) (failed (snd p)) u
                ++ calls_from (expand_step P p u) us'
  end.

Lemma expand_calls : forall us p,
  snd (fold_left (@expand_step A E P) us p) = snd p ++ calls_from p us.
Proof.
  induction us as [|u us IH]; intros p.
  - cbn. rewrite app_nil_r. auto.
  - cbn [fold_left calls_from]. rewrite IH. unfold expand_step at 1. cbn [snd fst]. rewrite <- app_assoc. auto.
Qed.

Lemma reduced_app : forall vs a, reduced f (vs ++ [a]) =
  [match reduced f vs with c :: _ => f c a | [] => a end].
Proof. intros [|v vs] a; cbn; auto. rewrite fold_left_app. auto. Qed.

Lemma keep_async : forall x vs a, opt_list x = reduced f vs ->
  opt_list (po_keep P x (UNext a)) = reduced f (vs ++ [a]).
Proof. intros x vs a H. rewrite reduced_app, <- H. destruct x; auto. Qed.

Lemma store_async : forall us, opt_list (fst (expand P us)) = reduced f (pushed us).
Proof.
  intros us. induction us as [|u us IH] using rev_ind; auto.
  rewrite expand_app, pushed_app. cbn [fold_left]. unfold expand_step. cbn [fst].
  destruct u; cbn [pushed]; rewrite ?app_nil_r; auto. apply keep_async; auto.
Qed.

Lemma subs_values : forall vs : list A, subs_of (map shape (map (@KNext A E) vs)) = 0.
Proof. induction vs; cbn; auto. Qed.

Lemma subs_async : forall us, subs_of (map shape (snd (expand P us))) = subs_of us.
Proof.
  intros us. induction us as [|u us IH] using rev_ind; auto.
  rewrite expand_app, subs_app. cbn [fold_left]. unfold expand_step. cbn [snd].
  rewrite map_app, subs_app, IH. f_equal. destruct u; auto.
  cbn [po_calls async]. rewrite map_app, subs_app, subs_values. auto.
Qed.

Lemma finish_app' : forall us1 us2 : list (ucmd A E), finish_of (us1 ++ us2) =
  match finish_of us1 with Some x => Some x | None => finish_of us2 end.
Proof. induction us1 as [|[] us1 IH]; intros; cbn; auto; apply IH. Qed.

Lemma finish_async : forall us, finish_of (map shape (snd (expand P us))) = finish_of us.
Proof.
  intros us. induction us as [|u us IH] using rev_ind; auto.
  rewrite expand_app, finish_app. cbn [fold_left]. unfold expand_step. cbn [snd].
  rewrite map_app, finish_app', IH. destruct (finish_of us); auto.
  destruct u; auto. cbn [po_calls async]. destruct (po_keep P (fst (expand P us)) UCmp); auto.
Qed.

Lemma told_values : forall i (vs : list A) (cs : list (cmd A E)),
  told_after i (map shape (map KNext vs ++ cs)) = map SN vs ++ told_after i (map shape cs).
Proof. induction vs; intros; cbn; [|f_equal]; auto. Qed.

Lemma told_calls : forall i us p vs, opt_list (fst p) = reduced f vs ->
  told_after i (map shape (calls_from p us)) = told_async f i vs us.
Proof.
  intros i. induction us as [|u us IH]; intros p vs H; auto.
  cbn [calls_from]. destruct u; cbn [told_async].
  - cbn [po_calls async app]. apply IH. apply (@keep_async _ _ a H).
  - cbn. auto.
  - cbn [po_calls async po_keep]. rewrite H, <- app_assoc, told_values. auto.
  - cbn. auto.
  - cbn [po_calls async app map shape told_after]. apply IH. auto.
  - cbn [po_calls async app map shape told_after]. rewrite (IH _ vs); auto.
Qed.

Theorem view_async : forall q us1 us2,
  vw_told (view_of q (subs_of us1) (snd (expand P (us1 ++ USub :: us2)))) =
  upto q [] (match finish_of us1 with
             | None => told_async f (subs_of us1) (pushed us1) us2
             | Some (SE e) => [SE e]
             | Some x => map SN (reduced f (pushed us1)) ++ [x]
             end).
Proof.
  intros q us1 us2. rewrite expand_app. cbn [fold_left]. rewrite expand_calls.
  unfold expand_step at 1. cbn [snd].
  assert (Hr : po_calls P (po_keep P (fst (expand P us1)) USub) (finished (snd (expand P us1)))
                 (failed (snd (expand P us1))) USub
               = [KSub (if finished (snd (expand P us1)) && negb (failed (snd (expand P us1)))
                        then reduced f (pushed us1) else [])]).
  { rewrite <- store_async. auto. }
  rewrite Hr, <- app_assoc. cbn [app].
  rewrite finished_shape, failed_shape, finish_async in *. unfold errored. rewrite finish_async.
  rewrite view_closed_form by apply subs_async. unfold told_late. rewrite finish_async.
  destruct (finish_of us1) as [[]|]; cbn [some andb negb map app]; auto.
  rewrite (@told_calls _ _ _ (pushed us1)); auto.
  unfold expand_step. cbn [fst]. apply store_async.
Qed.

Theorem view_async_early : forall q i us,
  subs_of us <= i -> vw_told (view_of q i (snd (expand P us))) = [].
Proof. intros q i us H. apply view_early. rewrite subs_async. auto. Qed.

End Async.

(** ** Subscribers whose teardown, or no part at all, calls the subject *)
Section Calm.
Context {A E : Type}.
Context (prog : nat -> list (sev A E) -> list (ucmd A E) * bool).
Context (ord : nat -> list nat -> list nat).
Context (ord_perm : forall k l, Permutation l (ord k l)).
Context (P : policy A E).
Notation subject := (subject A E (po_store P)).
Implicit Types s : subject.

Notation calm := (@calm A E prog).
Notation quiet := (@quiet A E prog).

Lemma quiet_calm : quiet -> calm.
Proof. intros H i h. apply H. Qed.

Lemma off_queue : calm -> forall s j, sj_queue s = [] ->
  sj_queue (outer_call prog ord P s (KOff j)) = [].
Proof.
  intros Hc s j Hq. unfold outer_call. destruct (running s) eqn:Hr; auto. cbn zeta.
  destruct (_ || _); auto.
  rewrite queue_nil by auto. change (running (with_taken (with_made s (KOff j)) j)) with (running s).
  rewrite Hr. cbn [mapply]. destruct (existsb _ _); auto.
  unfold tell. destruct (_ && _); auto. rewrite Hc. auto.
Qed.

Lemma user_queue : calm -> polite P -> forall s u, Q prog P s [] [] -> sj_queue s = [] ->
  running (outer_user prog ord P s u) = true -> sj_queue (outer_user prog ord P s u) = [].
Proof.
  intros Hc Hp s u H Hq Hr. destruct (@Q_user _ _ prog ord ord_perm P s u Hp H Hq Hr) as [_ H2].
  destruct (Hp (po_keep P (sj_store s) u) (sj_closed s) (some (sj_err s)) u) as [Hn|[i Hi]]; auto.
  unfold outer_user in *. destruct (running s); auto. cbn zeta. fold (some (sj_err s)).
  rewrite Hi. cbn [fold_left]. apply off_queue; auto.
Qed.

Lemma calm_settles' : calm -> polite P -> forall us s, Q prog P s [] [] -> sj_queue s = [] ->
  running (outer_users prog ord P s us) = true -> settles prog ord P s us.
Proof.
  intros Hc Hp. induction us as [|u us IH]; intros s H Hq Hr; cbn; auto.
  cbn in Hr. pose proof (@outer_users_running _ _ prog ord P us _ Hr) as Hr1.
  pose proof (@user_queue Hc Hp s u H Hq Hr1) as Hq1. split; auto.
  apply IH; auto. apply (@Q_user _ _ prog ord ord_perm P s u Hp H Hq Hr1).
Qed.

Theorem calm_settles : calm -> polite P -> forall us,
  running (outer_users prog ord P (sj_new P) us) = true -> settles prog ord P (sj_new P) us.
Proof. intros Hc Hp us Hr. apply calm_settles'; auto. apply Q_new; auto. Qed.

(** *** Nobody calls the subject from inside *)
Definition same s s1 : Prop :=
  sj_halt s1 = sj_halt s /\ sj_queue s1 = sj_queue s /\ sj_user s1 = sj_user s /\
  sj_made s1 = sj_made s /\ sj_store s1 = sj_store s.

Lemma same_refl : forall s, same s s.
Proof. repeat split. Qed.
Lemma same_trans : forall s1 s2 s3, same s1 s2 -> same s2 s3 -> same s1 s3.
Proof. unfold same. intuition; congruence. Qed.

Lemma same_tell : quiet -> forall s i e, same s (tell prog P s i e).
Proof.
  intros Hq s i e. unfold tell. destruct (_ && _); [|apply same_refl].
  rewrite Hq. repeat split.
Qed.

Lemma same_broadcast : quiet -> forall s e, same s (broadcast prog ord P s e).
Proof.
  intros Hq s e. unfold broadcast.
  apply same_trans with (s2 := with_iter s); [repeat split|].
  generalize (ord (sj_iter s) (sj_tbl s)) (with_iter s).
  induction l as [|i l IH]; intros s1; cbn; [apply same_refl|].
  eapply same_trans; [apply (same_tell Hq)|apply IH].
Qed.

Lemma same_mapply : quiet -> forall s m, same s (mapply prog ord P s m).
Proof.
  intros Hq s []; cbn [mapply]; try apply (same_broadcast Hq).
  - destruct (existsb _ _); [|apply same_refl].
    eapply same_trans; [|apply (same_tell Hq)]. repeat split.
  - repeat split.
Qed.

Lemma same_greet : quiet -> forall i r s, same s (greet prog s i r).
Proof.
  intros Hq i. induction r as [|a r IH]; intros s; [apply same_refl|].
  rewrite greet_cons. eapply same_trans; [|apply IH].
  destruct (_ && _); [|apply same_refl]. cbn zeta. rewrite Hq. repeat split.
Qed.

Lemma same_reject : quiet -> forall i s, same s (reject prog s i).
Proof.
  intros Hq i s. unfold reject. destruct (_ && _); [|apply same_refl]. cbn zeta.
  destruct (sj_err s); [rewrite Hq; repeat split|].
  destruct (sj_cmp s); [rewrite Hq; repeat split|repeat split].
Qed.

Lemma same_running : forall s s1, same s s1 -> running s1 = running s.
Proof. intros s s1 (H & _). unfold running. rewrite H. auto. Qed.

Lemma same_try : forall s s1, same s s1 -> sj_queue s = [] -> same s (mtry_apply prog ord P s1).
Proof.
  intros s s1 H Hq. unfold mtry_apply. destruct H as (H1 & H2 & H3). rewrite H2, Hq. repeat split; tauto.
Qed.

Lemma quiet_outer : quiet -> forall s c, running s = true -> sj_queue s = [] ->
  same (with_made s c) (outer_call prog ord P s c).
Proof.
  intros Hq s c Hr Hs. unfold outer_call. rewrite Hr.
  assert (Hgo : forall s1 s2 m, same s1 s2 -> sj_queue s1 = [] -> running s1 = true ->
    same s1 (let s3 := mapply_queue prog ord P mdepth s2 in
             if running s3 then mapply prog ord P s3 m else s3)).
  { intros s1 s2 m H1 H2 H3. rewrite queue_nil by (destruct H1 as (_ & -> & _); auto).
    cbn zeta. rewrite (same_running H1), H3.
    eapply same_trans; [exact H1|apply (same_mapply Hq)]. }
  destruct c as [a|e| | |r|j]; cbn zeta.
  - apply same_try; auto. destruct (sj_closed _); [apply same_refl|].
    apply Hgo; auto. apply same_refl.
  - apply same_try; auto. destruct (sj_closed _); [apply same_refl|].
    apply Hgo; auto. repeat split.
  - apply same_try; auto. destruct (sj_closed _); [apply same_refl|].
    apply Hgo; auto. repeat split.
  - apply same_try; auto. destruct (sj_uns _); [apply same_refl|].
    rewrite queue_nil by auto.
    match goal with |- same _ (if running ?x then _ else _) => change (running x) with (running s) end.
    rewrite Hr. eapply same_trans; [|apply (same_mapply Hq)]. repeat split.
  - change (sj_next_id (with_made s (KSub r))) with (sj_next_id s).
    set (s1 := with_made s (KSub r)).
    assert (Hg : same s1 (greet prog (with_id s1 (S (sj_next_id s))) (sj_next_id s) r)).
    { eapply same_trans; [|apply (same_greet Hq)]. repeat split. }
    set (s2 := greet _ _ _ _) in *.
    assert (Hq2 : sj_queue s2 = []) by (destruct Hg as (_ & -> & _); auto).
    assert (Ht : mtry_apply prog ord P s2 = s2) by (unfold mtry_apply; rewrite Hq2; auto).
    assert (Hr2 : running s2 = true) by (rewrite (same_running Hg); auto).
    rewrite Ht, Hr2. destruct (sj_closed s2).
    + eapply same_trans; [exact Hg|]. eapply same_trans; [|apply (same_reject Hq)]. repeat split.
    + rewrite queue_nil, Hr2 by auto. apply same_try; auto.
  - destruct (_ || _); [apply same_refl|]. rewrite queue_nil by auto.
    match goal with |- same _ (if running ?x then _ else _) => change (running x) with (running s) end.
    rewrite Hr. eapply same_trans; [|apply (same_mapply Hq)]. repeat split.
Qed.

Lemma quiet_outers : quiet -> forall cs s, running s = true -> sj_queue s = [] ->
  let s1 := fold_left (outer_call prog ord P) cs s in
  running s1 = true /\ sj_queue s1 = [] /\ sj_user s1 = sj_user s /\
  sj_made s1 = sj_made s ++ cs /\ sj_store s1 = sj_store s.
Proof.
  intros Hq. induction cs as [|c cs IH]; intros s Hr Hs; cbn zeta.
  - cbn. rewrite app_nil_r. auto.
  - cbn [fold_left]. pose proof (@quiet_outer Hq s c Hr Hs) as H.
    destruct (IH (outer_call prog ord P s c)) as (H1 & H2 & H3 & H4 & H5).
    + rewrite (same_running H). auto.
    + destruct H as (_ & -> & _). auto.
    + destruct H as (_ & _ & G3 & G4 & G5). rewrite G3 in H3. rewrite G4 in H4. rewrite G5 in H5.
      cbn in H4. rewrite <- app_assoc in H4. auto.
Qed.

Theorem quiet_users : quiet -> polite P -> forall us,
  let s := outer_users prog ord P (sj_new P) us in
  running s = true /\ settles prog ord P (sj_new P) us /\ sj_user s = us /\
  sj_made s = snd (expand P us) /\ sj_store s = fst (expand P us).
Proof.
  intros Hq Hp us. cbn zeta.
  assert (X : let s := outer_users prog ord P (sj_new P) us in
    running s = true /\ sj_user s = us /\ sj_queue s = [] /\ Q prog P s [] [] /\
    sj_made s = snd (expand P us) /\ sj_store s = fst (expand P us)).
  { induction us as [|u us IH] using rev_ind.
    - cbn. split; [auto|]. split; [auto|]. split; [auto|]. split; [apply Q_new; auto|auto].
    - destruct IH as (H1 & H2 & H3 & H4 & H5 & H6).
      cbn zeta. unfold outer_users in *. rewrite fold_left_app. cbn [fold_left].
      set (s := fold_left _ _ _) in *.
      assert (Hst : outer_user prog ord P s u =
        fold_left (outer_call prog ord P) (po_calls P (po_keep P (sj_store s) u) (sj_closed s)
          (some (sj_err s)) u) (with_user s (po_keep P (sj_store s) u) u)).
      { unfold outer_user. rewrite H1. auto. }
      set (cs := po_calls P (po_keep P (sj_store s) u) (sj_closed s) (some (sj_err s)) u) in *.
      assert (Hcs : cs = po_calls P (po_keep P (sj_store s) u) (finished (sj_made s)) (failed (sj_made s)) u).
      { unfold cs. destruct H4 as [(k & _ & _ & HJ) _]. specialize (HJ 0).
        pose proof (closed_iff HJ) as Hc. pose proof (j_obs HJ) as Ho.
        unfold vw in *. rewrite view_end in *. unfold finished, failed. rewrite Hc.
        replace (some (sj_err s)) with (match first_end (sj_made s) with Some (EndErr _) => true | _ => false end); auto.
        unfold obs_ok in Ho. destruct (first_end (sj_made s)) as [[e| |]|].
        - rewrite Ho. auto.
        - destruct Ho as [_ ->]. auto.
        - destruct Ho as (_ & _ & ->). auto.
        - destruct Ho as (_ & _ & -> & _). auto. }
      destruct (@quiet_outers Hq cs (with_user s (po_keep P (sj_store s) u) u) H1 H3)
        as (G1 & G2 & G3 & G4 & G5).
      rewrite Hst. split; [auto|]. split; [rewrite G3; cbn; rewrite H2; auto|].
      split; [auto|]. split.
      + rewrite <- Hst. apply Q_user; auto. rewrite Hst. auto.
      + rewrite G4, G5, expand_app. cbn [fold_left]. unfold expand_step. cbn [fst snd].
        rewrite <- H5, <- H6, <- Hcs. auto. }
  destruct X as (H1 & H2 & H3 & H4 & H5 & H6). repeat split; auto.
  apply calm_settles; auto. apply quiet_calm. auto.
Qed.

End Calm.

(** ** The results *)
Section Results.
Context {A E : Type}.
Context (prog : nat -> list (sev A E) -> list (ucmd A E) * bool).
Context (ord : nat -> list nat -> list nat).
Context (ord_perm : forall k l, Permutation l (ord k l)).

(** Whatever the subscribers do: the calls, in the order they were made, determine what
    each subscriber is told. *)
Theorem faithful_told : forall (P : policy A E), polite P -> faithful P -> forall us,
  let s := outer_users prog ord P (sj_new P) us in
  running s = true -> settles prog ord P (sj_new P) us ->
  forall before after, sj_user s = before ++ USub :: after ->
  history s (subs_of before) =
  upto (fun h => snd (prog (subs_of before) h)) []
    (map SN (replayed P before) ++ told_late (subs_of before) before after).
Proof.
  intros P Hp Hf us s Hr Hs before after Hu.
  destruct (@made_expand _ _ prog ord ord_perm P us Hp (faithful_single Hf) Hr Hs) as [H1 _].
  pose proof (@told_view _ _ prog ord ord_perm P us (subs_of before) Hp Hr Hs) as H2.
  cbn zeta in *. fold s in H1, H2. rewrite H2, H1, Hu. apply view_faithful. auto.
Qed.

Theorem faithful_told_early : forall (P : policy A E), polite P -> faithful P -> forall us i,
  let s := outer_users prog ord P (sj_new P) us in
  running s = true -> settles prog ord P (sj_new P) us ->
  subs_of (sj_user s) <= i -> history s i = [].
Proof.
  intros P Hp Hf us i s Hr Hs Hi.
  destruct (@made_expand _ _ prog ord ord_perm P us Hp (faithful_single Hf) Hr Hs) as [H1 _].
  pose proof (@told_view _ _ prog ord ord_perm P us i Hp Hr Hs) as H2.
  cbn zeta in *. fold s in H1, H2. rewrite H2, H1. apply view_faithful_early; auto.
Qed.

Theorem quiet_told : forall (P : policy A E), polite P -> faithful P -> quiet prog ->
  forall before after,
  history (outer_users prog ord P (sj_new P) (before ++ USub :: after)) (subs_of before) =
  upto (fun h => snd (prog (subs_of before) h)) []
    (map SN (replayed P before) ++ told_late (subs_of before) before after).
Proof.
  intros P Hp Hf Hq before after.
  destruct (@quiet_users _ _ prog ord ord_perm P Hq Hp (before ++ USub :: after)) as (H1 & H2 & H3 & _).
  apply (@faithful_told P Hp Hf _ H1 H2). exact H3.
Qed.

Theorem async_told : forall f, quiet prog -> forall before after,
  history (outer_users prog ord (async f) (sj_new (async f)) (before ++ USub :: after)) (subs_of before) =
  upto (fun h => snd (prog (subs_of before) h)) []
    (match finish_of before with
     | None => told_async f (subs_of before) (pushed before) after
     | Some (SE e) => [SE e]
     | Some x => map SN (reduced f (pushed before)) ++ [x]
     end).
Proof.
  intros f Hq before after.
  destruct (@quiet_users _ _ prog ord ord_perm (async f) Hq (@polite_async _ _ f) (before ++ USub :: after))
    as (H1 & H2 & H3 & H4 & _).
  rewrite (@told_view _ _ prog ord ord_perm (async f) _ (subs_of before) (@polite_async _ _ f) H1 H2), H4.
  apply view_async.
Qed.

End Results.

Theorem order_irrelevant : forall A E (prog : nat -> list (sev A E) -> list (ucmd A E) * bool)
  ord1 ord2 (P : policy A E),
  (forall k l, Permutation l (ord1 k l)) -> (forall k l, Permutation l (ord2 k l)) ->
  polite P -> quiet prog -> forall us i,
  history (outer_users prog ord1 P (sj_new P) us) i = history (outer_users prog ord2 P (sj_new P) us) i.
Proof.
  intros A E prog ord1 ord2 P H1 H2 Hp Hq us i.
  destruct (@quiet_users _ _ prog ord1 H1 P Hq Hp us) as (G1 & G2 & _ & G3 & _).
  destruct (@quiet_users _ _ prog ord2 H2 P Hq Hp us) as (K1 & K2 & _ & K3 & _).
  rewrite (@told_view _ _ prog ord1 H1 P us i Hp G1 G2), (@told_view _ _ prog ord2 H2 P us i Hp K1 K2).
  rewrite G3, K3. auto.
Qed.

(** ** Consequences for the publish subject *)
Section Plain.
Context {A E : Type}.
Context (prog : nat -> list (sev A E) -> list (ucmd A E) * bool).
Context (ord : nat -> list nat -> list nat).
Context (ord_perm : forall k l, Permutation l (ord k l)).
Notation run us := (outer_users prog ord plain (sj_new plain) us).

Lemma plain_told : quiet prog -> forall before after,
  history (run (before ++ USub :: after)) (subs_of before) =
  upto (fun h => snd (prog (subs_of before) h)) [] (told_late (subs_of before) before after).
Proof.
  intros Hq before after.
  rewrite (@quiet_told _ _ prog ord ord_perm plain polite_plain faithful_plain Hq before after).
  auto.
Qed.

Lemma plain_early : quiet prog -> forall us i, subs_of us <= i -> history (run us) i = [].
Proof.
  intros Hq us i Hi.
  destruct (@quiet_users _ _ prog ord ord_perm plain Hq polite_plain us) as (H1 & H2 & H3 & _).
  apply (@faithful_told_early _ _ prog ord ord_perm plain polite_plain faithful_plain us i H1 H2).
  rewrite H3. auto.
Qed.

Definition to_cmd (u : ucmd A E) : cmd A E :=
  match u with
  | UNext a => KNext a | UErr e => KErr e | UCmp => KCmp | UUns => KUns
  | USub => KSub [] | UOff i => KOff i
  end.

Lemma expand_plain : forall us, snd (expand (@plain A E) us) = map to_cmd us.
Proof.
  intros us. induction us as [|u us IH] using rev_ind; auto.
  rewrite expand_app, map_app, <- IH. cbn. destruct u; auto.
Qed.

Lemma off_irrelevant : quiet prog -> forall us1 us2 i j, i <> j ->
  history (run (us1 ++ UOff j :: us2)) i = history (run (us1 ++ us2)) i.
Proof.
  intros Hq us1 us2 i j Hij.
  destruct (@quiet_users _ _ prog ord ord_perm plain Hq polite_plain (us1 ++ UOff j :: us2)) as (G1 & G2 & _ & G3 & _).
  destruct (@quiet_users _ _ prog ord ord_perm plain Hq polite_plain (us1 ++ us2)) as (K1 & K2 & _ & K3 & _).
  rewrite (@told_view _ _ prog ord ord_perm plain _ i polite_plain G1 G2), G3.
  rewrite (@told_view _ _ prog ord ord_perm plain _ i polite_plain K1 K2), K3.
  rewrite !expand_plain, !map_app. unfold view_of. rewrite !fold_left_app. cbn [map fold_left to_cmd].
  f_equal. f_equal. cbn [view_step]. replace (j =? i) with false; auto.
  symmetry. apply Nat.eqb_neq. auto.
Qed.

Lemma plain_order : forall us, running (run us) = true -> settles prog ord plain (sj_new plain) us ->
  forall before after, sj_user (run us) = before ++ USub :: after ->
  history (run us) (subs_of before) =
  upto (fun h => snd (prog (subs_of before) h)) [] (told_late (subs_of before) before after).
Proof.
  intros us Hr Hs before after Hu.
  rewrite (@faithful_told _ _ prog ord ord_perm plain polite_plain faithful_plain us Hr Hs before after Hu).
  auto.
Qed.

Lemma told_split : forall i j (mid after : list (ucmd A E)), finish_of mid = None ->
  ~ In (UOff i) (mid ++ after) -> ~ In (UOff j) after ->
  told_after i (mid ++ USub :: after) = map SN (pushed mid) ++ told_after j after.
Proof.
  intros i j. induction mid as [|u mid IH]; intros after Hf Hi Hj.
  - cbn in *. induction after as [|u after IH]; auto. destruct u; cbn; auto.
    + f_equal. apply IH; intuition.
    + apply IH; intuition.
    + replace (i0 =? i) with false; [replace (i0 =? j) with false|].
      * apply IH; intuition.
      * symmetry. apply Nat.eqb_neq. intros ->. apply Hj. left. auto.
      * symmetry. apply Nat.eqb_neq. intros ->. apply Hi. left. auto.
  - destruct u; cbn in *; try discriminate.
    + f_equal. apply IH; intuition.
    + apply IH; intuition.
    + replace (i0 =? i) with false; [apply IH; intuition|].
      symmetry. apply Nat.eqb_neq. intros ->. apply Hi. auto.
Qed.

Lemma upto_never2 : forall (q1 q2 : list (sev A E) -> bool) l h1 h2,
  (forall h, q1 h = false) -> (forall h, q2 h = false) -> upto q1 h1 l = upto q2 h2 l.
Proof.
  induction l as [|[] l IH]; intros h1 h2 H1 H2; cbn; auto. rewrite H1, H2. f_equal. auto.
Qed.

Lemma upto_never' : forall (q : list (sev A E) -> bool) l h, (forall h, q h = false) ->
  upto q h l = upto (fun _ => false) [] l.
Proof. intros. apply upto_never2; auto. Qed.

Lemma plain_agree : forall us before mid after,
  let s := run us in let i := subs_of before in let j := S (i + subs_of mid) in
  running s = true -> settles prog ord plain (sj_new plain) us ->
  sj_user s = before ++ USub :: mid ++ USub :: after ->
  finish_of before = None -> finish_of mid = None ->
  ~ In (UOff i) (mid ++ after) -> ~ In (UOff j) after ->
  (forall h, snd (prog i h) = false) -> (forall h, snd (prog j h) = false) ->
  history s i = map SN (pushed mid) ++ history s j.
Proof.
  intros us before mid after s i j Hr Hs Hu Hb Hm Hi Hj Qi Qj.
  pose proof (@plain_order us Hr Hs before (mid ++ USub :: after) Hu) as H1.
  assert (Hu2 : sj_user s = (before ++ USub :: mid) ++ USub :: after).
  { rewrite Hu, <- app_assoc. auto. }
  pose proof (@plain_order us Hr Hs _ _ Hu2) as H2.
  assert (Hsub : subs_of (before ++ USub :: mid) = j).
  { rewrite subs_app. unfold j, i. cbn. lia. }
  rewrite Hsub in H2. fold i in H1. unfold s. rewrite H1, H2.
  unfold told_late. rewrite Hb, finish_app', Hb. cbn [finish_of]. rewrite Hm.
  rewrite (@told_split i j mid after Hm Hi Hj).
  rewrite (@upto_never' _ _ _ Qi), (@upto_never' _ _ _ Qj).
  clear. induction (pushed mid) as [|a l IH]; auto. cbn [map app upto].
  f_equal. rewrite upto_never'; auto.
Qed.

Lemma finished_mute : quiet prog -> forall us1 us2 a i, finish_of us1 <> None ->
  history (run (us1 ++ UNext a :: us2)) i = history (run (us1 ++ us2)) i.
Proof.
  intros Hq us1 us2 a i Hf.
  destruct (@quiet_users _ _ prog ord ord_perm plain Hq polite_plain (us1 ++ UNext a :: us2)) as (G1 & G2 & _ & G3 & _).
  destruct (@quiet_users _ _ prog ord ord_perm plain Hq polite_plain (us1 ++ us2)) as (K1 & K2 & _ & K3 & _).
  rewrite (@told_view _ _ prog ord ord_perm plain _ i polite_plain G1 G2), G3.
  rewrite (@told_view _ _ prog ord ord_perm plain _ i polite_plain K1 K2), K3.
  rewrite !expand_plain, !map_app. unfold view_of. rewrite !fold_left_app. cbn [map fold_left to_cmd].
  f_equal. f_equal. fold (view_of (quits prog i) i (map to_cmd us1)).
  assert (He : vw_end (view_of (quits prog i) i (map to_cmd us1)) <> None).
  { rewrite view_end. intros H. apply Hf. rewrite <- (shape_expand faithful_plain us1), expand_plain.
    rewrite first_end_shape, H. auto. }
  cbn [view_step]. rewrite view_ended; auto.
Qed.

End Plain.

(** ** Forms used in the property file *)
Section Forms.
Context {A E : Type}.
Context (prog : nat -> list (sev A E) -> list (ucmd A E) * bool).
Context (ord : nat -> list nat -> list nat).
Context (ord_perm : forall k l, Permutation l (ord k l)).
Notation run P us := (outer_users prog ord P (sj_new P) us).

Lemma calm_told : forall P, polite P -> faithful P -> calm prog -> forall us, running (run P us) = true ->
  forall before after, sj_user (run P us) = before ++ USub :: after ->
  history (run P us) (subs_of before) =
  upto (fun h => snd (prog (subs_of before) h)) []
    (map SN (replayed P before) ++ told_late (subs_of before) before after).
Proof.
  intros P Hp Hf Hc us Hr. apply faithful_told; auto. apply calm_settles; auto.
Qed.

Lemma plain_late : forall us before after x, calm prog -> running (run plain us) = true ->
  sj_user (run plain us) = before ++ USub :: after -> finish_of before = Some x ->
  history (run plain us) (subs_of before) = [x].
Proof.
  intros us before after x Hc Hr Hu Hf.
  rewrite (@calm_told plain polite_plain faithful_plain Hc us Hr before after Hu).
  unfold told_late. rewrite Hf. cbn. destruct x; auto.
  exfalso. clear - Hf. induction before as [|[] l IH]; cbn in Hf; try discriminate; auto.
Qed.

Lemma plain_calm : calm prog -> forall us, running (run plain us) = true ->
  forall before after, sj_user (run plain us) = before ++ USub :: after ->
  history (run plain us) (subs_of before) =
  upto (fun h => snd (prog (subs_of before) h)) [] (told_late (subs_of before) before after).
Proof.
  intros Hc us Hr before after Hu.
  apply (@calm_told plain polite_plain faithful_plain Hc us Hr before after Hu).
Qed.

Lemma plain_calm_agree : calm prog -> forall us before mid after,
  let s := run plain us in let i := subs_of before in let j := S (i + subs_of mid) in
  running s = true ->
  sj_user s = before ++ USub :: mid ++ USub :: after ->
  finish_of before = None -> finish_of mid = None ->
  ~ In (UOff i) (mid ++ after) -> ~ In (UOff j) after ->
  (forall h, snd (prog i h) = false) -> (forall h, snd (prog j h) = false) ->
  history s i = map SN (pushed mid) ++ history s j.
Proof.
  intros Hc us before mid after s i j Hr. apply plain_agree; auto.
  apply calm_settles; auto. apply polite_plain.
Qed.

Lemma behavior_calm : calm prog -> forall v us, running (run (behavior v) us) = true ->
  forall before after, sj_user (run (behavior v) us) = before ++ USub :: after ->
  history (run (behavior v) us) (subs_of before) =
  upto (fun h => snd (prog (subs_of before) h)) []
    ((if errored before then [] else [SN (last (pushed before) v)])
     ++ told_late (subs_of before) before after).
Proof.
  intros Hc v us Hr before after Hu.
  rewrite (@calm_told (behavior v) (@polite_behavior _ _ v) (@faithful_behavior _ _ v) Hc us Hr before after Hu).
  rewrite replayed_behavior. destruct (errored before); auto.
Qed.

Lemma behavior_quiet : quiet prog -> forall v before after,
  history (run (behavior v) (before ++ USub :: after)) (subs_of before) =
  upto (fun h => snd (prog (subs_of before) h)) []
    ((if errored before then [] else [SN (last (pushed before) v)])
     ++ told_late (subs_of before) before after).
Proof.
  intros Hq v before after.
  rewrite (@quiet_told _ _ prog ord ord_perm (behavior v) (@polite_behavior _ _ v) (@faithful_behavior _ _ v) Hq).
  rewrite replayed_behavior. destruct (errored before); auto.
Qed.

Lemma replay_calm : calm prog -> forall n us, running (run (replay n) us) = true ->
  forall before after, sj_user (run (replay n) us) = before ++ USub :: after ->
  history (run (replay n) us) (subs_of before) =
  upto (fun h => snd (prog (subs_of before) h)) []
    ((if errored before then [] else map SN (lastn n (pushed before)))
     ++ told_late (subs_of before) before after).
Proof.
  intros Hc n us Hr before after Hu.
  rewrite (@calm_told (replay n) (@polite_replay _ _ n) (@faithful_replay _ _ n) Hc us Hr before after Hu).
  rewrite replayed_replay. destruct (errored before); auto.
Qed.

Lemma replay_quiet : quiet prog -> forall n before after,
  history (run (replay n) (before ++ USub :: after)) (subs_of before) =
  upto (fun h => snd (prog (subs_of before) h)) []
    ((if errored before then [] else map SN (lastn n (pushed before)))
     ++ told_late (subs_of before) before after).
Proof.
  intros Hq n before after.
  rewrite (@quiet_told _ _ prog ord ord_perm (replay n) (@polite_replay _ _ n) (@faithful_replay _ _ n) Hq).
  rewrite replayed_replay. destruct (errored before); auto.
Qed.

End Forms.

Lemma lastn_char : forall A n (l : list A),
  (exists pre, l = pre ++ lastn n l) /\ length (lastn n l) = Nat.min n (length l).
Proof.
  intros A n l. unfold lastn. split.
  - exists (firstn (length l - n) l). symmetry. apply firstn_skipn.
  - rewrite skipn_length. lia.
Qed.
