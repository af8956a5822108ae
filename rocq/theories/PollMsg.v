(** The message observable. *)
From Verif Require Import Base SubscrModel SchedModel TimeModel TimeSpec TimeProofs PollModel PollSpec PollProofs PollFacts.
Set Implicit Arguments.

Section Sub.
Variable M : Type.
Implicit Types l : list M.
Lemma sub_nil_l l : sub [] l.
Proof. induction l; [constructor|]. apply sub_skip; auto. Qed.
Lemma sub_refl l : sub l l.
Proof. induction l; [constructor|]. apply sub_take; auto. Qed.
Lemma sub_app l1 l1' l2 l2' : sub l1 l1' -> sub l2 l2' -> sub (l1 ++ l2) (l1' ++ l2').
Proof. intros H1 H2. induction H1; simpl; auto; [apply sub_skip|apply sub_take]; auto. Qed.
Lemma sub_more l l' l'' : sub l l' -> sub l (l' ++ l'').
Proof. intros H. rewrite <- (app_nil_r l). apply sub_app; auto using sub_nil_l. Qed.
Lemma sub_fewer l1 l2 l : sub (l1 ++ l2) l -> sub l1 l.
Proof.
  intros H. remember (l1 ++ l2) as l0 eqn:E0. revert l1 E0. induction H; intros l1 E0.
  - destruct l1; [constructor|discriminate].
  - apply sub_skip. auto.
  - destruct l1 as [|x l1]; [apply sub_nil_l|]. injection E0 as -> E0. apply sub_take. auto.
Qed.
Lemma sub_length l l' : sub l l' -> length l <= length l'.
Proof. induction 1; simpl; lia. Qed.
End Sub.

Section Message.
Variables M E X : Type.
Variable s0 : messages M.
Variable down : list (ncall M E) -> bool * list (req X).
Variable user : X -> nat -> list (tev (mop M) M E) -> X * bool * list (cmd (mop M) E X).
Hypothesis Hpushless : forall x t l a, ~ In (CUp (Nxt a)) (snd (user x t l)).
Notation T := (@message M E X (Some s0)).
Notation task := (@message_task M E X).
Notation W := (world (mop M) M E (option (messages M)) nat X).
Notation ev := (tev (mop M) M E).

Definition mread (q : nat) (s : option (messages M)) : option (nat * list M) :=
  match s with None => None | Some s => Some (behind q s, unread q s) end.
Lemma each_message_emit ms : forall w : W, w_shut w = false ->
  each_message (tell true down) ms w = (fst (each_message (tell true down) ms w), emit down ms w) /\
  (w_shut (emit down ms w) = false -> fst (each_message (tell true down) ms w) = false).
Proof.
  induction ms as [|m ms IH]; intros w Hs; [auto|]. cbn [each_message]. change (emit down (m :: ms) w) with (emit down ms (tell true down (Nxt m) w)).
  destruct (w_shut (tell true down (Nxt m) w)) eqn:Hs1.
  - rewrite emit_shut by auto. cbn [fst]. split; auto. congruence.
  - destruct (IH _ Hs1) as [I1 I2]. rewrite I1 at 1. split; auto.
Qed.
Lemma mtask q (w : W) : match mread q (w_st w) with
  | None => exists q', task (tell true down) q w = (q', true, set_panic w)
  | Some (q', bs) => exists q'' done, task (tell true down) q w = (q'', done, emit down bs w) /\
      (w_shut (emit down bs w) = false -> done = false /\ q'' = q')
  end.
Proof.
  unfold message_task, mread. destruct (w_st w) as [s|]; [|eauto]. destruct (w_shut w) eqn:Hs.
  - do 2 eexists. rewrite emit_shut by auto. split; [reflexivity|]. congruence.
  - destruct (each_message_emit (unread q s) _ Hs) as [I1 I2]. rewrite I1. eauto 6.
Qed.

Notation due_at := (@due_at (mop M) M E (option (messages M)) nat (Some s0) mstep 0 mread).

(** The world. *)
Lemma written_snoc (l : list ev) e : written s0 (l ++ [e]) = written s0 l ++ match e with XUp (Nxt (MWrite m)) => [m] | _ => [] end.
Proof.
  unfold written. rewrite ops_snoc, flat_map_app, !app_assoc. f_equal. destruct e as [| | |[[]|x| |]|]; reflexivity.
Qed.
Record seen (tr : list ev) (v : messages M) : Prop := mkSeen {
  sn_view : d_view (due_at tr) = Some v;
  sn_start : ms_start s0 <= ms_start v;
  sn_kept : kept s0 tr = ms_old v ++ ms_new v;
  sn_written : exists D, written s0 tr = D ++ kept s0 tr /\ length D = ms_start v - ms_start s0;
  sn_miss : d_miss (due_at tr) = false;
  sn_q : d_q (due_at tr) <= ms_start s0 + length (written s0 tr);
  sn_all : d_sub (due_at tr) = true -> d_tick (due_at tr) = true -> d_q (due_at tr) = ms_start s0 + length (written s0 tr);
  sn_unborn : d_sub (due_at tr) = false -> d_q (due_at tr) = 0 /\ d_todo (due_at tr) = []
}.
Lemma kept_snoc (l : list ev) e v : kept s0 l = ms_old v ++ ms_new v ->
  fold_left (fun x a => match a with MWrite m => (fst x, snd x ++ [m]) | MUpdate => (snd x, []) end)
             (ops l) (ms_old s0, ms_new s0) = (ms_old v, ms_new v) ->
  kept s0 (l ++ [e]) = match e with XUp (Nxt (MWrite m)) => ms_old v ++ ms_new v ++ [m] | XUp (Nxt MUpdate) => ms_new v | _ => ms_old v ++ ms_new v end.
Proof.
  unfold kept. rewrite ops_snoc, fold_left_app. intros H ->. destruct e as [| | |[[]|x| |]|]; cbn; auto. rewrite app_nil_r. auto.
Qed.
Definition bufs (l : list ev) := fold_left (fun x a => match a with MWrite m => (fst x, snd x ++ [m]) | MUpdate => (snd x, []) end)
             (ops l) (ms_old s0, ms_new s0).
Lemma bufs_snoc l e : bufs (l ++ [e]) = match e with XUp (Nxt (MWrite m)) => (fst (bufs l), snd (bufs l) ++ [m]) | XUp (Nxt MUpdate) => (snd (bufs l), []) | _ => bufs l end.
Proof. unfold bufs. rewrite ops_snoc, fold_left_app. destruct e as [| | |[[]|x| |]|]; reflexivity. Qed.

Lemma seen_at tr : always (quiet (A:=mop M) (B:=M) (E:=E)) tr -> exists v, seen tr v /\ bufs tr = (ms_old v, ms_new v).
Proof.
  induction tr as [|e tr IH] using rev_ind.
  - intros _. exists s0. split; auto. split; cbn; auto; try lia; try discriminate.
    exists []. rewrite Nat.sub_diag. unfold written, kept. cbn. rewrite app_nil_r. auto.
  - intros Hal. apply always_cut in Hal. destruct Hal as [Hal Hq]. destruct (IH Hal) as (v & [S1 S2 S3 (D & S4 & S5) S6 S7 S8 S9] & Hb).
    pose proof (written_snoc tr e) as HW. pose proof (@kept_snoc tr e v S3 Hb) as HK. pose proof (bufs_snoc tr e) as HBu.
    pose proof (due_snoc (Some s0) mstep 0 mread tr e) as HD. rewrite S3 in S4.
    assert (Hlen : length (written s0 tr) = length D + length (ms_old v ++ ms_new v)) by (rewrite S4, app_length; auto).
    assert (Hlook : forall sb tk q td, q <= ms_start s0 + length (written s0 tr) ->
      look mread (mkDue sb tk (Some v) q td false) = mkDue sb tk (Some v) (ms_start s0 + length (written s0 tr)) (unread q v) false).
    { intros. unfold look. cbn. f_equal. unfold behind. lia. }
    destruct e as [|t| |[[m|]|x| |]|c]; cbn -[look mstep] in HD, HW, HK, HBu; rewrite ?app_nil_r in HW.
    1-3,6-9: exists v; split; [|rewrite HBu; auto].
    1-7: split; rewrite ?HD, ?HW, ?HK; rewrite ?app_nil_r; auto; try (exists D; auto; fail); clear HD HW HK HBu.
    + destruct (d_sub _); auto. destruct (d_tick _); auto. rewrite S1, S6, Hlook; auto.
    + destruct (d_sub _); auto. destruct (d_tick _); auto. rewrite S1, S6, Hlook; auto.
    + destruct (d_sub _); auto. destruct (d_tick _); auto. rewrite S1, S6, Hlook; auto.
    + destruct (d_sub _) eqn:Es; auto. destruct (d_tick _) eqn:Et; cbn -[look]; try discriminate. rewrite S1, S6, Hlook; auto.
    + destruct (d_sub _) eqn:Es; rewrite ?Es; try discriminate. destruct (d_tick _) eqn:Et; cbn -[look]; rewrite ?S1, ?S6, ?Hlook by auto; discriminate.
    + destruct (d_sub _); auto. rewrite S1, S6, Hlook; auto.
    + destruct (d_sub _); auto. rewrite S1, S6, Hlook; auto.
    + destruct (d_sub _); auto. rewrite S1, S6, Hlook; auto.
    + destruct (d_sub _) eqn:Es; cbn -[look]; try discriminate. rewrite S1, S6, Hlook; auto.
    + destruct (d_sub _) eqn:Es; cbn -[look]; rewrite ?S1, ?S6, ?Hlook by auto; try discriminate. intros _. split; auto. apply S9; auto.
    + discriminate.
    + exists (mkMs (ms_start v) (ms_old v) (ms_new v ++ [m])). split; [|rewrite HBu, Hb; reflexivity].
      split; rewrite ?HD, ?HW, ?HK; cbn -[mstep]; auto.
      * rewrite S1. reflexivity.
      * exists D. split; auto. rewrite S4, <- !app_assoc. reflexivity.
      * rewrite app_length. lia.
      * cbn in Hq. rewrite (proj1 (d_tick_at _ _ _ _ _)), (proj1 Hq). discriminate.
    + exists (mkMs (ms_start v + length (ms_old v)) (ms_new v) []). split; [|rewrite HBu, Hb; reflexivity].
      split; rewrite ?HD, ?HW, ?HK; cbn -[mstep]; rewrite ?app_nil_r; auto.
      * rewrite S1. reflexivity.
      * lia.
      * exists (D ++ ms_old v). rewrite S4, app_assoc, app_length. split; auto. lia.
Qed.

(** *** What the destination was given. *)
Definition flags (l : list ev) : bool * bool :=
  fold_left (fun (x : bool * bool) e => match e with
    | XSub => (match ms_old s0 with [] => true | _ => false end, snd x)
    | XEnd => (true, snd x)
    | XUp (Nxt MUpdate) => (false, fst x && snd x)
    | _ => x end) l (match ms_old s0 with [] => true | _ => false end, true).
Lemma flags_snoc l e : flags (l ++ [e]) = match e with
    | XSub => (match ms_old s0 with [] => true | _ => false end, snd (flags l))
    | XEnd => (true, snd (flags l))
    | XUp (Nxt MUpdate) => (false, fst (flags l) && snd (flags l))
    | _ => flags l end.
Proof. unfold flags. rewrite fold_left_app. reflexivity. Qed.
Lemma regular_flags l : regular s0 l = snd (flags l).
Proof. reflexivity. Qed.

Lemma skipn_plus (l : list M) a b : skipn a (skipn b l) = skipn (a + b) l.
Proof. revert l. induction b as [|b IH]; intros l; rewrite ?Nat.add_0_r, ?Nat.add_succ_r; auto. destruct l; [apply skipn_nil|]. simpl. apply IH. Qed.
Lemma unread_skip tr v q : seen tr v -> q <= ms_start s0 + length (written s0 tr) ->
  unread q v = skipn (Nat.max (q - ms_start s0) (ms_start v - ms_start s0)) (written s0 tr).
Proof.
  intros [S1 S2 S3 (D & S4 & S5) S6 S7 S8 S9] Hq. unfold unread. rewrite <- S3.
  replace (kept s0 tr) with (skipn (ms_start v - ms_start s0) (written s0 tr)).
  - rewrite skipn_plus. f_equal. lia.
  - rewrite S4, <- S5, skipn_app, skipn_all, Nat.sub_diag. reflexivity.
Qed.
Lemma kept_skip tr v : seen tr v -> kept s0 tr = skipn (ms_start v - ms_start s0) (written s0 tr).
Proof. intros [S1 S2 S3 (D & S4 & S5) S6 S7 S8 S9]. rewrite S4, <- S5, skipn_app, skipn_all, Nat.sub_diag. reflexivity. Qed.
Lemma split_skip (l : list M) n d : skipn d (firstn n l) ++ skipn (Nat.max n d) l = skipn d l.
Proof.
  destruct (Nat.le_gt_cases n d).
  - rewrite skipn_all2 by (rewrite firstn_length; lia). rewrite Nat.max_r by auto. reflexivity.
  - rewrite Nat.max_l by lia. replace (skipn d l) with (skipn d (firstn n l ++ skipn n l)) by (rewrite firstn_skipn; auto).
    rewrite skipn_app, firstn_length. f_equal. destruct (Nat.le_gt_cases n (length l)).
    + replace (d - Nat.min n (length l)) with 0 by lia. auto.
    + rewrite (skipn_all2 l) by lia. rewrite skipn_nil. auto.
Qed.
Lemma sub_skip_more (l l' : list M) n k : n <= k -> sub l (firstn n l') -> sub (l ++ skipn k l') l'.
Proof.
  intros H1 H2. rewrite <- (firstn_skipn n l') at 2. apply sub_app; auto.
  replace k with ((k - n) + n) by lia. rewrite <- skipn_plus. generalize (skipn n l'). generalize (k - n). clear.
  induction n as [|n IH]; intros l; [apply sub_refl|]. destruct l; [constructor|]. simpl. apply sub_skip. auto.
Qed.

Definition good := (good (Some s0) mstep 0 down mread).

Record told (tr : list ev) (v : messages M) : Prop := mkTold {
  td_sub : sub (values tr) (written s0 tr);
  td_reg : regular s0 tr = true -> exists rest, written s0 tr = values tr ++ rest;
  td_none : since tr = None -> v = s0 /\ values tr = [] /\ tick_values tr = [];
  td_open : open down tr -> exists V rest, values tr = V ++ tick_values tr /\ d_todo (due_at tr) = tick_values tr ++ rest /\
    (ticking tr = false -> rest = []) /\
    let n := d_q (due_at tr) - ms_start s0 in
    let d := ms_start v - ms_start s0 in
    sub (V ++ d_todo (due_at tr)) (firstn n (written s0 tr)) /\
    (exists pre, V ++ d_todo (due_at tr) = pre ++ skipn d (firstn n (written s0 tr))) /\
    (since tr <> None -> regular s0 tr = true -> V ++ d_todo (due_at tr) = firstn n (written s0 tr) /\ d <= n /\
       (fst (flags tr) = true -> d + length (ms_old v) <= n))
}.

Lemma told_at tr : always good tr -> exists v, seen tr v /\ bufs tr = (ms_old v, ms_new v) /\ told tr v.
Proof.
  induction tr as [|e tr IH] using rev_ind.
  - intros _. destruct (@seen_at []) as (v & S & Hb). { apply always_nil. }
    assert (v = s0) as ->. { pose proof (sn_view S) as Hv. cbn in Hv. congruence. }
    exists s0. split; auto. split; auto. split; cbn.
    + apply sub_nil_l.
    + eauto.
    + auto.
    + intros _. exists [], []. repeat split; auto; [constructor| |destruct H; auto..]. exists []. destruct (_ - _); auto.
  - intros Hal. assert (Hqs : always (quiet (A:=mop M) (B:=M) (E:=E)) (tr ++ [e])) by (revert Hal; apply always_imp; intros ? ? ? ? ? HG; apply HG).
    apply always_cut in Hal. destruct Hal as [Hal [Hp Hq]]. destruct (IH Hal) as (v & S & Hb & [T1 T2 T3 T4]). clear IH.
    destruct (@seen_at _ Hqs) as (v' & S' & Hb'). exists v'. split; auto. split; auto.
    destruct (d_tick_at (Some s0) mstep 0 mread tr) as [Ht Hs].
    pose proof (due_snoc (Some s0) mstep 0 mread tr e) as HD.
    pose proof (sn_view S) as Hv. pose proof (sn_view S') as Hv'. pose proof (sn_q S) as Hqn. pose proof (sn_miss S) as Hm.
    pose proof (sn_start S) as Hst.
    pose proof (written_snoc tr e) as HW.
    pose proof (flags_snoc tr e) as HF. rewrite !regular_flags in T2, T4.
    assert (Hpre : forall V rest b, values tr = V ++ tick_values tr -> d_todo (due_at tr) = tick_values tr ++ b :: rest ->
      V ++ d_todo (due_at tr) = (values tr ++ [b]) ++ rest).
    { intros V rest b -> ->. rewrite <- !app_assoc. reflexivity. }
    split.
    + rewrite values_snoc, HW. destruct e as [|t| |c|[b|x| |]]; rewrite ?app_nil_r; auto.
      * destruct c as [[m|]|x| |]; rewrite ?app_nil_r; auto. apply sub_more. auto.
      * destruct Hp as (Ho & _ & rest & [Hc|Htd]); [cbn in Hc; congruence|].
        destruct (T4 Ho) as (V & rest' & E1 & E2 & _ & E3 & _).
        rewrite (@Hpre V rest b E1 Htd) in E3. apply sub_fewer in E3.
        rewrite <- (firstn_skipn (d_q (due_at tr) - ms_start s0)). apply sub_more. auto.
    + rewrite regular_flags, HF, values_snoc, HW. destruct e as [|t| |c|[b|x| |]]; cbn [snd]; rewrite ?app_nil_r; auto.
      * destruct c as [[m|]|x| |]; cbn [snd]; rewrite ?app_nil_r; auto.
        -- intros Hr. destruct (T2 Hr) as [rest ->]. exists (rest ++ [m]). rewrite app_assoc. auto.
        -- intros Hr. apply andb_prop in Hr. apply T2. tauto.
      * intros Hr. destruct Hp as (Ho & _ & rest & [Hc|Htd]); [cbn in Hc; congruence|].
        destruct (T4 Ho) as (V & rest' & E1 & E2 & _ & E3 & _ & E4).
        assert (Hsi : since tr <> None).
        { intros Hsi. destruct (sn_unborn S) as [_ Hu]; [rewrite Hs, Hsi; auto|]. rewrite Hu in Htd. destruct (tick_values tr); discriminate. }
        destruct (E4 Hsi Hr) as [E5 _]. rewrite (@Hpre V rest b E1 Htd) in E5.
        exists (rest ++ skipn (d_q (due_at tr) - ms_start s0) (written s0 tr)). rewrite app_assoc, E5, firstn_skipn. auto.
    + rewrite since_snoc, values_snoc, tick_values_snoc. intros Hsi.
      assert (Hn : since tr = None) by (destruct e; auto; destruct (since tr); auto; discriminate).
      destruct (T3 Hn) as (-> & -> & ->). rewrite HD in Hv'. cbn [app].
      destruct (sn_unborn S) as [_ Hu]; [rewrite Hs, Hn; auto|].
      destruct e as [|t| |c|[b|x| |]]; cbn -[look] in Hv'; try (rewrite Hs, Hn in Hv'; cbn in Hv'); try (split; [congruence|auto]; fail).
      * rewrite Hn in Hsi. discriminate.
      * destruct c as [m|x| |]; [destruct Hq; congruence| | |]; (split; [congruence|auto]).
      * destruct Hp as (Ho & _ & rest & [Hc|Htd]); [cbn in Hc; congruence|]. rewrite Hu in Htd. destruct (tick_values tr); discriminate.
    + assert (Hlook : forall sb tk td, look mread (mkDue sb tk (Some v) (d_q (due_at tr)) td false) =
        mkDue sb tk (Some v) (behind (d_q (due_at tr)) v) (unread (d_q (due_at tr)) v) false) by reflexivity.
      assert (Hbe : behind (d_q (due_at tr)) v = ms_start s0 + length (written s0 tr)).
      { destruct (sn_written S) as (D & S4 & S5). unfold behind. rewrite <- (sn_kept S), S4, app_length. rewrite S4, app_length in Hqn. lia. }
      rewrite (@unread_skip tr v _ S Hqn) in Hlook. rewrite Hbe in Hlook. clear Hbe.
      set (n := d_q (due_at tr) - ms_start s0) in *. set (d := ms_start v - ms_start s0) in *.
      assert (Hsame : open down tr -> v' = v -> due_at (tr ++ [e]) = due_at tr -> written s0 (tr ++ [e]) = written s0 tr ->
        values (tr ++ [e]) = values tr -> tick_values (tr ++ [e]) = tick_values tr -> ticking (tr ++ [e]) = ticking tr ->
        since (tr ++ [e]) = since tr -> flags (tr ++ [e]) = flags tr ->
        exists V rest, values (tr ++ [e]) = V ++ tick_values (tr ++ [e]) /\ d_todo (due_at (tr ++ [e])) = tick_values (tr ++ [e]) ++ rest /\
        (ticking (tr ++ [e]) = false -> rest = []) /\
        let n := d_q (due_at (tr ++ [e])) - ms_start s0 in
        let d := ms_start v' - ms_start s0 in
        sub (V ++ d_todo (due_at (tr ++ [e]))) (firstn n (written s0 (tr ++ [e]))) /\
        (exists pre, V ++ d_todo (due_at (tr ++ [e])) = pre ++ skipn d (firstn n (written s0 (tr ++ [e])))) /\
        (since (tr ++ [e]) <> None -> snd (flags (tr ++ [e])) = true -> V ++ d_todo (due_at (tr ++ [e])) = firstn n (written s0 (tr ++ [e])) /\ d <= n /\
          (fst (flags (tr ++ [e])) = true -> d + length (ms_old v') <= n))).
      { intros Ho -> -> -> -> -> -> -> ->. exact (T4 Ho). }
      rewrite regular_flags. destruct e as [|t| |c|c].
      * (* subscribed *)
        rewrite open_same by discriminate. intros Ho. cbn in Hq. destruct (T3 Hq) as (-> & Ev & Etv).
        cbn [dstep] in HD. rewrite Hs, Hq, Ht, Hv, Hm in HD. cbn [some] in HD. destruct (sn_unborn S) as [Eq Etd]; [rewrite Hs, Hq; auto|].
        assert (Ed : d = 0) by (unfold d; lia). assert (En : n = 0) by (unfold n; lia). rewrite Ed, En in *.
        rewrite values_snoc, tick_values_snoc, HW, !app_nil_r, Ev, Etv, HF, since_snoc, Hq, ticking_snoc. cbn [fst snd].
        destruct (ticking tr) eqn:Etk.
        -- rewrite Hlook in HD. rewrite HD in Hv'. cbn in Hv'. injection Hv' as <-. rewrite HD. cbn [d_q d_todo Nat.max skipn].
           exists [], (written s0 tr). replace (ms_start s0 + length (written s0 tr) - ms_start s0) with (length (written s0 tr)) by lia.
           rewrite firstn_all. split; auto. split; auto. split; [discriminate|]. cbn zeta. split; [apply sub_refl|]. rewrite Nat.sub_diag.
           split; [exists []; auto|]. intros _ _. split; auto. split; [lia|]. intros Hfl. destruct (ms_old s0); [simpl; lia|discriminate].
        -- rewrite HD in Hv'. cbn in Hv'. injection Hv' as <-. rewrite HD. cbn [d_q d_todo]. rewrite Eq, Etd.
           exists [], []. cbn [app]. split; auto. split; auto. split; auto. cbn. split; [constructor|]. rewrite Nat.sub_diag.
           split; [exists []; auto|]. intros _ _. split; auto. split; [lia|]. intros Hfl. destruct (ms_old s0); [simpl; lia|discriminate].
      * (* a tick begins *)
        rewrite open_same by discriminate. intros Ho. cbn in Hq. destruct (T4 Ho) as (V & rest & E1 & E2 & E3 & E4 & (pre & E5) & E6).
        rewrite (E3 Hq), app_nil_r in E2. rewrite E2, <- E1 in E4, E5, E6. clear E1 E2 E3 Hpre Hsame.
        rewrite values_snoc, tick_values_snoc, HW, !app_nil_r, HF, since_snoc, ticking_snoc.
        cbn [dstep] in HD. rewrite Hs, Hv, Hm in HD. destruct (since tr) eqn:Hsi; cbn [some] in HD.
        -- rewrite Hlook in HD. rewrite HD in Hv'. cbn in Hv'. injection Hv' as <-. rewrite HD. cbn [d_q d_todo].
           exists (values tr), (skipn (Nat.max n d) (written s0 tr)). replace (ms_start s0 + length (written s0 tr) - ms_start s0) with (length (written s0 tr)) by lia.
           rewrite firstn_all, app_nil_r. split; auto. split; auto. split; [discriminate|]. cbn zeta. split.
           { apply sub_skip_more with n; auto. lia. }
           split. { exists pre. rewrite E5, <- app_assoc, split_skip. auto. }
           intros _ Hr. destruct (E6 ltac:(discriminate) Hr) as (-> & E7 & E8). rewrite Nat.max_l by auto. rewrite firstn_skipn.
           split; auto. fold d. assert (Hl : d + length (ms_old v) <= length (written s0 tr)).
           { destruct (sn_written S) as (D & S4 & S5). rewrite S4, app_length, (sn_kept S), app_length. lia. }
           split; auto; lia.
        -- destruct (T3 eq_refl) as (-> & Ev & Etv). rewrite HD in Hv'. cbn in Hv'. injection Hv' as <-. rewrite HD. cbn [d_q d_todo]. fold n.
           exists [], []. rewrite Ev. cbn [app]. split; auto. split; auto. split; auto. cbn. split; [apply sub_nil_l|]. rewrite Ev in E5. split; [|tauto].
           exists pre. exact E5.
      * (* ends *)
        rewrite open_same by discriminate. intros Ho. cbn in Hq, Hp. destruct (T4 Ho) as (V & rest & E1 & E2 & E3 & E4 & (pre & E5) & E6).
        rewrite values_snoc, tick_values_snoc, HW, !app_nil_r, HF, since_snoc, ticking_snoc.
        cbn [dstep] in HD. rewrite HD in Hv'. cbn in Hv'. rewrite Hv in Hv'. injection Hv' as <-. rewrite HD. cbn [d_q d_todo fst snd]. fold n d.
        assert (Er : rest = []).
        { destruct (since tr) eqn:Hsi.
          - destruct (Hp Ho ltac:(discriminate)) as [Hp'|Hp']; [cbn in Hp'; congruence|]. cbn in Hp'. rewrite Hp' in E2.
            rewrite <- (app_nil_r (tick_values tr)) in E2 at 1. apply app_inv_head in E2. auto.
          - destruct (T3 eq_refl) as (_ & _ & Etv). rewrite Etv in E2. destruct (sn_unborn S) as [_ Etd]; [rewrite Hs; auto|]. cbn in E2. congruence. }
        subst rest. exists V, []. rewrite Hq in *. split; auto. split; auto. split; auto. split; auto. split; [exists pre; auto|]. intros Hsi Hr.
        destruct (E6 Hsi Hr) as (E7 & E8 & E9). split; auto. split; auto. intros _.
        assert (Hn : d_q (due_at tr) = ms_start s0 + length (written s0 tr)).
        { apply (sn_all S); rewrite ?Hs, ?Ht; auto. destruct (since tr); auto; destruct Hsi; auto. }
        destruct (sn_written S) as (D & S4 & S5). unfold n. rewrite Hn, S4, app_length, (sn_kept S), app_length. fold d in S5. lia.
      * rewrite open_same by discriminate. intros Ho. destruct c as [[m|]|x| |].
        -- cbn in Hq. destruct Hq as [Hq Hsi]. destruct (T4 Ho) as (V & rest & E1 & E2 & E3 & E4 & (pre & E5) & E6).
           rewrite values_snoc, tick_values_snoc, HW, !app_nil_r, HF, since_snoc, ticking_snoc.
           cbn [dstep] in HD. rewrite HD in Hv'. cbn in Hv'. rewrite Hv in Hv'. cbn in Hv'. injection Hv' as <-. rewrite HD. cbn [d_q d_todo ms_start ms_old]. fold n d.
           rewrite firstn_app. replace (n - length (written s0 tr)) with 0 by (unfold n; lia). cbn [firstn]. rewrite app_nil_r.
           exists V, rest. repeat split; auto; [exists pre; auto|..]; apply E6; auto.
        -- cbn in Hq. destruct Hq as [Hq Hsi]. destruct (T4 Ho) as (V & rest & E1 & E2 & E3 & E4 & (pre & E5) & E6).
           rewrite values_snoc, tick_values_snoc, HW, !app_nil_r, HF, since_snoc, ticking_snoc. cbn [fst snd].
           cbn [dstep] in HD. rewrite HD in Hv'. cbn in Hv'. rewrite Hv in Hv'. cbn in Hv'. injection Hv' as <-. rewrite HD. cbn [d_q d_todo ms_start ms_old]. fold n d.
           replace (ms_start v + length (ms_old v) - ms_start s0) with (length (ms_old v) + d) by (unfold d; lia).
           exists V, rest. split; auto. split; auto. split; auto. cbn zeta. split; auto. split.
           { exists (pre ++ firstn (length (ms_old v)) (skipn d (firstn n (written s0 tr)))). rewrite <- app_assoc, <- skipn_plus, firstn_skipn. auto. }
           intros _ Hr. apply andb_prop in Hr. destruct Hr as [Hr1 Hr2]. destruct (E6 Hsi Hr2) as (E7 & E8 & E9). split; auto. split; [|discriminate].
           specialize (E9 Hr1). lia.
        -- apply Hsame; auto; snocs; rewrite ?tick_values_snoc, ?HW, ?app_nil_r; auto. rewrite HD in Hv'. cbn in Hv'. congruence.
        -- apply Hsame; auto; snocs; rewrite ?tick_values_snoc, ?HW, ?app_nil_r; auto. rewrite HD in Hv'. cbn in Hv'. congruence.
        -- apply Hsame; auto; snocs; rewrite ?tick_values_snoc, ?HW, ?app_nil_r; auto. rewrite HD in Hv'. cbn in Hv'. congruence.
      * rewrite open_out. intros (Ho & (b & ->) & Hcl).
        destruct Hp as (_ & Htk & rest & [Hc|Htd]); [cbn in Hc; congruence|]. destruct (T4 Ho) as (V & rest' & E1 & E2 & E3 & E4 & (pre & E5) & E6).
        rewrite values_snoc, tick_values_snoc, HW, !app_nil_r, HF, since_snoc, ticking_snoc.
        cbn [dstep] in HD. rewrite HD in *. rewrite Hv in Hv'. injection Hv' as <-. fold n d.
        exists V, rest. rewrite E1, <- app_assoc. split; auto. split; [cbn in Htd; rewrite Htd, <- app_assoc; auto|]. split; [congruence|].
        cbn zeta. split; auto. split; [exists pre; auto|]. auto.
Qed.

Theorem message_ok fuel depth h m : syss T down user fuel (start T depth) h = Fine m ->
  let tr := w_tr (m_world m) in
  always (relayed s0 down) tr /\ sub (values tr) (written s0 tr) /\
  (regular s0 tr = true -> exists rest, written s0 tr = values tr ++ rest) /\
  answered down (@unsubscribes (mop M) M E) tr /\ w_panic (m_world m) = false.
Proof.
  intros H. destruct (@poll_ok (mop M) M E (option (messages M)) nat X (Some s0) mstep 0 task down user Hpushless mread mtask ltac:(intros ? ? [|]; auto; discriminate) _ _ _ _ H) as (H1 & H2 & H3).
  destruct (told_at H1) as (v & S & Hb & [T1 T2 T3 T4]).
  split; [|split; [auto|split; [auto|split; [auto|]]]].
  - revert H1. apply always_imp. intros p e s Hp Hal [He Hq].
    destruct (told_at Hal) as (v1 & S1 & Hb1 & [U1 U2 U3 U4]). destruct (d_tick_at (Some s0) mstep 0 mread p) as [Ht Hs].
    destruct e as [|t| |c|[b|x| |]]; cbn in *; auto.
    + intros Ho Hsi. destruct (U4 Ho) as (V & rest & E1 & E2 & E3 & E4 & (pre & E5) & E6).
      destruct (He Ho Hsi) as [He'|He']; [cbn in He'; rewrite (sn_miss S1) in He'; discriminate|]. cbn in He'. rewrite He' in *.
      rewrite <- E1 in *. 
      assert (Hn : d_q (due_at p) = ms_start s0 + length (written s0 p)).
      { apply (sn_all S1); rewrite ?Hs, ?Ht; auto. destruct (since p); auto; destruct Hsi; auto. }
      rewrite Hn in *. replace (ms_start s0 + length (written s0 p) - ms_start s0) with (length (written s0 p)) in * by lia.
      rewrite firstn_all in *. split; [exists pre; rewrite (kept_skip S1); auto|]. intros Hr. apply E6; auto.
    + tauto.
  - destruct (w_panic _); auto. specialize (H3 eq_refl). cbn in H3. rewrite (sn_miss S) in H3. discriminate.
Qed.
End Message.
