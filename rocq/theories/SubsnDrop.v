(** [SharedSubscription]: one thread, dropping, and progress. *)
From Verif Require Import Base SubsnModel SubsnProofs SubsnShape.
Set Implicit Arguments.

Section Drop.
  Variable body : nat -> list op.
  Notation exec := (exec body).
  Notation step := (step body).
  Notation run := (run body).
  Notation run_teardown := (run_teardown body).
  Notation captures := (captures body).
  Notation noadds := (noadds body).

  Hypothesis bodies : forall n, ~ In OLast (body n).
  Variable ds : list bool.
  Notation Sh := (Sh body ds).
  Notation thread_ok := (thread_ok body).

  Lemma Sh_run progs sched : Forall2 wf ds progs ->
    Inv (run sched (init progs)) /\ Sh (run sched (init progs)).
  Proof.
    intros F. apply run_ind with (P := fun s => Inv s /\ Sh s).
    - intros t s s' [H1 H2] Hs. split; eauto using Inv_step, Sh_step.
    - split; auto using Inv_init, Sh_init.
  Qed.

  Definition finished (s : st) : Prop := Forall (fun K => K = []) (v_thr s).
  Lemma finished_all s : finished s -> all s = [].
  Proof. unfold finished, all. induction 1 as [|K l -> H IH]; simpl; auto. Qed.

  Lemma thr_ds s t K : Sh s -> nth_error (v_thr s) t = Some K -> exists d, nth_error ds t = Some d.
  Proof.
    intros S HK. destruct (nth_error ds t) eqn:E; eauto. apply nth_error_None in E.
    assert (nth_error (v_thr s) t <> None) by congruence. apply nth_error_Some in H. rewrite (h_len S) in H. lia.
  Qed.

  Lemma in_all s t c K : nth_error (v_thr s) t = Some (c :: K) -> forall f, f c <= cnt f (all s).
  Proof.
    intros H f. destruct (split_nth _ _ H) as [E _]. unfold all. rewrite E, concat_app, cnt_app. simpl.
    rewrite cnt_cons. lia.
  Qed.

  (** An unsubscribe() that still has to try the mutex is not called from a teardown. *)
  Lemma T_free s t c K : Inv s -> Sh s -> nth_error (v_thr s) t = Some (c :: K) -> fT c = 1 ->
    owner s t = false /\ exists d B, nth_error ds t = Some d /\ c :: K = B ++ (if d then [KOp OLast] else []).
  Proof.
    intros I S HK Hc. destruct (thr_ds _ S HK) as [d Hd].
    pose proof (h_thr S _ Hd HK) as H. pose proof (in_all _ _ HK fT) as Hin.
    assert (Hn : forall K', thread_ok d s true (c :: K') -> v_refs s <> 0 -> v_closed s = true -> False).
    { intros K' _ Hr Hcl. destruct (i12 I (or_introl Hcl)) as [[_ H1]|H1]; auto. lia. }
    assert (Hr : v_refs s <> 0).
    { intros H0. destruct (refs_zero S H0 _ Hd HK) as (_ & _ & [E|[E|[r E]]]); try discriminate;
        injection E as -> ->; discriminate. }
    assert (Hcl : v_closed s = false).
    { destruct (v_closed s) eqn:E; auto. destruct (i12 I (or_introl E)) as [[_ H1]|H1]; [lia|contradiction]. }
    remember (owner s t) as o. remember (c :: K) as K0 eqn:EK.
    destruct H as [B Hb Ha | X B Hx Hxa Hxc Hxn Hb Ha | B Hdd Hb | X Hdd Hx Hxa Hxc Hxn | Hdd | Hdd Hf Hnn | r Hdd Hf Hnn].
    - split; auto. exists d, B. auto.
    - exfalso. symmetry in EK. apply cons_app_inv in EK as [[-> EK]|(X' & -> & ->)].
      + injection EK as <- _. discriminate.
      + destruct c; try discriminate; simpl in Hxc; rewrite Hxc in Hcl; auto; discriminate.
    - destruct Hb as [-> | [-> | ->]]; injection EK as <- _; discriminate.
    - exfalso. symmetry in EK. apply cons_app_inv in EK as [[-> EK]|(X' & -> & ->)].
      + injection EK as <- _. discriminate.
      + destruct c; try discriminate; simpl in Hxc; rewrite Hxc in Hcl; auto; discriminate.
    - discriminate.
    - injection EK as <- _. discriminate.
    - injection EK as <- _. discriminate.
  Qed.

  (** One thread: no unsubscribe() is ever deferred. *)
  Definition fDe c := match c with KDefer => 1 | _ => 0 end.
  Lemma plain_teardown n : cnt fDe (run_teardown n) = 0.
  Proof. apply cnt_teardown. split; auto. Qed.

  Definition calm (s : st) : Prop := v_queue s = 0 /\ cnt fDe (all s) = 0.

  Lemma calm_step t s s' : length ds = 1 -> Inv s -> Sh s -> calm s -> step t s = Some s' -> calm s'.
  Proof.
    intros Hone I S [C1 C2] H. apply step_inv in H as (a & b & c & K & l & s1 & Hthr & Hlen & He & ->).
    assert (HK : nth_error (v_thr s) t = Some (c :: K)) by (rewrite Hthr; apply nth_error_mid; auto).
    assert (Hl : cnt fDe l = 0 /\ v_queue s1 = 0).
    { assert (c <> KDefer).
      { intros ->. pose proof (in_all _ _ HK fDe). simpl in H. lia. }
      pose proof (T_free _ I S HK) as TF. pose proof (h_own S) as Ho. pose proof (h_len S) as Hll.
      destruct s as [lk cl fi ob fl q rf pa di lg th0]. simpl in *. subst q.
      destruct c as [o| | |d|k| | | | | |r|n|n| | |]; simpl in *; try contradiction.
      - destruct o; [| |destruct (fl || ob)| |]; injection He as <- <-; auto.
      - injection He as <- <-; auto.
      - destruct lk; injection He as <- <-; auto.
      - destruct (d =? 10); injection He as <- <-; auto.
      - destruct k; [|destruct fl]; injection He as <- <-; auto.
      - injection He as <- <-; auto.
      - destruct ob; injection He as <- <-; auto.
      - destruct lk as [u|]; injection He as <- <-; auto. exfalso.
        destruct TF as [TF _]; auto. unfold owner in TF; simpl in TF. apply Nat.eqb_neq in TF.
        specialize (Ho u eq_refl). assert (t < length th0) by (apply nth_error_Some; congruence). lia.
      - destruct cl; injection He as <- <-; auto.
      - destruct r; injection He as <- <-; auto. rewrite cnt_app, plain_teardown. auto.
      - destruct lk; [discriminate|]. injection He as <- <-; auto.
      - destruct cl; injection He as <- <-; auto. rewrite plain_teardown; auto.
      - destruct lk; injection He as <- <-; auto.
      - injection He as <- <-; auto.
      - destruct (freed _ _); injection He as <- <-; auto. }
    destruct Hl as [Hl Hq]. split; auto. unfold all in *. simpl. rewrite Hthr in C2. rewrite concat_app, cnt_app in *. simpl in *.
    rewrite cnt_cons in C2. rewrite cnt_app in *. rewrite cnt_app. lia.
  Qed.

  (** Dropping: every thread drops its clone at the end. *)
  Section All.
    Hypothesis droppers : Forall (fun d => d = true) ds.

    Lemma dropper t d : nth_error ds t = Some d -> d = true.
    Proof. intros H. apply nth_error_In in H. rewrite Forall_forall in droppers. auto. Qed.
    Lemma no_keepers : keepers ds = 0.
    Proof. unfold keepers. induction droppers as [|d l -> H IH]; auto. Qed.

    Definition keeps (K : list cmd) : Prop :=
      (exists K', K = K' ++ [KOp OLast]) \/ K = [KApply; KGone] \/ K = [KApplyLock; KGone] \/ In (KQueue 0) K.

    Record PQ (s : st) : Prop := {
      q_keep : 0 < v_queue s -> exists t K, nth_error (v_thr s) t = Some K /\ keeps K;
      q_spent : forall t X, v_lock s = Some t -> nth_error (v_thr s) t = Some (X ++ [KUnlock; KGone]) ->
                ~ In (KQueue 0) X -> v_observed s = true /\ v_queue s + cnt fT (all s) = 0;
      q_clean : v_dirty s = false;
      q_gone : v_refs s = 0 -> v_thr s <> [] ->
               v_closed s = true \/ 0 < cnt fD (all s) \/ existsb captures (v_fins s) = true
    }.

    Lemma exec_T t c s l s1 : exec t c s = Some (l, s1) -> v_observed s = true ->
      v_observed s1 = true /\ v_queue s1 + cnt fT l <= v_queue s + fT c.
    Proof.
      intros He Hob. destruct s as [lk cl fi ob fl q rf pa di lg th0]. simpl in *. subst ob.
      assert (PT : forall n, cnt fT (run_teardown n) = 0) by (intros; apply cnt_teardown; split; auto).
      destruct c as [o| | |d|k| | | | | |r|n|n| | |]; simpl in *.
      - destruct o; try rewrite orb_true_r in He; injection He as <- <-; simpl; unfold cnt; simpl; split; auto; lia.
      - injection He as <- <-; simpl. destruct (q =? 0); unfold cnt; simpl; split; auto; lia.
      - destruct lk; injection He as <- <-; simpl; unfold cnt; simpl; split; auto; lia.
      - destruct (d =? 10); [|destruct (q =? 0)]; injection He as <- <-; simpl; unfold cnt; simpl; split; auto; lia.
      - destruct k; [|destruct fl]; injection He as <- <-; simpl; unfold cnt; simpl; split; auto; lia.
      - injection He as <- <-; simpl; unfold cnt; simpl; split; auto; lia.
      - injection He as <- <-; simpl; unfold cnt; simpl; split; auto; lia.
      - destruct lk; injection He as <- <-; simpl; unfold cnt; simpl; split; auto; lia.
      - destruct fl; injection He as <- <-; simpl; unfold cnt; simpl; split; auto; lia.
      - destruct cl; injection He as <- <-; simpl; unfold cnt; simpl; split; auto; lia.
      - destruct r; injection He as <- <-; simpl; rewrite ?cnt_app, ?PT; unfold cnt; simpl; split; auto; lia.
      - destruct lk; [discriminate|]; injection He as <- <-; simpl; unfold cnt; simpl; split; auto; lia.
      - destruct cl; injection He as <- <-; simpl; rewrite ?PT; unfold cnt; simpl; split; auto; lia.
      - destruct lk; injection He as <- <-; simpl; unfold cnt; simpl; split; auto; lia.
      - injection He as <- <-; simpl; unfold cnt; simpl; split; auto; lia.
      - destruct (freed _ _); injection He as <- <-; [destruct (q =? 0)|]; simpl; unfold cnt; simpl; split; auto; lia.
    Qed.

    Lemma exec_queue t c s l s1 : exec t c s = Some (l, s1) -> v_queue s1 <= v_queue s \/ c = KDefer.
    Proof.
      intros He. destruct s as [lk cl fi ob fl q rf pa di lg th0].
      destruct c as [o| | |d|k| | | | | |r|n|n| | |]; simpl in *; auto; left.
      - destruct o; [| |destruct (fl || ob)| |]; injection He as <- <-; auto.
      - injection He as <- <-; auto.
      - destruct lk; injection He as <- <-; auto.
      - destruct (d =? 10); [|destruct (q =? 0)]; injection He as <- <-; simpl; lia.
      - destruct k; [|destruct fl]; injection He as <- <-; auto.
      - injection He as <- <-; auto.
      - injection He as <- <-; auto.
      - destruct lk; injection He as <- <-; auto.
      - destruct cl; injection He as <- <-; auto.
      - destruct r; injection He as <- <-; auto.
      - destruct lk; [discriminate|]; injection He as <- <-; auto.
      - destruct cl; injection He as <- <-; auto.
      - destruct lk; injection He as <- <-; auto.
      - injection He as <- <-; auto.
      - destruct (freed _ _); injection He as <- <-; [destruct (q =? 0)|]; auto.
    Qed.

    Lemma exec_dirty t c s l s1 : exec t c s = Some (l, s1) -> v_dirty s = false ->
      v_dirty s1 = false \/ (c = KGone /\ v_refs s - 1 = 0 /\ 0 < v_queue s).
    Proof.
      intros He Hd. destruct s as [lk cl fi ob fl q rf pa di lg th0]. simpl in *. subst di.
      destruct c as [o| | |d|k| | | | | |r|n|n| | |]; simpl in *.
      - destruct o; [| |destruct (fl || ob)| |]; injection He as <- <-; auto.
      - injection He as <- <-; auto.
      - destruct lk; injection He as <- <-; auto.
      - destruct (d =? 10); [|destruct (q =? 0)]; injection He as <- <-; auto.
      - destruct k; [|destruct fl]; injection He as <- <-; auto.
      - injection He as <- <-; auto.
      - injection He as <- <-; auto.
      - destruct lk; injection He as <- <-; auto.
      - destruct fl; injection He as <- <-; auto.
      - destruct cl; injection He as <- <-; auto.
      - destruct r; injection He as <- <-; auto.
      - destruct lk; [discriminate|]; injection He as <- <-; auto.
      - destruct cl; injection He as <- <-; auto.
      - destruct lk; injection He as <- <-; auto.
      - injection He as <- <-; auto.
      - unfold freed in He; simpl in He. destruct (rf - 1 =? 0) eqn:Er; simpl in He; [|injection He as <- <-; auto].
        apply Nat.eqb_eq in Er.
        destruct (negb (existsb captures fi)); injection He as <- <-; auto.
        destruct (Nat.eqb_spec q 0); auto. right. repeat split; auto. lia.
    Qed.

    Lemma exec_gone t c s l s1 : exec t c s = Some (l, s1) -> forall m,
      (v_refs s = 0 -> v_closed s = true \/ 0 < fD c + m \/ existsb captures (v_fins s) = true) ->
      v_refs s1 = 0 -> v_closed s1 = true \/ 0 < cnt fD l + m \/ existsb captures (v_fins s1) = true.
    Proof.
      intros He m Hm Hz. destruct s as [lk cl fi ob fl q rf pa di lg th0]. simpl in *.
      destruct c as [o| | |d|k| | | | | |r|n|n| | |]; simpl in *.
      - destruct o; [| |destruct (fl || ob)| |]; injection He as <- <-; simpl in *; destruct (Hm Hz) as [?|[?|?]]; auto; right; left; lia.
      - injection He as <- <-; simpl in *; destruct (Hm Hz) as [?|[?|?]]; auto; right; left; lia.
      - destruct lk; injection He as <- <-; simpl in *; destruct (Hm Hz) as [?|[?|?]]; auto; right; left; unfold cnt; simpl; lia.
      - destruct (d =? 10); [|destruct (q =? 0)]; injection He as <- <-; simpl in *; destruct (Hm Hz) as [?|[?|?]]; auto; right; left; lia.
      - destruct k; [|destruct fl]; injection He as <- <-; simpl in *; destruct (Hm Hz) as [?|[?|?]]; auto; right; left; lia.
      - injection He as <- <-; simpl in *; destruct (Hm Hz) as [?|[?|?]]; auto; right; left; lia.
      - injection He as <- <-; simpl in *; destruct (Hm Hz) as [?|[?|?]]; auto; right; left; lia.
      - destruct lk; injection He as <- <-; simpl in *; destruct (Hm Hz) as [?|[?|?]]; auto; right; left; lia.
      - destruct fl; injection He as <- <-; simpl in *; destruct (Hm Hz) as [?|[?|?]]; auto; right; left; lia.
      - destruct cl; injection He as <- <-; simpl in *; auto.
      - destruct r; injection He as <- <-; simpl in *; destruct (Hm Hz) as [?|[?|?]]; auto; right; left; lia.
      - destruct lk; [discriminate|]; injection He as <- <-; simpl in *; destruct (Hm Hz) as [?|[?|?]]; auto; right; left; lia.
      - destruct cl; injection He as <- <-; simpl in *; destruct (Hm Hz) as [?|[?|H0]]; auto; try (right; left; lia).
        right; right. rewrite existsb_app, H0. auto.
      - destruct lk; injection He as <- <-; simpl in *; destruct (Hm Hz) as [?|[?|?]]; auto; right; left; lia.
      - injection He as <- <-; simpl in *; destruct (Hm Hz) as [?|[?|?]]; auto; right; left; lia.
      - unfold freed in He; simpl in He. destruct (existsb captures fi) eqn:Ec.
        + rewrite andb_false_r in He. injection He as <- <-. auto.
        + rewrite andb_true_r in He. destruct (rf - 1 =? 0) eqn:Er; injection He as <- <-.
          * right; left. rewrite cnt_cons. simpl. lia.
          * simpl in Hz. rewrite Hz in Er. discriminate.
    Qed.

    Lemma snoc_neq A (a b : list A) x y : a ++ [x] = b ++ [y] -> x <> y -> False.
    Proof. intros H Hn. apply app_inj_tail in H as [_ H]. auto. Qed.

    Lemma PQ_step t s s' : Inv s -> Sh s -> PQ s -> step t s = Some s' -> PQ s'.
    Proof.
      intros I S Q H. apply step_inv in H as (a & b & c & K & l & s1 & Hthr & Hlen & He & ->).
      assert (HK : nth_error (v_thr s) t = Some (c :: K)) by (rewrite Hthr; apply nth_error_mid; auto).
      destruct (thr_ds _ S HK) as [d Hd]. pose proof (dropper _ Hd); subst d.
      pose proof (h_thr S _ Hd HK) as Hself.
      assert (HKt : nth_error (a ++ (l ++ K) :: b) t = Some (l ++ K)) by (apply nth_error_mid; auto).
      assert (HKu : forall u, u <> t -> nth_error (a ++ (l ++ K) :: b) u = nth_error (v_thr s) u).
      { intros u Hu. rewrite Hthr. eapply nth_error_other; eauto. }
      assert (Hst : v_observed s = true -> v_queue s + cnt fT (all s) = 0 ->
        v_observed s1 = true /\ v_queue s1 + cnt fT (all (with_thr s1 (a ++ (l ++ K) :: b))) = 0).
      { intros Ho Hz. destruct (exec_T _ _ _ He Ho) as [H1 H2]. split; auto. unfold all in *. simpl. rewrite Hthr in Hz.
        rewrite concat_app, cnt_app in *. simpl in *. rewrite cnt_cons in Hz. rewrite !cnt_app in *. lia. }
      constructor; simpl.
      - (* keeps *)
        intros Hq. destruct (Nat.eq_dec (v_queue s) 0) as [Hz|Hz].
        + (* it has just been deferred *)
          destruct (exec_queue _ _ _ He) as [?|Hc]; [lia|]. subst c.
          destruct (T_free _ I S HK eq_refl) as (_ & d & B & Hd' & E). rewrite Hd in Hd'. injection Hd' as <-.
          exists t, (l ++ K). split; auto. left. apply cons_app_inv in E as [[-> E]|(B' & -> & ->)]; [discriminate|].
          exists (l ++ B'). rewrite app_assoc. auto.
        + destruct (q_keep Q) as (u & Ku & Hu & Hk); [lia|].
          destruct (Nat.eq_dec u t) as [->|Hne]; [|exists u, Ku; rewrite HKu by auto; auto].
          rewrite HK in Hu. injection Hu as <-.
          destruct Hk as [[K' E]|[E|[E|Hin]]].
          * exists t, (l ++ K). split; auto. apply cons_app_inv in E as [[-> E]|(K'' & -> & ->)].
            -- injection E as <- <-. simpl in He. injection He as <- <-. right; left; auto.
            -- left. exists (l ++ K''). rewrite app_assoc. auto.
          * injection E as -> ->. simpl in He. injection He as <- <-. exists t. eexists; split; [eassumption|].
            destruct (v_queue s) eqn:Eq; [lia|]. simpl. right; right; left; auto.
          * injection E as -> ->. simpl in He. destruct (v_lock s) as [u|] eqn:Elk; injection He as <- <-.
            -- assert (Ho : owner s t = false).
               { remember [KApplyLock; KGone] as K0 eqn:EK. destruct Hself as [B Hb Ha | X B Hx Hxa Hxc Hxn Hb Ha | B Hdd Hb | X Hdd Hx Hxa Hxc Hxn | Hdd | Hdd Hf Hnn | r Hdd Hf Hnn]; auto.
                 - exfalso. change [KApplyLock; KGone] with ([KApplyLock] ++ [KGone]) in EK. change (KUnlock :: B ++ [KOp OLast]) with ((KUnlock :: B) ++ [KOp OLast]) in EK.
                   rewrite app_assoc in EK. eapply snoc_neq in EK; auto; discriminate.
                 - exfalso. destruct X as [|x [|y X]]; try discriminate.
                   destruct X as [|z X]; discriminate. }
               assert (Hne : u <> t) by (unfold owner in Ho; rewrite Elk in Ho; apply Nat.eqb_neq; auto).
               assert (Hu : exists Ku, nth_error (v_thr s) u = Some Ku).
               { destruct (nth_error (v_thr s) u) eqn:E; eauto. apply nth_error_None in E. pose proof (h_own S Elk). lia. }
               destruct Hu as [Ku Hu]. exists u, Ku. rewrite HKu by auto. split; auto.
               destruct (thr_ds _ S Hu) as [d Hdu]. pose proof (dropper _ Hdu); subst d.
               pose proof (h_thr S _ Hdu Hu) as Hku. unfold owner in Hku. rewrite Elk, Nat.eqb_refl in Hku.
               pose proof (fun X => q_spent Q X Elk) as Qs.
               remember true as o eqn:Eo in Hku at 2.
               destruct Hku as [B Hb Ha | X B Hx Hxa Hxc Hxn Hb Ha | B Hdd Hb | X Hdd Hx Hxa Hxc Hxn | Hdd | Hdd Hf Hnn | r Hdd Hf Hnn]; try discriminate.
               ++ left. exists (X ++ KUnlock :: B). rewrite <- app_assoc. auto.
               ++ right; right; right. destruct (in_dec (fun x y : cmd => ltac:(repeat decide equality) : {x = y} + {x <> y}) (KQueue 0) X) as [Hi|Hi].
                  ** apply in_or_app; auto.
                  ** destruct (Qs X Hu Hi). lia.
            -- exists t. eexists; split; [eassumption|]. right; right; right. left; auto.
          * exists t, (l ++ K). split; auto. right; right; right. destruct Hin as [->|Hin]; [|apply in_or_app; auto].
            exfalso. simpl in He. destruct (Nat.eqb_spec (v_queue s) 0); injection He as <- <-; simpl in Hq; lia.
      - (* spent *)
        intros u X Hlk Hu Hx. destruct (Nat.eq_dec u t) as [->|Hne].
        + rewrite HKt in Hu. injection Hu as Hu. destruct (owner s t) eqn:Ow.
          * remember (c :: K) as K0 eqn:EK. remember true as o eqn:Eo in Hself at 2.
            destruct Hself as [B Hb Ha | X0 B Hx0 Hxa Hxc Hxn Hb Ha | B Hdd Hb | X0 Hdd Hx0 Hxa Hxc Hxn | Hdd | Hdd Hf Hnn | r Hdd Hf Hnn]; try discriminate.
            -- exfalso. symmetry in EK. apply cons_app_inv in EK as [[-> EK]|(X' & -> & EK)].
               ++ injection EK as <- <-. simpl in He. injection He as <- <-. discriminate.
               ++ subst K. change (KUnlock :: B ++ [KOp OLast]) with ((KUnlock :: B) ++ [KOp OLast]) in Hu.
                  change [KUnlock; KGone] with ([KUnlock] ++ [KGone]) in Hu. rewrite !app_assoc in Hu.
                  eapply snoc_neq in Hu; auto; discriminate.
            -- symmetry in EK. apply cons_app_inv in EK as [[-> EK]|(X' & -> & EK)].
               ++ injection EK as <- <-. simpl in He. injection He as <- <-. discriminate.
               ++ subst K. rewrite app_assoc in Hu. apply app_inv_tail in Hu. subst X.
                  assert (Elk : v_lock s = Some t).
                  { unfold owner in Ow. destruct (v_lock s); [|discriminate]. apply Nat.eqb_eq in Ow as ->; auto. }
                  destruct (Bool.bool_dec (match c with KQueue 0 => true | _ => false end) true) as [Ec|Ec].
                  ** assert (c = KQueue 0) by (destruct c as [| | |[|d]| | | | | | | | | | | |]; auto; discriminate). subst c.
                     pose proof (in_all _ _ HK fA) as Hin. simpl in Hin. destruct (i3 I) as [Ho HT]; [lia|].
                     simpl in He. unfold all in *. simpl. rewrite Hthr, concat_app, cnt_app in HT. rewrite concat_app, cnt_app. simpl in *.
                     rewrite cnt_cons in HT. rewrite !cnt_app in *.
                     destruct (Nat.eqb_spec (v_queue s) 0); injection He as <- <-; simpl; split; auto; simpl in HT; rewrite ?cnt_cons, ?cnt_nil; simpl; lia.
                  ** destruct (q_spent Q (c :: X') Elk) as [Ho Hz]; auto.
                     intros [->|Hi]; [apply Ec; auto|]. apply Hx. apply in_or_app; auto.
          * exfalso.
            assert (Hacq : v_lock s = None /\ v_lock s1 = Some t).
            { destruct (lock_trans body _ _ _ He) as [E|[E|[-> E]]]; auto; [|congruence].
              unfold owner in Ow. rewrite E in Hlk. rewrite Hlk, Nat.eqb_refl in Ow. discriminate. }
            destruct Hacq as [E1 E2]. remember (c :: K) as K0 eqn:EK. remember false as o eqn:Eo in Hself.
            destruct Hself as [B Hb Ha | X0 B Hx0 Hxa Hxc Hxn Hb Ha | B Hdd Hb | X0 Hdd Hx0 Hxa Hxc Hxn | Hdd | Hdd Hf Hnn | r Hdd Hf Hnn]; try discriminate.
            -- symmetry in EK. apply cons_app_inv in EK as [[-> EK]|(X' & -> & EK)].
               ++ injection EK as <- <-. simpl in He. injection He as <- <-. simpl in E2. congruence.
               ++ subst K. change [KUnlock; KGone] with ([KUnlock] ++ [KGone]) in Hu. rewrite !app_assoc in Hu.
                  eapply snoc_neq in Hu; auto; discriminate.
            -- destruct Hb as [-> | [-> | ->]]; injection EK as <- <-; simpl in He.
               ++ injection He as <- <-. congruence.
               ++ rewrite E1 in He. injection He as <- <-. simpl in Hu.
                  destruct X as [|x X]; [discriminate|]. injection Hu as <- _. apply Hx. left; auto.
               ++ destruct (freed _ _); injection He as <- <-; [destruct (v_queue s =? 0)|]; simpl in E2; congruence.
            -- injection EK as <- <-. simpl in He. destruct (v_closed s); injection He as <- <-; simpl in E2; congruence.
            -- injection EK as <- <-. simpl in He. destruct r; injection He as <- <-; simpl in E2; congruence.
        + rewrite HKu in Hu by auto.
          assert (Elk : v_lock s = Some u).
          { destruct (lock_trans body _ _ _ He) as [E|[[_ E]|[_ E]]]; congruence. }
          destruct (q_spent Q X Elk Hu Hx) as [Ho Hz]. auto.
      - (* clean *)
        destruct (exec_dirty _ _ _ He (q_clean Q)) as [?|(-> & Hr & Hq)]; auto. exfalso.
        destruct (q_keep Q Hq) as (u & Ku & Hu & Hk).
        pose proof (h_refs S) as HR. rewrite no_keepers in HR. unfold all in HR. rewrite Hthr, concat_app, cnt_app in HR. simpl in HR.
        rewrite cnt_cons, cnt_app in HR. simpl in HR.
        destruct (Nat.eq_dec u t) as [->|Hne].
        + rewrite HK in Hu. injection Hu as <-. remember (KGone :: K) as K0 eqn:EK.
          destruct Hself as [B Hb Ha | X B Hx Hxa Hxc Hxn Hb Ha | B Hdd Hb | X Hdd Hx Hxa Hxc Hxn | Hdd | Hdd Hf Hnn | r Hdd Hf Hnn]; try discriminate.
          * symmetry in EK. apply cons_app_inv in EK as [[-> EK]|(B' & -> & _)]; discriminate.
          * symmetry in EK. apply cons_app_inv in EK as [[-> EK]|(B' & -> & _)]; discriminate.
          * destruct Hb as [-> | [-> | ->]]; try discriminate.
            destruct Hk as [[K' E]|[E|[E|[E|[]]]]]; try discriminate. change ([] ++ [KGone]) with ([] ++ [KGone] : list cmd) in E.
            eapply snoc_neq in E; auto; discriminate.
          * symmetry in EK. apply cons_app_inv in EK as [[-> EK]|(B' & -> & _)]; discriminate.
        + assert (Hc : cnt fL Ku = 0).
          { destruct (split_nth _ _ Hu) as [E _].
            assert (Hin : cnt fL Ku <= cnt fL (concat a) + cnt fL (concat b)).
            { rewrite Hthr in Hu. rewrite (nth_error_other a b _ [] (t := t)) in Hu by auto.
              destruct (split_nth _ _ Hu) as [E' _].
              assert (X : cnt fL (concat (a ++ [] :: b)) = cnt fL (concat a) + cnt fL (concat b)) by (rewrite concat_app, cnt_app; auto).
              rewrite <- X, E', concat_app, cnt_app. simpl. rewrite cnt_app. lia. }
            lia. }
          destruct (thr_ds _ S Hu) as [d Hdu]. pose proof (dropper _ Hdu); subst d.
          destruct (dead_shape (h_thr S _ Hdu Hu) eq_refl Hc) as [_ [->|[Hz _]]].
          * destruct Hk as [[K' E]|[E|[E|[]]]]; try discriminate. destruct K'; discriminate.
          * destruct (refs_zero S Hz _ Hdu Hu) as (_ & _ & [->|[->|[r ->]]]);
              destruct Hk as [[K' E]|[E|[E|E]]]; try discriminate.
            -- destruct K'; discriminate.
            -- destruct E.
            -- destruct K' as [|x [|y K']]; discriminate.
            -- destruct E as [E|[]]; discriminate.
            -- destruct K' as [|x [|y K']]; discriminate.
            -- destruct E as [E|[]]; discriminate.
      - (* gone *)
        intros Hz _. unfold all. simpl. rewrite concat_app, cnt_app. simpl. rewrite cnt_app.
        destruct (exec_gone _ _ _ He (cnt fD (concat a) + (cnt fD K + cnt fD (concat b)))) as [?|[?|?]]; auto.
        + intros H0. destruct (q_gone Q H0) as [?|[Hn|?]]; auto.
          * rewrite Hthr. destruct a; discriminate.
          * right; left. unfold all in Hn. rewrite Hthr, concat_app, cnt_app in Hn. simpl in Hn. rewrite cnt_cons, cnt_app in Hn. lia.
        + right; left. rewrite cnt_app. lia.
    Qed.

    Lemma PQ_init progs : Forall2 wf ds progs -> PQ (init progs).
    Proof.
      intros F. constructor; simpl; auto; try lia; try discriminate.
      destruct progs; simpl; [contradiction|discriminate].
    Qed.

    Lemma PQ_run progs sched : Forall2 wf ds progs ->
      let s := run sched (init progs) in Inv s /\ Sh s /\ PQ s.
    Proof.
      intros F. cbv zeta. apply run_ind with (P := fun s => Inv s /\ Sh s /\ PQ s).
      - intros t s s' (H1 & H2 & H3) Hs. split; [|split]; eauto using Inv_step, Sh_step, PQ_step.
      - split; [|split]; auto using Inv_init, Sh_init, PQ_init.
    Qed.

    Lemma finished_gone s : Inv s -> Sh s -> PQ s -> finished s -> v_thr s <> [] ->
      v_queue s = 0 /\ v_refs s = 0 /\ v_dirty s = false /\
      (v_observed s = true -> v_closed s = true) /\
      (v_closed s = true \/ existsb captures (v_fins s) = true).
    Proof.
      intros I S Q F Hne. pose proof (finished_all F) as Ha.
      assert (Hq : v_queue s = 0).
      { destruct (Nat.eq_dec (v_queue s) 0); auto. destruct (q_keep Q) as (t & K & HK & Hk); [lia|].
        apply nth_error_In in HK. unfold finished in F. rewrite Forall_forall in F. apply F in HK. subst K.
        destruct Hk as [[K' E]|[E|[E|[]]]]; try discriminate. destruct K'; discriminate. }
      assert (Hr : v_refs s = 0) by (rewrite (h_refs S), Ha, no_keepers; auto).
      repeat split; auto.
      - apply (q_clean Q).
      - intros Ho. assert (Z : v_queue s + cnt fT (all s) + cnt fN (all s) = 0) by (rewrite Hq, Ha; auto).
        destruct (i7 I Ho Z) as [?|X]; auto. rewrite Ha, cnt_nil in X; lia.
      - destruct (q_gone Q Hr Hne) as [?|[X|?]]; auto. rewrite Ha, cnt_nil in X; lia.
    Qed.
  End All.

  (** No deadlock. *)
  Lemma exec_blocks t c s : exec t c s = None -> (exists n, c = KLock n) /\ exists u, v_lock s = Some u.
  Proof.
    intros He. destruct c as [o| | |d|k| | | | | |r|n|n| | |]; simpl in *; try discriminate.
    - destruct o; try discriminate. destruct (v_flag s || v_observed s); discriminate.
    - destruct (v_lock s); discriminate.
    - destruct (d =? 10); [|destruct (v_queue s =? 0)]; discriminate.
    - destruct k; discriminate.
    - destruct (v_lock s); discriminate.
    - destruct (v_closed s); discriminate.
    - destruct r; discriminate.
    - destruct (v_lock s); [eauto|discriminate].
    - destruct (v_closed s); discriminate.
    - destruct (v_lock s); discriminate.
    - destruct (freed _ _); discriminate.
  Qed.

  Lemma progress s : noadds -> Sh s -> (forall t, step t s = None) -> finished s.
  Proof.
    intros Hn S Hs. apply Forall_forall. intros K HK. apply In_nth_error in HK as [t HK].
    destruct K as [|c K]; auto. exfalso.
    pose proof (Hs t) as Ht. unfold SubsnModel.step in Ht. rewrite HK in Ht.
    destruct (exec t c s) as [[l s1]|] eqn:He; [discriminate|].
    apply exec_blocks in He as [_ [u Hu]].
    assert (X : exists Ku, nth_error (v_thr s) u = Some Ku).
    { destruct (nth_error (v_thr s) u) eqn:E; eauto. apply nth_error_None in E. pose proof (h_own S Hu). lia. }
    destruct X as [Ku HKu]. destruct (thr_ds _ S HKu) as [d Hd].
    pose proof (h_thr S _ Hd HKu) as H. unfold owner in H. rewrite Hu, Nat.eqb_refl in H.
    pose proof (Hs u) as Hsu. unfold SubsnModel.step in Hsu. rewrite HKu in Hsu.
    remember true as o eqn:Eo in H.
    destruct H as [B Hb Ha | X B Hx Hxa Hxc Hxn Hb Ha | B Hdd Hb | X Hdd Hx Hxa Hxc Hxn | Hdd | Hdd Hf Hnn | r Hdd Hf Hnn]; try discriminate.
    - destruct X as [|x X]; simpl in Hsu; [discriminate|].
      destruct (exec u x s) as [[l s1]|] eqn:Hx'; [discriminate|]. apply exec_blocks in Hx' as [[n ->] _].
      specialize (Hxn Hn). discriminate.
    - destruct X as [|x X]; simpl in Hsu; [discriminate|].
      destruct (exec u x s) as [[l s1]|] eqn:Hx'; [discriminate|]. apply exec_blocks in Hx' as [[n ->] _].
      specialize (Hxn Hn). discriminate.
  Qed.
End Drop.

(** No livelock: every step takes something off. *)
Section Measure.
  Variable body : nat -> list op.
  Notation exec := (exec body).
  Notation step := (step body).
  Notation run_teardown := (run_teardown body).
  Hypothesis adds : noadds body.

  Definition w0 (o : op) : nat := match o with OUnsub => 22 | OAdd _ => 0 | OAsk => 3 | OPart => 5 | OLast => 8 end.
  Definition wt (n : nat) : nat := list_sum (map w0 (body n)) + 4.
  Definition wc (c : cmd) : nat :=
    match c with
    | KOp (OAdd n) => 5 + wt n
    | KOp o => w0 o
    | KApply => 4 | KApplyLock => 3 | KQueue _ => 1 | KNotes k => 1 + 4 * k | KFlag => 1
    | KObserve => 13 | KTryUnsub => 12 | KDefer => 11 | KData => 2
    | KRun l => 1 + list_sum (map (fun n => 1 + wt n) l)
    | KLock n => 4 + wt n | KPush n => 2 + wt n | KAskLock => 2 | KUnlock => 1 | KGone => 3
    end.
  Definition mass (s : st) : nat :=
    cnt wc (all s) + 10 * v_queue s + list_sum (map (fun n => 1 + wt n) (v_fins s)).

  Lemma wt_run n : cnt wc (run_teardown n) <= wt n.
  Proof.
    unfold SubsnModel.run_teardown, wt. pose proof (adds n) as Hb. destruct (body n) as [|o l]; [unfold cnt; simpl; lia|].
    revert Hb. generalize (o :: l). intros l0 Hb. rewrite cnt_app, cnt_cons, cnt_nil. simpl wc.
    enough (cnt wc (map KOp l0) <= list_sum (map w0 l0)) by lia.
    induction l0 as [|p l0 IH]; [unfold cnt; simpl; lia|]. cbn [map list_sum fold_right]. rewrite cnt_cons.
    assert (wc (KOp p) = w0 p) by (destruct p; auto; exfalso; apply (Hb n0); left; auto).
    assert (cnt wc (map KOp l0) <= list_sum (map w0 l0)) by (apply IH; intros m Hm; apply (Hb m); right; auto).
    unfold list_sum in *. lia.
  Qed.

  Lemma sum_app a b : list_sum (a ++ b) = list_sum a + list_sum b.
  Proof. induction a; simpl; lia. Qed.

  Lemma exec_mass t c s l s1 : exec t c s = Some (l, s1) ->
    cnt wc l + 10 * v_queue s1 + list_sum (map (fun n => 1 + wt n) (v_fins s1)) <
    wc c + 10 * v_queue s + list_sum (map (fun n => 1 + wt n) (v_fins s)).
  Proof.
    intros He. destruct s as [lk cl fi ob fl q rf pa di lg th0].
    destruct c as [o| | |d|k| | | | | |r|n|n| | |]; simpl in He.
    - destruct o; [| |destruct (fl || ob)| |]; injection He as <- <-; unfold cnt; simpl; lia.
    - injection He as <- <-; destruct (q =? 0); unfold cnt; simpl; lia.
    - destruct lk; injection He as <- <-; unfold cnt; simpl; lia.
    - destruct (d =? 10); [|destruct (Nat.eqb_spec q 0)]; injection He as <- <-; unfold cnt; simpl; lia.
    - destruct k; [|destruct fl]; injection He as <- <-; unfold cnt; simpl; lia.
    - injection He as <- <-; unfold cnt; simpl; lia.
    - destruct ob; injection He as <- <-; unfold cnt; simpl; lia.
    - destruct lk; injection He as <- <-; unfold cnt; simpl; lia.
    - destruct fl; injection He as <- <-; unfold cnt; simpl; lia.
    - destruct cl; injection He as <- <-; unfold cnt; simpl; lia.
    - destruct r as [|n r]; injection He as <- <-; [unfold cnt; simpl; lia|].
      rewrite cnt_app, cnt_cons, cnt_nil. pose proof (wt_run n). simpl. lia.
    - destruct lk; [discriminate|]; injection He as <- <-; unfold cnt; simpl; lia.
    - pose proof (wt_run n). destruct cl; injection He as <- <-; simpl; [lia|].
      rewrite map_app, sum_app. unfold cnt. simpl. lia.
    - destruct lk; injection He as <- <-; unfold cnt; simpl; lia.
    - injection He as <- <-; unfold cnt; simpl; lia.
    - destruct (freed _ _); injection He as <- <-; [destruct (q =? 0)|]; unfold cnt; simpl; lia.
  Qed.

  Lemma step_mass t s s' : step t s = Some s' -> mass s' < mass s.
  Proof.
    intros H. apply step_inv in H as (a & b & c & K & l & s1 & Hthr & Hlen & He & ->).
    apply exec_mass in He. unfold mass, all. simpl v_thr. rewrite Hthr, !concat_app, !cnt_app. simpl concat.
    change ((c :: K) ++ concat b) with (c :: (K ++ concat b)). rewrite cnt_cons, !cnt_app. simpl v_queue. simpl v_fins. lia.
  Qed.

  (** The number of steps taken. *)
  Fixpoint taken (sched : list nat) (s : st) : nat :=
    match sched with
    | [] => 0
    | t :: r => match step t s with Some s' => S (taken r s') | None => taken r s end
    end.
  Lemma taken_mass sched : forall s, taken sched s <= mass s.
  Proof.
    induction sched as [|t r IH]; intros s; simpl; [lia|].
    destruct (step t s) as [s'|] eqn:E; auto. apply step_mass in E. pose proof (IH s'). lia.
  Qed.
End Measure.

(** The statements of C55. *)
Section Final.
  Variable body : nat -> list op.
  Notation run := (run body).

  Lemma in_order progs sched : let s := run sched (init progs) in exists rest,
    stored (v_log s) = ran (v_log s) ++ rest /\ (finished s -> rest = v_fins s) /\
    (finished s -> v_closed s = true -> rest = []).
  Proof.
    cbv zeta. pose proof (Inv_run body progs sched) as I. exists (drains (all (run sched (init progs))) ++ v_fins (run sched (init progs))).
    split; [apply (i11 I)|]. split; intros F; [|intros Hc; rewrite (i10 I Hc)]; rewrite (finished_all F); auto.
  Qed.

  Lemma only_asked progs sched e : let s := run sched (init progs) in
    (exists n, e = VRun n) \/ (exists n, e = VLate n) \/ (exists t, e = VAnswer t true) ->
    In e (v_log s) -> (exists t, In (VBegin t OUnsub) (v_log s)) \/ v_refs s = 0.
  Proof.
    cbv zeta. destruct (InvL_run body progs sched) as [I [L1 L2 L3]]. set (s := run sched (init progs)) in *.
    assert (Hc : v_closed s = true -> asked (v_log s) \/ v_refs s = 0).
    { intros Hc. destruct (i12 I (or_introl Hc)) as [[Ho _]|?]; auto. }
    intros [[n ->]|[[n ->]|[t ->]]] Hin.
    - apply Hc, (L2 n); auto.
    - apply Hc, (L2 n); auto.
    - destruct (L3 _ Hin); auto. left. apply L1; auto.
  Qed.

  Lemma no_panic progs sched : let s := run sched (init progs) in v_panic s = false /\ v_queue s <= 1.
  Proof. cbv zeta. pose proof (Inv_run body progs sched) as I. split; [apply (i8 I)|]. pose proof (i1 I). lia. Qed.

  Hypothesis bodies : forall n, ~ In OLast (body n).

  Lemma finished_asked progs sched : let s := run sched (init progs) in
    finished s -> (exists t, In (VBegin t OUnsub) (v_log s)) -> v_observed s = true.
  Proof.
    cbv zeta. intros F Ha. destruct (seen_ask_run body progs sched Ha) as [?|H]; auto.
    rewrite (finished_all F), cnt_nil in H. lia.
  Qed.

  Lemma one_thread d p sched : wf d p -> let s := run sched (init [p]) in
    finished s -> (exists t, In (VBegin t OUnsub) (v_log s)) ->
    v_closed s = true /\ ran (v_log s) = stored (v_log s).
  Proof.
    cbv zeta. intros Hw F Ha.
    assert (F2 : Forall2 wf [d] [p]) by auto.
    assert (X : Inv (run sched (init [p])) /\ Sh body [d] (run sched (init [p])) /\ calm (run sched (init [p]))).
    { apply run_ind with (P := fun s => Inv s /\ Sh body [d] s /\ calm s).
      - intros t s s' (H1 & H2 & H3) Hs. split; [eapply Inv_step; eauto|split; [eapply Sh_step; eauto|]].
        eapply calm_step with (ds := [d]); eauto.
      - split; [|split]; auto using Inv_init, Sh_init. split; auto. unfold all; simpl. rewrite app_nil_r.
        clear. induction p as [|o p IH]; auto. }
    destruct X as (I & S & Q & _).
    pose proof (finished_asked _ _ F Ha) as Ho.
    assert (Z : v_queue (run sched (init [p])) + cnt fT (all (run sched (init [p]))) + cnt fN (all (run sched (init [p]))) = 0)
      by (rewrite Q, (finished_all F); auto).
    destruct (i7 I Ho Z) as [Hc|X]; [|rewrite (finished_all F), cnt_nil in X; lia].
    split; auto. rewrite (i11 I), (finished_all F), (i10 I Hc). simpl. rewrite app_nil_r. auto.
  Qed.

  Lemma dropped progs sched : Forall (wf true) progs -> progs <> [] -> let s := run sched (init progs) in
    v_dirty s = false /\
    (finished s -> (exists t, In (VBegin t OUnsub) (v_log s)) \/ existsb (captures body) (v_fins s) = false ->
     v_closed s = true /\ ran (v_log s) = stored (v_log s)).
  Proof.
    cbv zeta. intros Hw Hne.
    assert (F2 : Forall2 wf (map (fun _ => true) progs) progs) by (clear Hne; induction Hw; simpl; auto).
    assert (D : Forall (fun d => d = true) (map (fun _ : list op => true) progs)) by (apply Forall_forall; intros d Hd; apply in_map_iff in Hd as (x & <- & _); auto).
    destruct (@PQ_run body bodies _ D progs sched F2) as (I & S & Q). split; [apply (q_clean Q)|].
    intros F Hor.
    assert (Ht : v_thr (run sched (init progs)) <> []).
    { intros E. pose proof (h_len S) as Hl. rewrite E, map_length in Hl. destruct progs; [contradiction|discriminate]. }
    destruct (@finished_gone body _ D _ I S Q F Ht) as (Hq & Hr & _ & H1 & H2).
    assert (Hc : v_closed (run sched (init progs)) = true).
    { destruct Hor as [Ha|Hn]; [apply H1, finished_asked; auto|]. destruct H2; congruence. }
    split; auto. rewrite (i11 I), (finished_all F), (i10 I Hc). simpl. rewrite app_nil_r. auto.
  Qed.

  Lemma no_deadlock ds progs sched : Forall2 wf ds progs -> noadds body -> let s := run sched (init progs) in
    (forall t, step body t s = None) -> finished s.
  Proof.
    cbv zeta. intros F Hn Hs. destruct (@Sh_run body bodies ds progs sched F) as [_ S]. eapply progress; eauto.
  Qed.

  Lemma no_livelock progs : noadds body -> exists bound, forall sched, taken body sched (init progs) <= bound.
  Proof. intros Hn. exists (mass body (init progs)). intros sched. apply taken_mass; auto. Qed.
End Final.
