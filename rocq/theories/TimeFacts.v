(** The consequences of TimeMore.v, for runs. *)
From Coq Require Import ZArith.
From Verif Require Import Base SubscrModel SchedModel TimeModel TimeSpec TimeProofs TimeDelay TimeObserve TimeDebounce TimeFallback TimeTimer TimeOnTick TimeInterval TimeThrottle TimeMore.
Set Implicit Arguments.

Section Facts.
Variables A B E X : Type.

Lemma delay_in_order (d : nat) (down : list (ncall A E) -> bool * list (req X)) user fuel depth h m :
  syss (delay A E X d) down user fuel (start (delay A E X d) depth) h = Fine m ->
  exists rest, map snd (pushes (w_tr (m_world m))) = values (w_tr (m_world m)) ++ rest.
Proof. intros H. destruct (delay_ok _ _ _ _ _ _ H) as [H1 _]. eapply delayed_prefix; eauto. Qed.
Lemma observe_in_order (down : list (ncall A E) -> bool * list (req X)) user fuel depth h m :
  syss (observe_on A E X) down user fuel (start (observe_on A E X) depth) h = Fine m ->
  exists rest, map snd (pushes (w_tr (m_world m))) = values (w_tr (m_world m)) ++ rest.
Proof. intros H. destruct (observe_on_ok _ _ _ _ _ H) as [H1 _]. eapply observed_prefix; eauto. Qed.

Lemma interval_count (d : nat) now cap (down : list (ncall nat E) -> bool * list (req X)) user fuel depth h m :
  0 < d -> syss (@interval A E X d now cap) down user fuel (start (interval d now cap) depth) h = Fine m ->
  values (w_tr (m_world m)) = seq 0 (length (values (w_tr (m_world m)))).
Proof. intros Hd H. destruct (interval_ok _ _ Hd _ _ _ _ _ H) as [H1 _]. eapply counted_up; eauto. Qed.
Lemma interval_floor (d : nat) now cap (down : list (ncall nat E) -> bool * list (req X)) user fuel depth h m :
  0 < d -> syss (@interval A E X d now cap) down user fuel (start (interval d now cap) depth) h = Fine m ->
  forall p s, w_tr (m_world m) = p ++ XEnd :: s -> open down p ->
  (forall p0 t r s0, p = p0 ++ XTick t :: r -> since p0 = Some s0 -> t <= clock p0 + (if cap =? 0 then 1 else cap) * d) ->
  length (values p) = match since p with Some s0 => (if now then 1 else 0) + (clock p - s0) / d | None => 0 end.
Proof. intros Hd H p s. destruct (interval_ok _ _ Hd _ _ _ _ _ H) as [H1 _]. eapply interval_exact; eauto. Qed.

Lemma on_tick_items (item : nat -> option B) n now (down : list (ncall B E) -> bool * list (req X)) user fuel depth h m :
  0 < n -> syss (@on_tick A B E X item n now) down user fuel (start (on_tick item n now) depth) h = Fine m ->
  forall i b, nth_error (values (w_tr (m_world m))) i = Some b -> item i = Some b.
Proof. intros Hn H. destruct (on_tick_ok _ _ Hn _ _ _ _ _ H) as [H1 _]. eapply items_of; eauto. Qed.
Lemma on_tick_empty (item : nat -> option B) n now (down : list (ncall B E) -> bool * list (req X)) user fuel depth h m :
  0 < n -> syss (@on_tick A B E X item n now) down user fuel (start (on_tick item n now) depth) h = Fine m ->
  item 0 = None -> forall c, In (XOut c) (w_tr (m_world m)) -> c = Uns.
Proof. intros Hn H Hi. destruct (on_tick_ok _ _ Hn _ _ _ _ _ H) as [H1 _]. eapply nothing_of; eauto. Qed.

(** Nothing after unsubscribing. *)
Definition silenced {B} (tr : list (tev A B E)) : Prop :=
  forall p s, tr = p ++ XUp Uns :: s -> forall b, ~ In (XOut (Nxt b)) s.
Lemma fallback_silenced fb (down : list (ncall A E) -> bool * list (req X)) user fuel depth h m :
  syss (@fallback A E X fb) down user fuel (start (fallback fb) depth) h = Fine m -> silenced (w_tr (m_world m)).
Proof.
  intros H. destruct (fallback_ok _ _ _ _ _ _ H) as [H1 H2]. red. eapply quiet_after; [| |exact H1|exact H2]; [|reflexivity].
  intros p c G. apply G.
Qed.
Lemma timer_silenced d (down : list (ncall unit E) -> bool * list (req X)) user fuel depth h m :
  syss (@timer A E X d) down user fuel (start (timer d) depth) h = Fine m -> silenced (w_tr (m_world m)).
Proof.
  intros H. destruct (timer_ok _ _ _ _ _ _ H) as [H1 H2]. red. eapply quiet_after; [| |exact H1|exact H2]; [|reflexivity].
  intros p c G. apply G.
Qed.
Lemma interval_silenced d now cap (down : list (ncall nat E) -> bool * list (req X)) user fuel depth h m :
  0 < d -> syss (@interval A E X d now cap) down user fuel (start (interval d now cap) depth) h = Fine m -> silenced (w_tr (m_world m)).
Proof.
  intros Hd H. destruct (interval_ok _ _ Hd _ _ _ _ _ H) as [H1 H2]. red. eapply quiet_after; [| |exact H1|exact H2]; [|reflexivity].
  intros p c G. apply G.
Qed.
Lemma on_tick_silenced item n now (down : list (ncall B E) -> bool * list (req X)) user fuel depth h m :
  0 < n -> syss (@on_tick A B E X item n now) down user fuel (start (on_tick item n now) depth) h = Fine m -> silenced (w_tr (m_world m)).
Proof.
  intros Hn H. destruct (on_tick_ok _ _ Hn _ _ _ _ _ H) as [H1 H2]. red. eapply quiet_after; [| |exact H1|exact H2]; [|reflexivity].
  intros p c G. apply G.
Qed.
End Facts.
