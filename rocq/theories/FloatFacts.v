(** Facts about the floats of FloatModel.v: the clamp, the order, and when there is no NaN. *)
From Coq Require Import ZArith NArith SpecFloat.
From Verif Require Import Base FloatModel.
Set Implicit Arguments.

(** Between 0 and 1, in the order of floats (for which -0 equals 0). *)
Definition within (x : f32) : Prop := SFleb f_zero x = true /\ SFleb x f_one = true.

Lemma compare_swap : forall x y, SFcompare y x = option_map CompOpp (SFcompare x y).
Proof.
  assert (Hz : forall a b, Z.compare b a = CompOpp (Z.compare a b)) by (intros; apply Z.compare_antisym).
  assert (Hp : forall a b, Pos.compare_cont Eq b a = CompOpp (Pos.compare_cont Eq a b)) by (intros; apply (Pos.compare_antisym a b)).
  intros [[]|[]| |[] m e] [[]|[]| |[] m' e']; cbn; auto; rewrite (Hz e e'); destruct (Z.compare e e'); cbn; auto;
    rewrite (Hp m m'); destruct (Pos.compare_cont Eq m m'); reflexivity.
Qed.
Lemma compare_nan : forall x y, is_nan x = false -> is_nan y = false -> SFcompare x y <> None.
Proof. intros [[]|[]| |[] m e] [[]|[]| |[] m' e']; cbn; intros; try discriminate; destruct (Z.compare _ _); discriminate. Qed.

Lemma clamp_cases : forall x,
  clamp01 x = (match SFcompare x f_zero with Some Lt => f_zero | _ => match SFcompare f_one x with Some Lt => f_one | _ => x end end).
Proof. intros. unfold clamp01, SFltb. destruct (SFcompare x f_zero) as [[]|]; try reflexivity; destruct (SFcompare f_one x) as [[]|]; reflexivity. Qed.

Lemma clamp_range : forall x, is_nan x = false -> within (clamp01 x).
Proof.
  intros x Hx. rewrite clamp_cases. destruct (SFcompare x f_zero) as [c|] eqn:H0.
  2:{ exfalso. revert H0. apply compare_nan; auto. }
  destruct (SFcompare f_one x) as [c1|] eqn:H1. 2:{ exfalso. revert H1. apply compare_nan; auto. }
  assert (K0 := compare_swap x f_zero). assert (K1 := compare_swap f_one x). rewrite H0 in K0. rewrite H1 in K1. unfold within.
  destruct c, c1; try (split; reflexivity); split; unfold SFleb; rewrite ?K0, ?K1; reflexivity.
Qed.
Lemma clamp_nan : forall x, is_nan (clamp01 x) = is_nan x.
Proof.
  intros. rewrite clamp_cases. destruct x as [[]|[]| |[] m e]; try reflexivity.
  destruct (SFcompare (S754_finite false m e) f_zero) as [[]|]; try reflexivity;
    destruct (SFcompare f_one (S754_finite false m e)) as [[]|]; reflexivity.
Qed.
Lemma nan_is : forall x, is_nan x = true -> x = S754_nan.
Proof. intros []; try discriminate; auto. Qed.
Lemma clamp_either : forall x, clamp01 x = S754_nan \/ within (clamp01 x).
Proof. intros. destruct (is_nan x) eqn:E; [left; rewrite (nan_is _ E); reflexivity|right; now apply clamp_range]. Qed.
(** What is in range stays as it is. *)
Lemma clamp_id : forall x, within x -> clamp01 x = x.
Proof.
  intros x [H0 H1]. rewrite clamp_cases. unfold SFleb in *. rewrite (compare_swap f_zero x), (compare_swap x f_one).
  destruct (SFcompare f_zero x) as [[]|]; try discriminate; destruct (SFcompare x f_one) as [[]|]; try discriminate; reflexivity.
Qed.
Lemma clamp_idem : forall x, clamp01 (clamp01 x) = clamp01 x.
Proof. intros. destruct (clamp_either x) as [->|H]; [reflexivity|now apply clamp_id]. Qed.

(** No NaN and no minus sign. *)
Definition pos (x : f32) : Prop :=
  match x with S754_zero s => s = false | S754_infinity s => s = false | S754_finite s _ _ => s = false | S754_nan => False end.
Definition infinite (x : f32) : Prop := match x with S754_infinity _ => True | _ => False end.
Lemma pos_number : forall x, pos x -> is_nan x = false.
Proof. intros []; cbn; auto; tauto. Qed.

Lemma shr_1_pos : forall r, (0 <= shr_m r)%Z -> (0 <= shr_m (shr_1 r))%Z.
Proof. intros [m r s] H. cbn in *. destruct m as [|[]|]; cbn; lia. Qed.
Lemma iter_pos_keeps : forall X (P : X -> Prop) f, (forall x, P x -> P (f x)) -> forall n x, P x -> P (SpecFloat.iter_pos f n x).
Proof. intros X P f Hf n. induction n; cbn; auto. Qed.
Lemma shr_fexp_pos : forall m e l, (0 <= m)%Z -> (0 <= shr_m (fst (shr_fexp 24 128 m e l)))%Z.
Proof.
  intros m e l H. unfold shr_fexp, shr. assert (K : (0 <= shr_m (shr_record_of_loc m l))%Z) by (destruct l as [|[]]; exact H).
  destruct (_ - _)%Z; cbn [fst]; auto. apply (iter_pos_keeps (fun r => 0 <= shr_m r)%Z); [apply shr_1_pos|exact K].
Qed.
Lemma round_aux_pos : forall m e l, (0 <= m)%Z -> pos (binary_round_aux 24 128 false m e l).
Proof.
  intros m e l H. unfold binary_round_aux. pose proof (@shr_fexp_pos m e l H) as H1. destruct (shr_fexp 24 128 m e l) as [r e1]. cbn [fst] in H1.
  assert (H2 : (0 <= round_nearest_even (shr_m r) (loc_of_shr_record r))%Z).
  { unfold round_nearest_even. destruct (loc_of_shr_record r) as [|[]]; try lia. destruct (Z.even _); lia. }
  pose proof (@shr_fexp_pos _ e1 loc_Exact H2) as H3. destruct (shr_fexp 24 128 _ e1 loc_Exact) as [r2 e2]. cbn [fst] in H3.
  destruct (shr_m r2); [reflexivity| |lia]. destruct (Z.leb _ _); reflexivity.
Qed.
Lemma normalize_pos : forall m e, (0 <= m)%Z -> pos (binary_normalize 24 128 m e false).
Proof.
  intros [|m|m] e H; [reflexivity| |lia]. cbn [binary_normalize]. unfold binary_round.
  destruct (shl_align m e _). apply round_aux_pos. lia.
Qed.
Lemma of_pos : forall n, pos (f_of n).
Proof. intros. apply normalize_pos. lia. Qed.
Lemma add_pos : forall x y, pos x -> pos y -> pos (f_add x y).
Proof. intros [s|s| |s m e] [s'|s'| |s' m' e']; cbn -[binary_normalize]; intros; subst; cbn -[binary_normalize]; auto; try tauto. apply normalize_pos. cbn. lia. Qed.
Lemma div_pos : forall x y, pos x -> pos y -> SFltb f_zero y = true -> ~ (infinite x /\ infinite y) -> pos (f_div x y).
Proof.
  intros [s|s| |s m e] [s'|s'| |s' m' e']; cbn -[SFdiv_core_binary binary_round_aux]; intros Hx Hy Hl Hi; subst; cbn -[SFdiv_core_binary binary_round_aux]; auto; try discriminate; try tauto.
  destruct (SFdiv_core_binary 24 128 (Z.pos m) e (Z.pos m') e') as [[q e1] l] eqn:E. apply round_aux_pos.
  unfold SFdiv_core_binary in E. set (m0 := match (e - e' - _)%Z with 0%Z => _ | _ => _ end) in E.
  assert (H0 : (0 <= m0)%Z). { unfold m0. destruct (_ - _)%Z; try lia. apply Z.shiftl_nonneg. lia. }
  pose proof (Z.div_pos m0 (Z.pos m') H0 eq_refl) as Hq. unfold Z.div in Hq. destruct (Z.div_eucl m0 (Z.pos m')) as [q' r]. inversion E; subst. exact Hq.
Qed.
Lemma secs_pos : forall t, pos (secs t).
Proof.
  intros. unfold secs, secs_of. apply add_pos; [apply of_pos|]. apply div_pos; try apply of_pos; [reflexivity|]. intros [_ H]. exact H.
Qed.

(** Whole seconds are exact up to the rounding of their number, and less than a second is a fraction. *)
Lemma whole_secs : forall k, secs_of (k * billion) = f_of k.
Proof.
  intros k. unfold secs_of. rewrite N.div_mul, N.mod_mul by discriminate. pose proof (of_pos k) as H.
  change (f_div (f_of 0) (f_of billion)) with f_zero. destruct (f_of k) as [[]|[]| |[] m e]; cbn in H; try discriminate; reflexivity.
Qed.
Lemma split_secs : forall k n, (n < billion)%N -> secs_of (k * billion + n) = f_add (f_of k) (f_div (f_of n) (f_of billion)).
Proof.
  intros k n H. unfold secs_of. rewrite N.div_add_l, N.div_small, N.add_0_r by (auto; discriminate).
  rewrite N.add_comm, N.mod_add, N.mod_small by (auto; discriminate). auto.
Qed.

(** The divisor is a positive number, whatever the length. *)
Lemma divisor_positive : forall x, SFltb f_zero (f_max x f_epsilon) = true.
Proof.
  intros x. unfold f_max. destruct (is_nan x) eqn:E; [reflexivity|]. change (is_nan f_epsilon) with false. cbn iota.
  destruct (SFltb x f_epsilon) eqn:L; [reflexivity|]. destruct x as [[]|[]| |[] m e]; try discriminate; reflexivity.
Qed.
Lemma max_pos : forall x, pos x -> pos (f_max x f_epsilon) /\ (~ infinite x -> ~ infinite (f_max x f_epsilon)).
Proof.
  intros x H. unfold f_max. rewrite (pos_number _ H). change (is_nan f_epsilon) with false. cbn iota.
  destruct (SFltb x f_epsilon); split; auto. reflexivity.
Qed.
