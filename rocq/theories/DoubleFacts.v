(** * Rounding errors of sums and means in [double]. *)
From Coq Require Import ZArith Reals Lra Lia.
From Flocq Require Import Core BinarySingleNaN Relative Plus_error.
From Verif Require Import Base BaseFacts Arith Ieee SpecParts InfoFacts SpecAgg SpecDouble.
Local Open Scope R_scope.
Notation b2 := (bpow radix2).
Notation fexp64 := (FLT_exp (-1074) 53).
Notation rnd64 := (round radix2 fexp64 ZnearestE).
Notation F64 := (generic_format radix2 fexp64).
Notation u := (b2 (-53)).

#[global] Instance v64 : Valid_exp fexp64 := FLT_exp_valid (-1074) 53.
#[global] Instance mn64 : Monotone_exp fexp64 := FLT_exp_monotone (-1074) 53.

Lemma b64R : forall x : f64, F64 (B2R x).
Proof. intros x. apply (generic_format_B2R 53 1024 x). Qed.

Lemma half_b : forall e, / 2 * b2 e = b2 (e - 1).
Proof. intro e. unfold Zminus. rewrite bpow_plus. change (b2 (-(1))) with (/ 2). ring. Qed.

Lemma r64_err : forall x, Rabs (rnd64 x - x) <= u * Rabs x + b2 (-1075).
Proof.
  intro x. destruct (error_N_FLT radix2 (-1074) 53 ltac:(lia) (fun n => negb (Z.even n)) x) as (eps & eta & H1 & H2 & _ & E).
  rewrite E. rewrite half_b in H1, H2. change (-(53) + 1 - 1)%Z with (-53)%Z in H1. change (-1074 - 1)%Z with (-1075)%Z in H2.
  replace (x * (1 + eps) + eta - x) with (eps * x + eta) by ring.
  eapply Rle_trans; [apply Rabs_triang|]. rewrite Rabs_mult. pose proof (Rabs_pos x).
  apply Rplus_le_compat; auto. apply Rmult_le_compat_r; auto.
Qed.

Lemma r64_plus_err : forall x y, F64 x -> F64 y -> Rabs (rnd64 (x + y) - (x + y)) <= u * Rabs (x + y).
Proof.
  intros x y Fx Fy.
  destruct (FLT_plus_error_N_ex radix2 (-1074) 53 (fun n => negb (Z.even n)) x y Fx Fy) as (eps & H & E). rewrite E.
  replace ((x + y) * (1 + eps) - (x + y)) with (eps * (x + y)) by ring. rewrite Rabs_mult.
  apply Rmult_le_compat_r; [apply Rabs_pos|]. eapply Rle_trans; [exact H|]. unfold u_ro. rewrite half_b.
  change (-(53) + 1 - 1)%Z with (-53)%Z. pose proof (bpow_gt_0 radix2 (-53)).
  apply (Rmult_le_reg_r (1 + u)); [lra|]. unfold Rdiv. rewrite Rmult_assoc, Rinv_l by lra.
  apply Rmult_le_compat_l; lra.
Qed.

Lemma r64_abs : forall x e, Rabs x <= b2 e -> (-1022 <= e)%Z -> Rabs (rnd64 x) <= b2 e.
Proof.
  intros x e H He. apply abs_round_le_generic; auto with typeclass_instances.
  apply generic_format_bpow. unfold FLT_exp. lia.
Qed.

Lemma no_ovf64 : forall x, Rabs x <= b2 1023 -> Rlt_bool (Rabs (rnd64 x)) (b2 1024) = true.
Proof.
  intros x H. apply Rlt_bool_true. apply Rle_lt_trans with (b2 1023); [apply r64_abs; auto; lia|]. apply bpow_lt. lia.
Qed.

Lemma plus64 : forall a b : f64, is_finite a = true -> is_finite b = true -> Rabs (B2R a + B2R b) <= b2 1023 ->
  B2R (Bplus mode_NE a b) = rnd64 (B2R a + B2R b) /\ is_finite (Bplus mode_NE a b) = true.
Proof.
  intros a b Fa Fb R. pose proof (Bplus_correct 53 1024 prec64 emax64 mode_NE a b Fa Fb) as K.
  change (SpecFloat.fexp 53 1024) with fexp64 in K. change (round_mode mode_NE) with ZnearestE in K.
  rewrite no_ovf64 in K by auto. destruct K as (K1 & K2 & _). auto.
Qed.

Lemma div64 : forall a b : f64, is_finite a = true -> is_finite b = true -> B2R b <> 0 -> Rabs (B2R a / B2R b) <= b2 1023 ->
  B2R (Bdiv mode_NE a b) = rnd64 (B2R a / B2R b) /\ is_finite (Bdiv mode_NE a b) = true.
Proof.
  intros a b Fa Fb N R. pose proof (Bdiv_correct 53 1024 prec64 emax64 mode_NE a b N) as K.
  change (SpecFloat.fexp 53 1024) with fexp64 in K. change (round_mode mode_NE) with ZnearestE in K.
  rewrite no_ovf64 in K by auto. destruct K as (K1 & K2 & _). rewrite K2. auto.
Qed.

Lemma F64_int : forall z, (Z.abs z <= 2 ^ 53)%Z -> F64 (IZR z).
Proof.
  intros z Hz. destruct (Z.eq_dec (Z.abs z) (2 ^ 53)) as [E|N].
  - assert (C : z = (2 ^ 53)%Z \/ z = (- 2 ^ 53)%Z) by lia.
    assert (P : F64 (b2 53)) by (apply generic_format_bpow; unfold FLT_exp; lia).
    destruct C as [-> | ->]; [exact P|]. change (- 2 ^ 53)%Z with (- (2 ^ 53))%Z. rewrite opp_IZR. apply generic_format_opp. exact P.
  - assert (E0 : F2R (Float radix2 z 0) = IZR z) by (unfold F2R; cbn; ring).
    rewrite <- E0. apply generic_format_FLT. exists (Float radix2 z 0); [reflexivity|cbn [Fnum]; change (radix2 ^ 53)%Z with (2 ^ 53)%Z; lia|cbn; lia].
Qed.

Lemma int64_exact : forall N, (0 <= N <= 2 ^ 53)%Z -> B2R (int64 N) = IZR N /\ is_finite (int64 N) = true.
Proof.
  intros N HN. pose proof (binary_normalize_correct 53 1024 prec64 emax64 mode_NE N 0 false) as K. cbv zeta in K. fold (int64 N) in K.
  change (SpecFloat.fexp 53 1024) with fexp64 in K. change (round_mode mode_NE) with ZnearestE in K.
  assert (E0 : F2R (Float radix2 N 0) = IZR N) by (unfold F2R; cbn; ring). rewrite E0 in K.
  rewrite (round_generic _ _ _ _ (F64_int N ltac:(lia))) in K. rewrite Rlt_bool_true in K; [destruct K as (K1 & K2 & _); auto|].
  rewrite Rabs_pos_eq by (apply IZR_le; lia). apply Rle_lt_trans with (b2 53); [change (b2 53) with (IZR (2 ^ 53)); apply IZR_le; lia|]. apply bpow_lt. lia.
Qed.

(** Sums from any start. *)
Lemma seq_step : forall lg (X : Type) (f : X -> f64) l (a : f64) k A S,
  is_finite a = true -> 0 <= k -> 0 <= A -> Rabs (B2R a - S) <= 2 * k * u * A -> Rabs S <= A ->
  (forall y, In y l -> is_finite (f y) = true) -> 2 * (k + INR (length l)) * u <= 1 -> A + Rsum (fun y => Rabs (B2R (f y))) l <= b2 1000 ->
  let s := fold_left (n_add (DA lg)) (map f l) a in let A' := A + Rsum (fun y => Rabs (B2R (f y))) l in
  is_finite s = true /\ Rabs (B2R s - (S + Rsum (fun y => B2R (f y)) l)) <= 2 * (k + INR (length l)) * u * A'.
Proof.
  intros lg X f l. induction l as [|y l IH]; intros a k A S Fa Hk HA H1 H2 Hf Hu Ht.
  - cbv zeta. cbn [map fold_left length INR]. rewrite !Rsum_nil, !Rplus_0_r. split; auto.
  - cbv zeta. cbn [map fold_left]. rewrite !Rsum_cons in *. cbn [length] in *. rewrite S_INR in *. set (L := INR (length l)) in *.
    assert (L0 : 0 <= L) by apply pos_INR. pose proof (bpow_gt_0 radix2 (-53)) as U0. set (x := f y) in *.
    assert (Fx : is_finite x = true) by (apply Hf; left; auto). set (w := B2R x) in *. set (rest := Rsum (fun y0 : X => Rabs (B2R (f y0))) l) in *.
    assert (R0 : 0 <= rest) by (apply Rsum_nonneg; intros; apply Rabs_pos). pose proof (Rabs_pos w) as W0.
    assert (B1 : Rabs (B2R a + w) <= 2 * k * u * A + (A + Rabs w)).
    { replace (B2R a + w) with ((B2R a - S) + (S + w)) by ring. eapply Rle_trans; [apply Rabs_triang|]. pose proof (Rabs_triang S w). lra. }
    assert (K1 : 2 * k * u <= 1). { apply Rle_trans with (2 * (k + (L + 1)) * u); auto. apply Rmult_le_compat_r; lra. }
    assert (B2 : 2 * k * u * A <= A). { apply Rle_trans with (1 * A); [apply Rmult_le_compat_r; lra|lra]. }
    destruct (plus64 a x Fa Fx) as [P1 P2].
    { fold w. eapply Rle_trans; [exact B1|]. apply Rle_trans with (2 * b2 1000); [lra|]. change 2 with (b2 1). rewrite <- bpow_plus. apply bpow_le. lia. }
    fold w in P1. pose proof (r64_plus_err (B2R a) w (b64R a) (b64R x)) as Er. rewrite <- P1 in Er.
    assert (N1 : 0 <= 2 * k * u * A) by (apply Rmult_le_pos; [apply Rmult_le_pos; [lra|lra]|auto]).
    assert (E1 : Rabs (B2R (Bplus mode_NE a x) - (S + w)) <= 2 * (k + 1) * u * (A + Rabs w)).
    { replace (B2R (Bplus mode_NE a x) - (S + w)) with ((B2R (Bplus mode_NE a x) - (B2R a + w)) + (B2R a - S)) by ring.
      eapply Rle_trans; [apply Rabs_triang|].
      assert (u * Rabs (B2R a + w) <= u * (2 * k * u * A + (A + Rabs w))) by (apply Rmult_le_compat_l; lra).
      apply Rle_trans with (u * (2 * k * u * A + (A + Rabs w)) + 2 * k * u * A); [lra|].
      assert (u * (2 * k * u * A) <= u * A) by (apply Rmult_le_compat_l; lra).
      assert (0 <= u * Rabs w) by (apply Rmult_le_pos; lra).
      assert (0 <= 2 * k * u * Rabs w) by (apply Rmult_le_pos; [apply Rmult_le_pos; [lra|lra]|auto]).
      replace (2 * (k + 1) * u * (A + Rabs w)) with (2 * k * u * A + 2 * k * u * Rabs w + 2 * (u * A) + 2 * (u * Rabs w)) by ring.
      replace (u * (2 * k * u * A + (A + Rabs w))) with (u * (2 * k * u * A) + u * A + u * Rabs w) by ring. lra. }
    assert (Q1 : Rabs (S + w) <= A + Rabs w) by (eapply Rle_trans; [apply Rabs_triang|]; lra).
    assert (Q2 : forall z, In z l -> is_finite (f z) = true) by (intros z Hz; apply Hf; right; auto).
    assert (Q3 : 2 * (k + 1 + L) * u <= 1) by (replace (k + 1 + L) with (k + (L + 1)) by ring; auto).
    assert (Q4 : A + Rabs w + rest <= b2 1000) by lra.
    destruct (IH (Bplus mode_NE a x) (k + 1) (A + Rabs w) (S + w) P2 ltac:(lra) ltac:(lra) E1 Q1 Q2 Q3 Q4) as [F2 E2].
    split; [exact F2|]. fold rest in E2. fold L in E2. replace (S + (w + Rsum (fun y0 : X => B2R (f y0)) l)) with (S + w + Rsum (fun y0 : X => B2R (f y0)) l) by ring.
    replace (k + (L + 1)) with (k + 1 + L) by ring. replace (A + (Rabs w + rest)) with (A + Rabs w + rest) by ring. exact E2.
Qed.

Lemma u2 : 2 * u = b2 (-52).
Proof. change 2 with (b2 1). rewrite <- bpow_plus. reflexivity. Qed.

(** A sum of n finite doubles is off by at most n 2^-52 times the sum of their absolute values. *)
Lemma seq_close : forall lg (X : Type) (f : X -> f64) l, (forall y, In y l -> is_finite (f y) = true) -> (Z.of_nat (length l) <= 2 ^ 48)%Z ->
  Rsum (fun y => Rabs (B2R (f y))) l <= b2 1000 ->
  is_finite (seqsum (DA lg) (map f l)) = true /\
  Rabs (B2R (seqsum (DA lg) (map f l)) - Rsum (fun y => B2R (f y)) l) <= IZR (Z.of_nat (length l)) * b2 (-52) * Rsum (fun y => Rabs (B2R (f y))) l.
Proof.
  intros lg X f l Hf Hl Ht.
  assert (Hu : 2 * (0 + INR (length l)) * u <= 1).
  { replace (2 * (0 + INR (length l)) * u) with (INR (length l) * (2 * u)) by ring. rewrite u2, INR_IZR_INZ.
    apply Rle_trans with (b2 48 * b2 (-52)).
    - apply Rmult_le_compat_r; [apply bpow_ge_0|]. change (b2 48) with (IZR (2 ^ 48)). apply IZR_le; auto.
    - rewrite <- bpow_plus. change 1 with (b2 0). apply bpow_le. lia. }
  destruct (seq_step lg X f l (B754_zero false) 0 0 0) as [F E]; auto; try lra.
  { cbn [B2R]. replace (0 - 0) with 0 by ring. rewrite Rabs_R0. lra. }
  { rewrite Rabs_R0. lra. }
  split; [exact F|]. cbv zeta in E. rewrite !Rplus_0_l in E. replace (2 * INR (length l) * u) with (INR (length l) * (2 * u)) in E by ring. rewrite u2, INR_IZR_INZ in E. exact E.
Qed.

(** The same when the terms are themselves approximations. *)
Lemma seq_close2 : forall lg (X : Type) (f : X -> f64) (Y T : X -> R) e l, 0 <= e <= 1 ->
  (forall y, In y l -> is_finite (f y) = true /\ Rabs (B2R (f y) - Y y) <= e * T y /\ Rabs (Y y) <= T y) -> (Z.of_nat (length l) <= 2 ^ 48)%Z ->
  Rsum T l <= b2 999 ->
  is_finite (seqsum (DA lg) (map f l)) = true /\
  Rabs (B2R (seqsum (DA lg) (map f l)) - Rsum Y l) <= (e + 2 * (IZR (Z.of_nat (length l)) * b2 (-52))) * Rsum T l.
Proof.
  intros lg X f Y T e l He H Hl Ht.
  assert (A1 : Rsum (fun y => Rabs (B2R (f y))) l <= 2 * Rsum T l /\ Rabs (Rsum (fun y => B2R (f y)) l - Rsum Y l) <= e * Rsum T l /\ 0 <= Rsum T l).
  { clear Hl Ht. induction l as [|y l IH]; [rewrite !Rsum_nil, Rminus_diag_eq, Rabs_R0 by auto; lra|].
    destruct (IH ltac:(intros z Hz; apply H; right; auto)) as (I1 & I2 & I3). destruct (H y ltac:(left; auto)) as (_ & W1 & W2). rewrite !Rsum_cons.
    pose proof (Rabs_pos (Y y)). assert (Ty : 0 <= T y) by lra. assert (e * T y <= 1 * T y) by (apply Rmult_le_compat_r; lra). split; [|split; [|lra]].
    - assert (Rabs (B2R (f y)) <= 2 * T y); [|lra]. replace (B2R (f y)) with ((B2R (f y) - Y y) + Y y) by ring. eapply Rle_trans; [apply Rabs_triang|]. lra.
    - set (p := Rsum (fun y0 : X => B2R (f y0)) l) in *. replace (B2R (f y) + p - (Y y + Rsum Y l)) with ((B2R (f y) - Y y) + (p - Rsum Y l)) by ring.
      eapply Rle_trans; [apply Rabs_triang|]. lra. }
  destruct A1 as (I1 & I2 & I3).
  destruct (seq_close lg X f l) as [F E]; auto.
  { intros y Hy. apply H; auto. }
  { eapply Rle_trans; [exact I1|]. apply Rle_trans with (2 * b2 999); [lra|]. change 2 with (b2 1). rewrite <- bpow_plus. apply bpow_le. lia. }
  split; auto. set (s := B2R (seqsum (DA lg) (map f l))) in *. replace (s - Rsum Y l) with ((s - Rsum (fun y => B2R (f y)) l) + (Rsum (fun y => B2R (f y)) l - Rsum Y l)) by ring.
  eapply Rle_trans; [apply Rabs_triang|]. set (c := IZR (Z.of_nat (length l)) * b2 (-52)) in *.
  assert (C0 : 0 <= c) by (apply Rmult_le_pos; [apply IZR_le; lia|apply bpow_ge_0]).
  assert (c * Rsum (fun y => Rabs (B2R (f y))) l <= c * (2 * Rsum T l)) by (apply Rmult_le_compat_l; auto). lra.
Qed.

(** Sums of integers below 2^53 are exact. *)
Lemma seq_int : forall lg (X : Type) (f : X -> f64) l (a : f64) z, is_finite a = true -> B2R a = IZR z ->
  (forall y, In y l -> integer64 (f y)) -> Rabs (IZR z) + Rsum (fun y => Rabs (B2R (f y))) l <= b2 53 ->
  let s := fold_left (n_add (DA lg)) (map f l) a in is_finite s = true /\ B2R s = IZR z + Rsum (fun y => B2R (f y)) l.
Proof.
  intros lg X f l. induction l as [|y l IH]; intros a z Fa Ea Hf Ht.
  - cbv zeta. cbn [map fold_left]. rewrite Rsum_nil, Rplus_0_r. auto.
  - cbv zeta. cbn [map fold_left]. rewrite !Rsum_cons in *. destruct (Hf y ltac:(left; auto)) as [Fx [w Ew]]. set (x := f y) in *.
    set (rest := Rsum (fun y0 : X => Rabs (B2R (f y0))) l) in *. assert (R0 : 0 <= rest) by (apply Rsum_nonneg; intros; apply Rabs_pos). rewrite Ew in Ht.
    assert (B1 : Rabs (B2R a + B2R x) <= b2 53). { rewrite Ea, Ew. eapply Rle_trans; [apply Rabs_triang|]. lra. }
    destruct (plus64 a x Fa Fx) as [P1 P2]. { eapply Rle_trans; [exact B1|]. apply bpow_le. lia. }
    assert (E1 : B2R (Bplus mode_NE a x) = IZR (z + w)).
    { rewrite P1, Ea, Ew, <- plus_IZR. apply round_generic; auto with typeclass_instances. apply F64_int.
      rewrite Ea, Ew, <- plus_IZR, <- abs_IZR in B1. change (b2 53) with (IZR (2 ^ 53)) in B1. apply le_IZR in B1. exact B1. }
    destruct (IH (Bplus mode_NE a x) (z + w)%Z P2 E1) as [F2 E2].
    { intros v Hv. apply Hf. right; auto. }
    { fold rest. rewrite plus_IZR. pose proof (Rabs_triang (IZR z) (IZR w)). lra. }
    split; [exact F2|]. cbv zeta in E2. etransitivity; [exact E2|]. rewrite plus_IZR, Ew. ring.
Qed.

Lemma seq_int0 : forall lg (X : Type) (f : X -> f64) l, (forall y, In y l -> integer64 (f y)) -> Rsum (fun y => Rabs (B2R (f y))) l <= b2 53 ->
  is_finite (seqsum (DA lg) (map f l)) = true /\ B2R (seqsum (DA lg) (map f l)) = Rsum (fun y => B2R (f y)) l.
Proof.
  intros lg X f l Hf Ht. destruct (seq_int lg X f l (B754_zero false) 0%Z) as [F E]; auto.
  - rewrite Rabs_R0, Rplus_0_l. auto.
  - split; auto. cbv zeta in E. rewrite Rplus_0_l in E. exact E.
Qed.

(** Means. *)
Lemma mean_close : forall lg (s : f64) c S T N, is_finite s = true -> 0 <= c <= 1 -> 0 <= T <= b2 1000 -> Rabs S <= T -> Rabs (B2R s - S) <= c * T ->
  (1 <= N <= 2 ^ 53)%Z -> near_sum_mean c S T N (sum_mean (DA lg) s N).
Proof.
  intros lg s c S T N Fs Hc HT HS H HN. unfold sum_mean. split; [exact Fs|]. split; [exact H|]. cbn [snd]. cbn [n_div n_ofZ DA].
  destruct (int64_exact N ltac:(lia)) as [EN FN]. assert (N1 : 1 <= IZR N) by (apply IZR_le; lia).
  assert (IN : 0 < / IZR N <= 1). { split; [apply Rinv_0_lt_compat; lra|]. rewrite <- Rinv_1. apply Rinv_le_contravar; lra. }
  assert (Bs : Rabs (B2R s) <= 2 * T).
  { replace (B2R s) with ((B2R s - S) + S) by ring. eapply Rle_trans; [apply Rabs_triang|]. assert (c * T <= 1 * T) by (apply Rmult_le_compat_r; lra). lra. }
  assert (Bq : Rabs (B2R s / IZR N) <= 2 * (T / IZR N)).
  { unfold Rdiv. rewrite Rabs_mult, (Rabs_pos_eq (/ IZR N)) by lra. replace (2 * (T * / IZR N)) with (2 * T * / IZR N) by ring. apply Rmult_le_compat_r; lra. }
  destruct (div64 s (int64 N) Fs FN) as [D1 D2].
  - rewrite EN. lra.
  - rewrite EN. eapply Rle_trans; [exact Bq|]. apply Rle_trans with (2 * b2 1000).
    + apply Rmult_le_compat_l; [lra|]. unfold Rdiv. apply Rle_trans with (T * 1); [apply Rmult_le_compat_l; lra|lra].
    + change 2 with (b2 1). rewrite <- bpow_plus. apply bpow_le. lia.
  - split; [exact D2|]. rewrite D1, EN. pose proof (r64_err (B2R s / IZR N)) as Er.
    replace (rnd64 (B2R s / IZR N) - S / IZR N) with ((rnd64 (B2R s / IZR N) - B2R s / IZR N) + (B2R s - S) * / IZR N) by (unfold Rdiv; ring).
    eapply Rle_trans; [apply Rabs_triang|]. rewrite (Rabs_mult (B2R s - S)), (Rabs_pos_eq (/ IZR N)) by lra.
    assert (Rabs (B2R s - S) * / IZR N <= c * T * / IZR N) by (apply Rmult_le_compat_r; lra).
    assert (u * Rabs (B2R s / IZR N) <= u * (2 * (T / IZR N))) by (apply Rmult_le_compat_l; [apply bpow_ge_0|auto]).
    rewrite <- u2. unfold Rdiv in *. lra.
Qed.

Lemma mean_exact : forall lg (s : f64) S N, is_finite s = true -> B2R s = S -> Rabs S <= b2 1000 -> (1 <= N <= 2 ^ 53)%Z -> exact_sum_mean S N (sum_mean (DA lg) s N).
Proof.
  intros lg s S N Fs Es HS HN. unfold sum_mean. split; [exact Fs|]. split; [exact Es|]. cbn [snd]. cbn [n_div n_ofZ DA].
  destruct (int64_exact N ltac:(lia)) as [EN FN]. assert (N1 : 1 <= IZR N) by (apply IZR_le; lia).
  assert (IN : 0 < / IZR N <= 1). { split; [apply Rinv_0_lt_compat; lra|]. rewrite <- Rinv_1. apply Rinv_le_contravar; lra. }
  destruct (div64 s (int64 N) Fs FN) as [D1 D2].
  - rewrite EN. lra.
  - rewrite EN, Es. unfold Rdiv. rewrite Rabs_mult, (Rabs_pos_eq (/ IZR N)) by lra.
    apply Rle_trans with (b2 1000 * 1); [apply Rmult_le_compat; try lra; apply Rabs_pos|]. rewrite Rmult_1_r. apply bpow_le; lia.
  - split; [exact D2|]. rewrite D1, EN, Es. reflexivity.
Qed.
