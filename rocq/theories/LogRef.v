(** * Two implementations of log that are accurate in the sense of SpecNum.v. *)
From Coq Require Import ZArith Reals Lra Lia.
From Flocq Require Import Core BinarySingleNaN Relative.
From Verif Require Import Base Arith Ieee SpecIeee IeeeConv IeeeFacts InfoFacts SpecNear NearFacts SpecNum NumFacts.
Local Open Scope R_scope.

(** The long double nearest to ln x. *)
Definition rounded_log (x : f80) : f80 :=
  binary_normalize 64 16384 prec80 emax80 mode_NE (ZnearestE (scaled_mantissa radix2 fexp80 (ln (B2R x)))) (cexp radix2 fexp80 (ln (B2R x))) false.

(** src/lpaggreg/headers/complexity.h:41 includes cmath, sources/complexity.cpp:39-52 and headers/complexity.h:47 call log
    unqualified: on platforms where that is the C library's double log(double), the argument is rounded to double and the
    result widened. *)
Definition via_double (log64 : f64 -> f64) (x : f80) : f80 := to80 (log64 (to64 x)).

(** The double log is off by at most 2^-52 (1 + |ln y|). *)
Definition log64_accurate (log64 : f64 -> f64) : Prop :=
  forall y : f64, is_finite y = true -> 0 < B2R y ->
    is_finite (log64 y) = true /\ Rabs (B2R (log64 y) - ln (B2R y)) <= bpow radix2 (-52) * (1 + Rabs (ln (B2R y))).

Lemma rounded_log_B2R : forall x, Rabs (ln (B2R x)) <= 8000 -> is_finite (rounded_log x) = true /\ B2R (rounded_log x) = rnd80 (ln (B2R x)).
Proof.
  intros x Hx. unfold rounded_log.
  pose proof (binary_normalize_correct 64 16384 prec80 emax80 mode_NE (ZnearestE (scaled_mantissa radix2 fexp80 (ln (B2R x)))) (cexp radix2 fexp80 (ln (B2R x))) false) as K.
  cbv zeta in K. change (SpecFloat.fexp 64 16384) with fexp80 in K. change (round_mode mode_NE) with ZnearestE in K.
  change (F2R {| Fnum := ZnearestE (scaled_mantissa radix2 fexp80 (ln (B2R x))); Fexp := cexp radix2 fexp80 (ln (B2R x)) |}) with (rnd80 (ln (B2R x))) in K.
  rewrite (round_generic _ _ _ (rnd80 (ln (B2R x)))) in K by (apply generic_format_round; auto with typeclass_instances).
  rewrite Rlt_bool_true in K; [destruct K as (K1 & K2 & _); auto|].
  pose proof (rnd80_err (ln (B2R x))) as Er.
  assert (Rabs (rnd80 (ln (B2R x))) <= 8000 + 1).
  { replace (rnd80 (ln (B2R x))) with ((rnd80 (ln (B2R x)) - ln (B2R x)) + ln (B2R x)) by ring. eapply Rle_trans; [apply Rabs_triang|].
    pose proof u_pos. assert (b2 (-16446) <= u) by (apply bpow_le; lia). assert (u * Rabs (ln (B2R x)) <= u * 8000) by (apply Rmult_le_compat_l; lra). lra. }
  eapply Rle_lt_trans; [exact H|]. apply Rlt_le_trans with (b2 14); [change (b2 14) with 16384; lra|apply bpow_le; lia].
Qed.

Theorem C77_rounded_log : forall E, (32 <= E <= 8000)%Z -> log_accurate E (bpow radix2 (-64)) rounded_log.
Proof.
  intros E HE x Fx Rx. pose proof (ln_range E _ Rx) as LR. pose proof ln2_range.
  assert (HX : Rabs (ln (B2R x)) <= 8000).
  { eapply Rle_trans; [exact LR|]. assert (0 <= IZR E <= 8000) by (split; apply IZR_le; lia). 
    assert (IZR E * ln 2 <= IZR E * 1) by (apply Rmult_le_compat_l; lra). lra. }
  destruct (rounded_log_B2R x HX) as [F ->]. split; auto. pose proof (rnd80_err (ln (B2R x))) as Er.
  assert (b2 (-16446) <= u) by (apply bpow_le; lia). lra.
Qed.
Print Assumptions C77_rounded_log.

Lemma F64_F80 : forall x, generic_format radix2 (FLT_exp (-1074) 53) x -> generic_format radix2 (FLT_exp (-16445) 64) x.
Proof. intros x H. apply (generic_inclusion_mag radix2 (FLT_exp (-1074) 53)); auto. intros _. unfold FLT_exp. lia. Qed.

Lemma to80_exact64 : forall x : f64, is_finite x = true -> B2R (to80 x) = B2R x /\ is_finite (to80 x) = true.
Proof.
  intros x Hx. pose proof (generic_format_B2R 53 1024 x) as Fx. change (SpecFloat.fexp 53 1024) with (FLT_exp (-1074) 53) in Fx.
  pose proof (abs_B2R_lt_emax 53 1024 x) as Bx. destruct x as [s| | |s m e B]; try discriminate; [split; reflexivity|].
  unfold to80, conv.
  pose proof (binary_normalize_correct 64 16384 prec80 emax80 mode_NE (cond_Zopp s (Zpos m)) e s) as K. cbv zeta in K.
  change (F2R {| Fnum := cond_Zopp s (Zpos m); Fexp := e |}) with (B2R (B754_finite s m e B : f64)) in K.
  change (SpecFloat.fexp 64 16384) with (FLT_exp (-16445) 64) in K.
  rewrite round_generic in K; [|auto with typeclass_instances|apply F64_F80; exact Fx].
  rewrite Rlt_bool_true in K.
  - destruct K as (K1 & K2 & _). split; auto.
  - eapply Rlt_trans; [exact Bx|]. apply bpow_lt. lia.
Qed.

Notation rnd64 := (round radix2 (FLT_exp (-1074) 53) ZnearestE).

Lemma to64_B2R : forall x : f80, is_finite x = true -> bpow radix2 (-1000) <= B2R x <= bpow radix2 1000 ->
  is_finite (to64 x) = true /\ Rabs (B2R (to64 x) - B2R x) <= bpow radix2 (-53) * B2R x.
Proof.
  intros x Hx Rx. pose proof (bpow_gt_0 radix2 (-1000)) as P0.
  assert (Er : Rabs (rnd64 (B2R x) - B2R x) <= bpow radix2 (-53) * B2R x).
  { pose proof (relative_error_N_FLT radix2 (-1074) 53 ltac:(lia) (fun n => negb (Z.even n)) (B2R x)) as Q.
    rewrite (Rabs_pos_eq (B2R x)) in Q by lra. assert (Q0 : b2 (-1074 + 53 - 1) <= B2R x) by (apply Rle_trans with (b2 (-1000)); [apply bpow_le; lia|tauto]). specialize (Q Q0).
    rewrite bpow_plus in Q. change (b2 1) with 2 in Q. change (- (53))%Z with (-53)%Z in Q. lra. }
  destruct x as [s| | |s m e B]; try discriminate; [cbn in Rx; lra|].
  unfold to64, conv.
  pose proof (binary_normalize_correct 53 1024 prec64 emax64 mode_NE (cond_Zopp s (Zpos m)) e s) as K. cbv zeta in K.
  change (F2R {| Fnum := cond_Zopp s (Zpos m); Fexp := e |}) with (B2R (B754_finite s m e B : f80)) in K.
  change (SpecFloat.fexp 53 1024) with (FLT_exp (-1074) 53) in K. change (round_mode mode_NE) with ZnearestE in K.
  rewrite Rlt_bool_true in K.
  - destruct K as (K1 & K2 & _). rewrite K1. auto.
  - apply Rle_lt_trans with (b2 1001); [|apply bpow_lt; lia]. change (b2 1001) with (b2 (1 + 1000)). rewrite bpow_plus. change (b2 1) with 2.
    set (X := B2R (B754_finite s m e B : f80)) in *. replace (rnd64 X) with ((rnd64 X - X) + X) by ring. eapply Rle_trans; [apply Rabs_triang|].
    rewrite (Rabs_pos_eq X) by lra. assert (b2 (-53) * X <= 1 * X).
    { apply Rmult_le_compat_r; [lra|]. change 1 with (b2 0). apply bpow_le; lia. } lra.
Qed.

Lemma ln_le_minus : forall x, 0 < x -> ln x <= x - 1.
Proof. intros x H. destruct (Req_dec x 1) as [->|N]; [rewrite ln_1; lra|]. left. apply ln_lt_minus; auto. Qed.

Theorem C77_double_log : forall log64, log64_accurate log64 -> forall E, (32 <= E <= 1000)%Z -> log_accurate E (bpow radix2 (-50)) (via_double log64).
Proof.
  intros log64 HL E HE x Fx Rx. pose proof (bpow_gt_0 radix2 (-E)) as P0.
  assert (R1 : bpow radix2 (-1000) <= B2R x <= bpow radix2 1000).
  { split; [apply Rle_trans with (b2 (-E)); [apply bpow_le; lia|tauto]|apply Rle_trans with (b2 E); [tauto|apply bpow_le; lia]]. }
  destruct (to64_B2R x Fx R1) as [F1 E1]. set (y := to64 x) in *. set (X := B2R x) in *. assert (XP : 0 < X) by lra.
  set (e := bpow radix2 (-53)) in *. assert (EP : 0 < e <= / 1000000).
  { split; [apply bpow_gt_0|]. apply Rle_trans with (b2 (-20)); [apply bpow_le; lia|]. change (b2 (-20)) with (/ 1048576). lra. }
  assert (Y0 : X / 2 < B2R y) by (apply Rabs_le_inv in E1; nra).
  destruct (HL y F1 ltac:(lra)) as [F2 E2]. destruct (to80_exact64 _ F2) as [E3 F3]. unfold via_double. fold y. split; auto. rewrite E3.
  assert (D : Rabs (ln (B2R y) - ln X) <= 2 * e).
  { set (r := B2R y / X). assert (YR : B2R y = X * r) by (unfold r; field; lra).
    assert (RR : Rabs (r - 1) <= e).
    { replace (r - 1) with ((B2R y - X) * / X) by (unfold r; field; lra). rewrite Rabs_mult, (Rabs_pos_eq (/ X)) by (left; apply Rinv_0_lt_compat; auto).
      apply Rmult_le_reg_r with X; auto. rewrite Rmult_assoc, Rinv_l, Rmult_1_r by lra. exact E1. }
    apply Rabs_le_inv in RR. assert (0 < r) by lra. rewrite YR, ln_mult by auto. replace (ln X + ln r - ln X) with (ln r) by ring.
    apply Rabs_le. pose proof (ln_le_minus r ltac:(auto)) as U1. pose proof (ln_le_minus (/ r) ltac:(apply Rinv_0_lt_compat; auto)) as U2.
    rewrite ln_Rinv in U2 by auto. assert (/ r - 1 <= 2 * e).
    { apply Rmult_le_reg_r with r; auto. rewrite Rmult_minus_distr_r, Rinv_l by lra. nra. }
    lra. }
  assert (LY : Rabs (ln (B2R y)) <= Rabs (ln X) + 1).
  { replace (ln (B2R y)) with ((ln (B2R y) - ln X) + ln X) by ring. eapply Rle_trans; [apply Rabs_triang|]. lra. }
  assert (E5 : b2 (-52) = 2 * e) by (unfold e; change (-52)%Z with (1 + -53)%Z; rewrite bpow_plus; reflexivity).
  assert (E4 : b2 (-50) = 8 * e) by (unfold e; change (-50)%Z with (3 + -53)%Z; rewrite bpow_plus; reflexivity).
  rewrite E5 in E2. rewrite E4. pose proof (Rabs_pos (ln X)).
  replace (B2R (log64 y) - ln X) with ((B2R (log64 y) - ln (B2R y)) + (ln (B2R y) - ln X)) by ring. eapply Rle_trans; [apply Rabs_triang|].
  assert (2 * e * (1 + Rabs (ln (B2R y))) <= 2 * e * (1 + (Rabs (ln X) + 1))) by (apply Rmult_le_compat_l; lra). nra.
Qed.
Print Assumptions C77_double_log.
