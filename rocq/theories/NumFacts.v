(** * Rounding errors of entropies, gains and losses computed with long doubles. *)
From Coq Require Import ZArith Reals Lra Lia.
From Flocq Require Import Core BinarySingleNaN Relative Plus_error.
From Verif Require Import Base Arith Quality Ieee SpecIeee IeeeConv IeeeFacts SpecParts SpecInfo SpecNear NearFacts InfoFacts SpecNum.

Notation u := (b2 (-64)).

Lemma u_pos : (0 < u <= / 1000000000000)%R.
Proof. rewrite bp64. lra. Qed.

Lemma div80 : forall a b : f80, is_finite a = true -> is_finite b = true -> B2R b <> 0%R -> (Rabs (B2R a / B2R b) <= b2 16383)%R ->
  B2R (Bdiv mode_NE a b) = rnd80 (B2R a / B2R b) /\ is_finite (Bdiv mode_NE a b) = true.
Proof.
  intros a b Fa Fb Nz R. pose proof (Bdiv_correct 64 16384 prec80 emax80 mode_NE a b Nz) as K.
  change (SpecFloat.fexp 64 16384) with fexp80 in K. change (round_mode mode_NE) with ZnearestE in K.
  rewrite no_ovf in K by auto. destruct K as (K1 & K2 & _). rewrite K2, Fa. auto.
Qed.

(** Rounding a number of absolute value at most M loses at most 2uM. *)
Lemma rnd80_le : forall x M, (Rabs x <= M)%R -> (b2 (-16300) <= M)%R -> (Rabs (rnd80 x - x) <= 2 * (u * M))%R.
Proof.
  intros x M H1 H2. pose proof (rnd80_err x) as Er. assert (Eta : (b2 (-16446) <= u * M)%R).
  { apply Rle_trans with (u * b2 (-16300))%R; [rewrite <- bpow_plus; apply bpow_le; lia|].
    apply Rmult_le_compat_l; [apply bpow_ge_0|lra]. }
  assert (u * Rabs x <= u * M)%R by (apply Rmult_le_compat_l; [apply bpow_ge_0|auto]). lra.
Qed.

Lemma ln2_range : (/ 2 < ln 2 < 1)%R.
Proof. split; [exact ln_lt_2|]. pose proof (ln_lt_minus 2 ltac:(lra) ltac:(lra)). lra. Qed.

Lemma ln_b2 : forall e, ln (b2 e) = (IZR e * ln 2)%R.
Proof. intro e. rewrite bpow_exp. rewrite ln_exp. reflexivity. Qed.

Lemma ln_mono : forall x y, (0 < x)%R -> (x <= y)%R -> (ln x <= ln y)%R.
Proof. intros x y H [K| ->]; [left; apply ln_increasing; auto|right; auto]. Qed.

Lemma ln_range : forall E x, (b2 (- E) <= x <= b2 E)%R -> (Rabs (ln x) <= IZR E * ln 2)%R.
Proof.
  intros E x [H1 H2]. pose proof (bpow_gt_0 radix2 (-E)). apply Rabs_le. rewrite <- !ln_b2.
  replace (- ln (b2 E))%R with (ln (b2 (-E))) by (rewrite !ln_b2, opp_IZR; ring).
  split; apply ln_mono; lra.
Qed.

Lemma int80_exact : forall N, (0 <= N <= 4294967296)%Z -> B2R (int80 N) = IZR N /\ is_finite (int80 N) = true.
Proof.
  intros N HN. pose proof (binary_normalize_correct 64 16384 prec80 emax80 mode_NE N 0 false) as K. cbv zeta in K. fold (int80 N) in K.
  change (SpecFloat.fexp 64 16384) with fexp80 in K. change (round_mode mode_NE) with ZnearestE in K.
  assert (E0 : F2R (Float radix2 N 0) = IZR N) by (unfold F2R; cbn; ring). rewrite E0 in K.
  assert (B : (Rabs (IZR N) <= b2 32)%R). { change (b2 32) with 4294967296%R. rewrite Rabs_pos_eq by (apply IZR_le; lia). apply IZR_le; lia. }
  assert (F : F80 (IZR N)).
  { rewrite <- E0. apply generic_format_FLT. exists (Float radix2 N 0); [reflexivity|cbn; lia|cbn; lia]. }
  rewrite (round_generic _ _ _ _ F) in K. rewrite Rlt_bool_true in K; [destruct K as (K1 & K2 & _); auto|].
  eapply Rle_lt_trans; [exact B|]. apply bpow_lt. lia.
Qed.

(** x ln x is almost linear. *)
Lemma xln_diff : forall a b, (0 < b)%R -> (b / 2 <= a <= 2 * b)%R -> (Rabs (a * ln a - b * ln b) <= Rabs (a - b) * (Rabs (ln b) + 2))%R.
Proof.
  intros a b Hb Ha. assert (Ap : (0 < a)%R) by lra.
  replace (a * ln a - b * ln b)%R with ((a - b) * ln b + a * ln (a / b))%R.
  2: { unfold Rdiv. rewrite ln_mult by (auto; apply Rinv_0_lt_compat; auto). rewrite ln_Rinv by auto. ring. }
  eapply Rle_trans; [apply Rabs_triang|]. rewrite Rabs_mult.
  assert (Rabs (a * ln (a / b)) <= Rabs (a - b) * 2)%R; [|lra].
  assert (Q : (0 < a / b)%R) by (apply Rdiv_lt_0_compat; auto).
  assert (Q' : (0 < b / a)%R) by (apply Rdiv_lt_0_compat; auto).
  pose proof (ln_le_minus _ Q) as U. pose proof (ln_le_minus _ Q') as U'.
  assert (Ei : ln (b / a) = (- ln (a / b))%R).
  { replace (b / a)%R with (/ (a / b))%R by (field; lra). apply ln_Rinv; auto. }
  rewrite Ei in U'.
  assert (X1 : (a * ln (a / b) <= a * (a / b - 1))%R) by (apply Rmult_le_compat_l; lra).
  assert (X2 : (a * - ln (a / b) <= a * (b / a - 1))%R) by (apply Rmult_le_compat_l; lra).
  replace (a * (b / a - 1))%R with (b - a)%R in X2 by (field; lra).
  replace (a * (a / b - 1))%R with ((a - b) * (a / b))%R in X1 by (field; lra).
  assert (Q2 : (a / b <= 2)%R) by (apply (Rmult_le_reg_r b); auto; unfold Rdiv; rewrite Rmult_assoc, Rinv_l by lra; lra).
  unfold Rabs at 2. destruct (Rcase_abs (a - b)) as [N|N].
  - assert (X3 : ((a - b) * (a / b) <= 0)%R) by nra. apply Rabs_le. split; lra.
  - assert (X3 : ((a - b) * (a / b) <= (a - b) * 2)%R) by (apply Rmult_le_compat_l; lra). apply Rabs_le. split; lra.
Qed.

Section L.
Variables (lg : f80 -> f80) (E : Z) (d : R).
Hypothesis HE : (32 <= E <= 8000)%Z.
Hypothesis Hd : (0 <= d <= / 1024)%R.
Hypothesis HL : log_accurate E d lg.
Notation A := (IA lg).
Notation e := (IZR E).

(** The error of one entropy, relative to the value and to E. *)
Definition wr : R := (15 * d + 24 * u)%R.

Lemma e_range : (32 <= e <= 8000)%R.
Proof. split; apply IZR_le; lia. Qed.
Lemma wr_range : (0 <= wr <= / 60)%R.
Proof. unfold wr. pose proof u_pos. lra. Qed.

Lemma b2E_mono : forall k, (k <= E)%Z -> (b2 k <= b2 E)%R. Proof. intros. apply bpow_le. auto. Qed.

(** The logarithm of a number within the range. *)
Lemma lg_ok : forall x : f80, is_finite x = true -> (b2 (- E) <= B2R x <= b2 E)%R ->
  is_finite (lg x) = true /\ (Rabs (B2R (lg x) - ln (B2R x)) <= 2 * e * d)%R /\ (Rabs (ln (B2R x)) <= e * ln 2)%R.
Proof.
  intros x F R. destruct (HL x F R) as [F1 R1]. pose proof (ln_range E _ R) as LN. split; auto. split; auto.
  eapply Rle_trans; [exact R1|]. pose proof ln2_range. pose proof e_range.
  assert (e * ln 2 <= e * 1)%R by (apply Rmult_le_compat_l; lra).
  assert (d * (1 + Rabs (ln (B2R x))) <= d * (2 * e))%R by (apply Rmult_le_compat_l; lra). lra.
Qed.

Lemma int80_2 : B2R (int80 2) = 2%R /\ is_finite (int80 2) = true.
Proof. split; [unfold B2R; cbn; unfold F2R; cbn; lra|reflexivity]. Qed.

(** The constant ln. *)
Lemma lg2_ok : is_finite (lg (int80 2)) = true /\ (Rabs (B2R (lg (int80 2)) - ln 2) <= 2 * d)%R.
Proof.
  destruct int80_2 as [V F]. assert (R : (b2 (- E) <= B2R (int80 2) <= b2 E)%R).
  { rewrite V. change 2%R with (b2 1). split; apply bpow_le; lia. }
  destruct (HL _ F R) as [F1 R1]. split; auto. rewrite V in R1. eapply Rle_trans; [exact R1|].
  pose proof ln2_range. rewrite Rabs_pos_eq by lra. assert (d * (1 + ln 2) <= d * 2)%R by (apply Rmult_le_compat_l; lra). lra.
Qed.

(** x * l / ln, where l approximates the logarithm L. *)
Lemma quo_ok : forall (x l : f80) L, is_finite x = true -> is_finite l = true -> (b2 (- E) <= B2R x <= b2 E)%R ->
  (Rabs L <= e * ln 2)%R -> (Rabs (B2R l - L) <= 2 * e * d)%R ->
  within (B2R x * e * wr) (Bdiv mode_NE (Bmult mode_NE x l) (lg (int80 2))) (B2R x * (L / ln 2)).
Proof.
  intros x l L Fx Fl Rx HL1 Hl. pose proof e_range as ER. pose proof u_pos as UP. pose proof ln2_range as L2.
  destruct lg2_ok as [F2 R2]. set (D := B2R (lg (int80 2))) in *. apply Rabs_le_inv in R2.
  assert (Xp : (0 < B2R x)%R) by (pose proof (bpow_gt_0 radix2 (-E)); lra).
  set (X := B2R x) in *. set (l' := B2R l) in *.
  assert (XE : (b2 (-16300) <= X * e)%R).
  { apply Rle_trans with (b2 (-E) * 1)%R; [rewrite Rmult_1_r; apply bpow_le; lia|]. apply Rmult_le_compat; try lra. apply bpow_ge_0. }
  assert (XB : (X * e <= b2 16000)%R).
  { apply Rle_trans with (b2 E * b2 13)%R; [apply Rmult_le_compat; try lra; change (b2 13) with 8192%R; lra|].
    rewrite <- bpow_plus. apply bpow_le. lia. }
  assert (BB : (100 * b2 16000 <= b2 16383)%R).
  { apply Rle_trans with (b2 7 * b2 16000)%R; [apply Rmult_le_compat_r; [apply bpow_ge_0|change (b2 7) with 128%R; lra]|].
    rewrite <- bpow_plus. apply bpow_le. lia. }
  assert (Le : (e * ln 2 <= e * 1)%R) by (apply Rmult_le_compat_l; lra).
  assert (Ed : (e * d <= e * / 1024)%R) by (apply Rmult_le_compat_l; lra). assert (0 <= e * d)%R by (apply Rmult_le_pos; lra).
  assert (Al : (Rabs l' <= 2 * e)%R).
  { replace l' with ((l' - L) + L)%R by ring. eapply Rle_trans; [apply Rabs_triang|]. lra. }
  assert (XP : (0 < X * e)%R) by (apply Rmult_lt_0_compat; lra).
  assert (Ap : (Rabs (X * l') <= 2 * (X * e))%R).
  { rewrite Rabs_mult, (Rabs_pos_eq X) by lra. apply Rle_trans with (X * (2 * e))%R; [apply Rmult_le_compat_l; lra|lra]. }
  destruct (mult80 x l Fx Fl) as [E1 F1]; [fold X l'; lra|]. fold X l' in E1. set (pr := Bmult mode_NE x l) in *.
  pose proof (rnd80_le (X * l') (2 * (X * e)) Ap ltac:(lra)) as Er1. rewrite <- E1 in Er1. set (p := B2R pr) in *.
  assert (Uxe : (u * (X * e) <= / 1000000000000 * (X * e))%R) by (apply Rmult_le_compat_r; lra).
  assert (Uxp : (0 <= u * (X * e))%R) by (apply Rmult_le_pos; lra).
  set (U := (u * (X * e))%R) in *. assert (Er1' : (Rabs (p - X * l') <= 4 * U)%R) by (unfold U in *; lra).
  set (V := (X * (e * d))%R). assert (Vp : (0 <= V)%R) by (apply Rmult_le_pos; lra).
  assert (Vle : (V <= X * e * / 1024)%R) by (unfold V; replace (X * e * / 1024)%R with (X * (e * / 1024))%R by ring; apply Rmult_le_compat_l; lra).
  assert (Pd : (Rabs (p - X * L) <= 4 * U + 2 * V)%R).
  { replace (p - X * L)%R with ((p - X * l') + X * (l' - L))%R by ring. eapply Rle_trans; [apply Rabs_triang|].
    rewrite Rabs_mult, (Rabs_pos_eq X) by lra.
    assert (X * Rabs (l' - L) <= X * (2 * e * d))%R by (apply Rmult_le_compat_l; lra). unfold V. lra. }
  assert (AL : (Rabs (X * L) <= X * e)%R). { rewrite Rabs_mult, (Rabs_pos_eq X) by lra. apply Rmult_le_compat_l; lra. }
  assert (Dp : (/ 2 - / 512 <= D <= 1 + / 512)%R) by lra.
  assert (Q : (Rabs (p / D - X * (L / ln 2)) <= 10 * U + 15 * V)%R).
  { replace (p / D - X * (L / ln 2))%R with ((p - X * L) * / D + X * L * ((ln 2 - D) * (/ D * / ln 2)))%R by (field; lra).
    eapply Rle_trans; [apply Rabs_triang|].
    assert (I1 : (0 < / D <= 5/2)%R).
    { split; [apply Rinv_0_lt_compat; lra|]. apply (Rmult_le_reg_l D); [lra|]. rewrite Rinv_r by lra. lra. }
    assert (I2 : (0 < / ln 2 <= 2)%R).
    { split; [apply Rinv_0_lt_compat; lra|]. apply (Rmult_le_reg_l (ln 2)); [lra|]. rewrite Rinv_r by lra. lra. }
    assert (T1 : (Rabs ((p - X * L) * / D) <= (4 * U + 2 * V) * (5/2))%R).
    { rewrite Rabs_mult, (Rabs_pos_eq (/ D)) by lra. apply Rmult_le_compat; try lra. apply Rabs_pos. }
    assert (I3 : (Rabs ((ln 2 - D) * (/ D * / ln 2)) <= 2 * d * 5)%R).
    { rewrite Rabs_mult. assert (I4 : (0 < / D * / ln 2 <= 5)%R).
      { split; [apply Rmult_lt_0_compat; lra|]. apply Rle_trans with (5/2 * 2)%R; [apply Rmult_le_compat; lra|lra]. }
      rewrite (Rabs_pos_eq (/ D * / ln 2)) by lra. apply Rmult_le_compat; try lra; [apply Rabs_pos|apply Rabs_le; lra]. }
    assert (T2 : (Rabs (X * L * ((ln 2 - D) * (/ D * / ln 2))) <= X * e * (2 * d * 5))%R).
    { rewrite Rabs_mult. apply Rmult_le_compat; auto using Rabs_pos. }
    unfold V in *. lra. }
  assert (I1 : (0 < / D <= 5/2)%R).
  { split; [apply Rinv_0_lt_compat; lra|]. apply (Rmult_le_reg_l D); [lra|]. rewrite Rinv_r by lra. lra. }
  assert (Apd : (Rabs (p / D) <= 6 * (X * e))%R).
  { unfold Rdiv. rewrite Rabs_mult, (Rabs_pos_eq (/ D)) by lra.
    apply Rle_trans with ((12/5 * (X * e)) * (5/2))%R; [|lra]. apply Rmult_le_compat; try lra; [apply Rabs_pos|].
    replace p with ((p - X * l') + X * l')%R by ring. eapply Rle_trans; [apply Rabs_triang|]. lra. }
  destruct (div80 pr (lg (int80 2)) F1 F2) as [E3 F3]; [fold D; lra|fold p D; lra|]. fold p D in E3.
  pose proof (rnd80_le (p / D) (6 * (X * e)) Apd ltac:(lra)) as Er3. rewrite <- E3 in Er3.
  split; [exact F3|]. set (q := B2R (Bdiv mode_NE pr (lg (int80 2)))) in *.
  replace (q - X * (L / ln 2))%R with ((q - p / D) + (p / D - X * (L / ln 2)))%R by ring. eapply Rle_trans; [apply Rabs_triang|].
  unfold wr. unfold U, V in *. lra.
Qed.

(** ** Sums. [apS k v S]: v is the sum S of k non-negative numbers, with the error of k-1 additions. *)
Definition apS (k : Z) (v : f80) (S : R) : Prop :=
  is_finite v = true /\ (0 <= S)%R /\ (Rabs (B2R v - S) <= 2 * IZR k * u * S)%R.
(** [apI k v S I]: v is a sum I of k entropies of values that sum to S. *)
Definition apI (k : Z) (v : f80) (S I : R) : Prop :=
  is_finite v = true /\ (0 <= S)%R /\ (Rabs (B2R v - I) <= S * e * (wr + 4 * IZR k * u))%R /\ (Rabs I <= e * S)%R.

Lemma k_u : forall k, (0 <= k <= 4294967296)%Z -> (0 <= IZR k * u <= / 4000000000)%R.
Proof.
  intros k Hk. assert (H : (0 <= IZR k <= 4294967296)%R) by (split; apply IZR_le; lia). pose proof u_pos. split; [apply Rmult_le_pos; lra|].
  apply Rle_trans with (4294967296 * u)%R; [apply Rmult_le_compat_r; lra|]. rewrite bp64. lra.
Qed.

Lemma apS_abs : forall k v S, (0 <= k <= 4294967296)%Z -> apS k v S -> (Rabs (B2R v - S) <= / 1000000 * S)%R.
Proof.
  intros k v S Hk (_ & S0 & H). pose proof (k_u k Hk). assert (2 * IZR k * u * S <= / 1000000 * S)%R by (apply Rmult_le_compat_r; lra). lra.
Qed.

Lemma b2E_big : (1000000000 * b2 E <= b2 16383)%R.
Proof.
  apply Rle_trans with (b2 30 * b2 E)%R; [apply Rmult_le_compat_r; [apply bpow_ge_0|change (b2 30) with 1073741824%R; lra]|].
  rewrite <- bpow_plus. apply bpow_le. lia.
Qed.

Lemma apS_zero : apS 0 (B754_zero false) 0.
Proof. split; [reflexivity|]. split; [lra|]. change (B2R (B754_zero false)) with 0%R. rewrite Rminus_0_r, Rabs_R0. lra. Qed.
Lemma apS_one : forall v, is_finite v = true -> (0 <= B2R v)%R -> apS 1 v (B2R v).
Proof. intros v F H. split; auto. split; auto. rewrite Rminus_diag_eq, Rabs_R0 by auto. pose proof u_pos. nra. Qed.
Lemma apS_le : forall k k' v S, (k <= k')%Z -> apS k v S -> apS k' v S.
Proof.
  intros k k' v S H (F & S0 & R). split; auto. split; auto. eapply Rle_trans; [exact R|]. apply IZR_le in H. pose proof u_pos.
  apply Rmult_le_compat_r; auto. apply Rmult_le_compat_r; lra.
Qed.

Lemma apS_add : forall k1 k2 v1 v2 S1 S2, (1 <= k1)%Z -> (1 <= k2)%Z -> (k1 + k2 <= 4294967296)%Z -> (S1 + S2 <= b2 E)%R ->
  apS k1 v1 S1 -> apS k2 v2 S2 -> apS (k1 + k2) (Bplus mode_NE v1 v2) (S1 + S2).
Proof.
  intros k1 k2 v1 v2 S1 S2 H1 H2 H3 HS A1 A2. pose proof (apS_abs k1 v1 S1 ltac:(lia) A1) as B1. pose proof (apS_abs k2 v2 S2 ltac:(lia) A2) as B2.
  destruct A1 as (F1 & P1 & R1), A2 as (F2 & P2 & R2). pose proof u_pos as UP. pose proof b2E_big as BB.
  assert (AB : (Rabs (B2R v1 + B2R v2) <= 3/2 * (S1 + S2))%R).
  { replace (B2R v1 + B2R v2)%R with ((B2R v1 - S1) + (B2R v2 - S2) + (S1 + S2))%R by ring. eapply Rle_trans; [apply Rabs_triang|].
    rewrite (Rabs_pos_eq (S1 + S2)) by lra. pose proof (Rabs_triang (B2R v1 - S1) (B2R v2 - S2)). lra. }
  destruct (plus80 v1 v2 F1 F2 ltac:(lra)) as [Ev Ff]. pose proof (rnd80_plus_err _ _ (b80R v1) (b80R v2)) as Er. rewrite <- Ev in Er.
  assert (Er' : (u * Rabs (B2R v1 + B2R v2) <= u * (3/2 * (S1 + S2)))%R) by (apply Rmult_le_compat_l; lra).
  split; [exact Ff|]. split; [lra|].
  replace (B2R (Bplus mode_NE v1 v2) - (S1 + S2))%R with ((B2R (Bplus mode_NE v1 v2) - (B2R v1 + B2R v2)) + ((B2R v1 - S1) + (B2R v2 - S2)))%R by ring.
  eapply Rle_trans; [apply Rabs_triang|]. pose proof (Rabs_triang (B2R v1 - S1) (B2R v2 - S2)) as Tr. rewrite plus_IZR.
  assert (K1 : (1 <= IZR k1)%R) by (apply IZR_le; lia). assert (K2 : (1 <= IZR k2)%R) by (apply IZR_le; lia).
  assert (X1 : (u * S1 <= IZR k2 * (u * S1))%R) by (assert (0 <= u * S1)%R by (apply Rmult_le_pos; lra); nra).
  assert (X2 : (u * S2 <= IZR k1 * (u * S2))%R) by (assert (0 <= u * S2)%R by (apply Rmult_le_pos; lra); nra).
  nra.
Qed.

(** Adding an exact zero. *)
Lemma plus_zero_l : forall v w : f80, is_finite v = true -> B2R v = 0%R -> is_finite w = true ->
  is_finite (Bplus mode_NE v w) = true /\ B2R (Bplus mode_NE v w) = B2R w.
Proof.
  intros v w F Z Fw. pose proof (Bplus_correct 64 16384 prec80 emax80 mode_NE v w F Fw) as K.
  change (SpecFloat.fexp 64 16384) with fexp80 in K. change (round_mode mode_NE) with ZnearestE in K. rewrite Z, Rplus_0_l in K.
  rewrite (round_generic _ _ _ _ (b80R w)) in K. rewrite Rlt_bool_true in K; [destruct K as (K1 & K2 & _); auto|]. apply abs_B2R_lt_emax.
Qed.
Lemma apS_exact0 : forall v S, apS 0 v S -> B2R v = S.
Proof.
  intros v S (_ & _ & H). rewrite !Rmult_0_r, !Rmult_0_l in H. pose proof (Rabs_pos (B2R v - S)).
  destruct (Req_dec (B2R v - S) 0); [lra|]. pose proof (Rabs_pos_lt _ H1). lra.
Qed.
Lemma apS_add0 : forall k v1 v2 S, apS 0 v1 0 -> apS k v2 S -> apS k (Bplus mode_NE v1 v2) S.
Proof.
  intros k v1 v2 S A1 A2. pose proof (apS_exact0 _ _ A1) as Z. destruct A1 as (F1 & _), A2 as (F2 & P & R).
  destruct (plus_zero_l v1 v2 F1 Z F2) as [F E']. split; auto. split; auto. rewrite E'. auto.
Qed.

Lemma apI_abs : forall k v S I, (0 <= k <= 4294967296)%Z -> apI k v S I -> (Rabs (B2R v - I) <= / 50 * (S * e))%R.
Proof.
  intros k v S I Hk (_ & S0 & H & _). pose proof (k_u k Hk). pose proof wr_range. pose proof e_range.
  assert (0 <= S * e)%R by (apply Rmult_le_pos; lra).
  assert (S * e * (wr + 4 * IZR k * u) <= S * e * (/ 50))%R by (apply Rmult_le_compat_l; lra). lra.
Qed.

Lemma e_big : (1000 * (b2 E * e) <= b2 16383)%R.
Proof.
  pose proof e_range. pose proof (bpow_gt_0 radix2 E). apply Rle_trans with (b2 10 * (b2 E * b2 13))%R.
  - apply Rmult_le_compat; try lra; [apply Rmult_le_pos; lra|change (b2 10) with 1024%R; lra|].
    apply Rmult_le_compat_l; [lra|change (b2 13) with 8192%R; lra].
  - rewrite <- !bpow_plus. apply bpow_le. lia.
Qed.

Lemma apI_add : forall k1 k2 v1 v2 S1 S2 I1 I2, (1 <= k1)%Z -> (1 <= k2)%Z -> (k1 + k2 <= 4294967296)%Z -> (S1 + S2 <= b2 E)%R ->
  apI k1 v1 S1 I1 -> apI k2 v2 S2 I2 -> apI (k1 + k2) (Bplus mode_NE v1 v2) (S1 + S2) (I1 + I2).
Proof.
  intros k1 k2 v1 v2 S1 S2 I1 I2 H1 H2 H3 HS A1 A2. pose proof (apI_abs k1 v1 S1 I1 ltac:(lia) A1) as B1. pose proof (apI_abs k2 v2 S2 I2 ltac:(lia) A2) as B2.
  destruct A1 as (F1 & P1 & R1 & Q1), A2 as (F2 & P2 & R2 & Q2). pose proof u_pos as UP. pose proof e_big as BB. pose proof e_range as ER.
  assert (SE : ((S1 + S2) * e <= b2 E * e)%R) by (apply Rmult_le_compat_r; lra).
  assert (AB : (Rabs (B2R v1 + B2R v2) <= 3/2 * ((S1 + S2) * e))%R).
  { replace (B2R v1 + B2R v2)%R with ((B2R v1 - I1) + (B2R v2 - I2) + (I1 + I2))%R by ring. eapply Rle_trans; [apply Rabs_triang|].
    pose proof (Rabs_triang (B2R v1 - I1) (B2R v2 - I2)). pose proof (Rabs_triang I1 I2).
    assert (0 <= S1 * e)%R by (apply Rmult_le_pos; lra). assert (0 <= S2 * e)%R by (apply Rmult_le_pos; lra). lra. }
  assert (P1e : (0 <= S1 * e)%R) by (apply Rmult_le_pos; lra). assert (P2e : (0 <= S2 * e)%R) by (apply Rmult_le_pos; lra).
  destruct (plus80 v1 v2 F1 F2 ltac:(lra)) as [Ev Ff]. pose proof (rnd80_plus_err _ _ (b80R v1) (b80R v2)) as Er. rewrite <- Ev in Er.
  assert (Er' : (u * Rabs (B2R v1 + B2R v2) <= u * (3/2 * ((S1 + S2) * e)))%R) by (apply Rmult_le_compat_l; lra).
  split; [exact Ff|]. split; [lra|]. split.
  - replace (B2R (Bplus mode_NE v1 v2) - (I1 + I2))%R with ((B2R (Bplus mode_NE v1 v2) - (B2R v1 + B2R v2)) + ((B2R v1 - I1) + (B2R v2 - I2)))%R by ring.
    eapply Rle_trans; [apply Rabs_triang|]. pose proof (Rabs_triang (B2R v1 - I1) (B2R v2 - I2)) as Tr. rewrite plus_IZR.
    assert (K1 : (1 <= IZR k1)%R) by (apply IZR_le; lia). assert (K2 : (1 <= IZR k2)%R) by (apply IZR_le; lia).
    set (X := (u * (S1 * e))%R). set (Y := (u * (S2 * e))%R). assert (X0 : (0 <= X)%R) by (apply Rmult_le_pos; lra). assert (Y0 : (0 <= Y)%R) by (apply Rmult_le_pos; lra).
    assert (X1 : (X <= IZR k2 * X)%R) by nra. assert (Y1 : (Y <= IZR k1 * Y)%R) by nra.
    replace ((S1 + S2) * e * (wr + 4 * (IZR k1 + IZR k2) * u))%R with
      (S1 * e * (wr + 4 * IZR k1 * u) + S2 * e * (wr + 4 * IZR k2 * u) + 4 * (IZR k2 * X) + 4 * (IZR k1 * Y))%R by (unfold X, Y; ring).
    replace (u * (3 / 2 * ((S1 + S2) * e)))%R with (3/2 * (X + Y))%R in Er' by (unfold X, Y; ring). lra.
  - eapply Rle_trans; [apply Rabs_triang|]. lra.
Qed.

Lemma apI_zero : apI 0 (B754_zero false) 0 0.
Proof.
  split; [reflexivity|]. split; [lra|]. change (B2R (B754_zero false)) with 0%R. rewrite Rminus_0_r, Rabs_R0. split; lra.
Qed.
Lemma apI_exact0 : forall v I, apI 0 v 0 I -> B2R v = 0%R /\ I = 0%R.
Proof.
  intros v I (_ & _ & H & K). rewrite !Rmult_0_l in H. rewrite Rmult_0_r in K.
  assert (Z : forall x, (Rabs x <= 0)%R -> x = 0%R). { intros x Hx. destruct (Req_dec x 0); auto. pose proof (Rabs_pos_lt _ H0). lra. }
  apply Z in H. apply Z in K. lra.
Qed.
Lemma apI_add0 : forall k v1 v2 S I, apI 0 v1 0 0 -> apI k v2 S I -> apI k (Bplus mode_NE v1 v2) S I.
Proof.
  intros k v1 v2 S I A1 A2. destruct (apI_exact0 _ _ A1) as [Z _]. destruct A1 as (F1 & _), A2 as (F2 & P & R).
  destruct (plus_zero_l v1 v2 F1 Z F2) as [F E']. split; auto. split; auto. rewrite E'. auto.
Qed.

(** ** One value: x log2 x. *)
Lemma entropy_ok : forall x : f80, is_finite x = true -> (b2 (- E) <= B2R x <= b2 E)%R ->
  within (B2R x * e * wr) (entropy A x) (B2R x * log2 (B2R x)).
Proof.
  intros x F R. destruct (lg_ok x F R) as (F1 & R1 & L1). unfold entropy, c_ln2, log2. cbn [n_div n_mul n_log n_ofZ IA].
  apply quo_ok; auto.
Qed.

Lemma log2_range : forall x, (b2 (- E) <= x <= b2 E)%R -> (Rabs (log2 x) <= e)%R.
Proof.
  intros x R. unfold log2, Rdiv. pose proof ln2_range. rewrite Rabs_mult, (Rabs_pos_eq (/ ln 2)) by (left; apply Rinv_0_lt_compat; lra).
  apply (Rmult_le_reg_r (ln 2)); [lra|]. rewrite Rmult_assoc, Rinv_l by lra. rewrite Rmult_1_r. apply ln_range; auto.
Qed.

Lemma minus_zero_r : forall v : f80, is_finite v = true -> is_finite (Bminus mode_NE v (B754_zero false)) = true /\ B2R (Bminus mode_NE v (B754_zero false)) = B2R v.
Proof.
  intros v F. pose proof (Bminus_correct 64 16384 prec80 emax80 mode_NE v (B754_zero false) F eq_refl) as K.
  change (SpecFloat.fexp 64 16384) with fexp80 in K. change (round_mode mode_NE) with ZnearestE in K.
  change (B2R (B754_zero false)) with 0%R in K. rewrite Rminus_0_r in K.
  rewrite (round_generic _ _ _ _ (b80R v)) in K. rewrite Rlt_bool_true in K; [destruct K as (K1 & K2 & _); auto|]. apply abs_B2R_lt_emax.
Qed.

Lemma apI_one : forall x : f80, datum E x -> (B2R x <= b2 E)%R -> apI 1 (entropyReduction A x (n_zero A)) (B2R x) (xlog2 (B2R x)).
Proof.
  intros x [F D] M. unfold entropyReduction. cbn [n_ltb n_zero n_sub IA]. pose proof e_range as ER. pose proof wr_range as WR. pose proof u_pos as UP.
  assert (Lt : Bltb (B754_zero false : f80) x = true <-> (0 < B2R x)%R) by (apply (ltb80 (B754_zero false) x); auto).
  destruct (Bltb (B754_zero false : f80) x) eqn:B.
  - assert (P : (0 < B2R x)%R) by (apply Lt; auto). destruct D as [D|D]; [lra|].
    assert (R : (b2 (- E) <= B2R x <= b2 E)%R). { split; auto. apply Rle_trans with (b2 (1 - E)); auto. apply bpow_le; lia. }
    destruct (entropy_ok x F R) as [F1 R1]. destruct (minus_zero_r _ F1) as [F2 E2]. split; [exact F2|]. split; [lra|]. rewrite E2.
    unfold xlog2. destruct (Rlt_dec 0 (B2R x)); [|lra]. split.
    + eapply Rle_trans; [exact R1|]. apply Rmult_le_compat_l; [apply Rmult_le_pos; lra|]. lra.
    + rewrite Rabs_mult, (Rabs_pos_eq (B2R x)) by lra. rewrite Rmult_comm. apply Rmult_le_compat_r; [lra|]. apply log2_range; auto.
  - assert (Z : B2R x = 0%R).
    { destruct D as [D|D]; auto. assert (0 < B2R x)%R by (pose proof (bpow_gt_0 radix2 (1 - E)); lra). apply Lt in H. congruence. }
    rewrite Z. unfold xlog2. destruct (Rlt_dec 0 0); [lra|]. split; [reflexivity|]. split; [lra|].
    change (B2R (B754_zero false)) with 0%R. rewrite Rminus_0_r, Rabs_R0. split; lra.
Qed.

(** ** One entry: gain and loss of a component. *)
Definition gainS (S I : R) : R := if Rlt_dec 0 S then (S * log2 S - I)%R else 0%R.

Lemma row_gain : forall k (s f : f80) S I, (1 <= k <= 4294967296)%Z -> (S = 0 \/ b2 (1 - E) <= S)%R -> (S <= b2 (E - 1))%R ->
  apS k s S -> apI k f S I -> within (S * e * (3 * wr + 12 * IZR k * u)) (entropyReduction A s f) (gainS S I) /\ (Rabs (gainS S I) <= 2 * (S * e))%R.
Proof.
  intros k s f S I Hk D M As Ai. unfold entropyReduction, gainS. cbn [n_ltb n_zero n_sub IA].
  pose proof e_range as ER. pose proof wr_range as WR. pose proof u_pos as UP. pose proof (k_u k ltac:(lia)) as KU.
  pose proof (apS_abs k s S ltac:(lia) As) as Bs. pose proof (apI_abs k f S I ltac:(lia) Ai) as Bi. destruct As as (Fs & S0 & Rs), Ai as (Ff & _ & Rf & If').
  assert (K1 : (1 <= IZR k)%R) by (apply IZR_le; lia).
  assert (Lt : Bltb (B754_zero false : f80) s = true <-> (0 < B2R s)%R) by (apply (ltb80 (B754_zero false) s); auto).
  destruct (Rlt_dec 0 S) as [P|NP].
  - destruct D as [D|D]; [lra|]. apply Rabs_le_inv in Bs.
    assert (Hs : (S / 2 <= B2R s <= 2 * S)%R) by lra.
    assert (HB : Bltb (B754_zero false : f80) s = true) by (apply Lt; lra). rewrite HB.
    assert (R0 : (b2 (- E) <= B2R s <= b2 E)%R).
    { replace (- E)%Z with (1 - E - 1)%Z by lia. rewrite <- half_bpow. rewrite <- half_bpow in M. split; lra. }
    assert (RS : (b2 (- E) <= S <= b2 E)%R).
    { replace (- E)%Z with (1 - E - 1)%Z by lia. rewrite <- half_bpow. rewrite <- half_bpow in M. pose proof (bpow_gt_0 radix2 (1-E)). split; lra. }
    destruct (entropy_ok s Fs R0) as [F1 R1]. set (h := entropy A s : f80) in *.
    assert (Se : (0 < S * e)%R) by (apply Rmult_lt_0_compat; lra).
    assert (R1' : (Rabs (B2R h - B2R s * log2 (B2R s)) <= 2 * (S * e * wr))%R).
    { eapply Rle_trans; [exact R1|]. replace (2 * (S * e * wr))%R with ((2 * S) * (e * wr))%R by ring.
      rewrite Rmult_assoc. apply Rmult_le_compat_r; [apply Rmult_le_pos; lra|lra]. }
    assert (X : (Rabs (B2R s * log2 (B2R s) - S * log2 S) <= 4 * (IZR k * u) * (S * e))%R).
    { pose proof (xln_diff (B2R s) S P Hs) as Xd. pose proof ln2_range as L2. pose proof (ln_range E S RS) as LS.
      unfold log2. replace (B2R s * (ln (B2R s) / ln 2) - S * (ln S / ln 2))%R with ((B2R s * ln (B2R s) - S * ln S) * / ln 2)%R by (field; lra).
      assert (I2 : (0 < / ln 2)%R) by (apply Rinv_0_lt_compat; lra).
      rewrite Rabs_mult, (Rabs_pos_eq (/ ln 2)) by lra. apply (Rmult_le_reg_r (ln 2)); [lra|]. rewrite Rmult_assoc, Rinv_l, Rmult_1_r by lra.
      eapply Rle_trans; [exact Xd|].
      apply Rle_trans with (2 * IZR k * u * S * (2 * (e * ln 2)))%R; [|right; ring].
      apply Rmult_le_compat; auto using Rabs_pos; [pose proof (Rabs_pos (ln S)); lra|].
      assert (32 * / 2 <= e * ln 2)%R by (apply Rmult_le_compat; lra). lra. }
    assert (AX : (Rabs (S * log2 S) <= S * e)%R).
    { rewrite Rabs_mult, (Rabs_pos_eq S) by lra. apply Rmult_le_compat_l; [lra|]. apply log2_range; auto. }
    assert (KS : (IZR k * u * (S * e) <= / 4000000000 * (S * e))%R) by (apply Rmult_le_compat_r; lra).
    assert (WS : (S * e * wr <= S * e * / 60)%R) by (apply Rmult_le_compat_l; lra).
    assert (Hh : (Rabs (B2R h - S * log2 S) <= 2 * (S * e * wr) + 4 * (IZR k * u) * (S * e))%R).
    { replace (B2R h - S * log2 S)%R with ((B2R h - B2R s * log2 (B2R s)) + (B2R s * log2 (B2R s) - S * log2 S))%R by ring.
      eapply Rle_trans; [apply Rabs_triang|]. lra. }
    assert (Dd : (Rabs ((B2R h - B2R f) - (S * log2 S - I)) <= 3 * (S * e * wr) + 8 * (IZR k * u) * (S * e))%R).
    { replace ((B2R h - B2R f) - (S * log2 S - I))%R with ((B2R h - S * log2 S) + - (B2R f - I))%R by ring.
      eapply Rle_trans; [apply Rabs_triang|]. rewrite Rabs_Ropp. lra. }
    assert (AG : (Rabs (S * log2 S - I) <= 2 * (S * e))%R).
    { unfold Rminus. eapply Rle_trans; [apply Rabs_triang|]. rewrite Rabs_Ropp. lra. }
    split; [|exact AG].
    assert (Ad : (Rabs (B2R h - B2R f) <= 3 * (S * e))%R).
    { replace (B2R h - B2R f)%R with ((B2R h - B2R f) - (S * log2 S - I) + (S * log2 S - I))%R by ring. eapply Rle_trans; [apply Rabs_triang|]. lra. }
    pose proof e_big as BB. assert (SB : (S * e <= b2 E * e)%R) by (apply Rmult_le_compat_r; lra).
    destruct (minus80 h f F1 Ff ltac:(lra)) as [Eg Fg].
    assert (Er : (Rabs (B2R (Bminus mode_NE h f) - (B2R h - B2R f)) <= u * Rabs (B2R h - B2R f))%R).
    { rewrite Eg. unfold Rminus at 1 3 4. apply rnd80_plus_err; [apply b80R|apply generic_format_opp, b80R]. }
    assert (Er' : (u * Rabs (B2R h - B2R f) <= u * (3 * (S * e)))%R) by (apply Rmult_le_compat_l; lra).
    split; [exact Fg|].
    replace (B2R (Bminus mode_NE h f) - (S * log2 S - I))%R with ((B2R (Bminus mode_NE h f) - (B2R h - B2R f)) + ((B2R h - B2R f) - (S * log2 S - I)))%R by ring.
    eapply Rle_trans; [apply Rabs_triang|].
    assert (u * (S * e) <= IZR k * (u * (S * e)))%R. { assert (0 <= u * (S * e))%R by (apply Rmult_le_pos; lra). nra. }
    assert (0 <= IZR k * u * (S * e))%R by (apply Rmult_le_pos; lra). lra.
  - assert (Z : S = 0%R) by lra. subst S. rewrite !Rmult_0_r in Bs. pose proof (Rabs_pos (B2R s - 0)).
    assert (Zs : B2R s = 0%R). { destruct (Req_dec (B2R s - 0) 0); [lra|]. pose proof (Rabs_pos_lt _ H0). lra. }
    destruct (Bltb (B754_zero false : f80) s) eqn:B; [assert (0 < B2R s)%R by (apply Lt; reflexivity); lra|]. rewrite Rabs_R0. split; [|lra]. split; [reflexivity|].
    change (B2R (B754_zero false)) with 0%R. rewrite Rminus_0_r, Rabs_R0. lra.
Qed.

Lemma row_loss : forall k N (s f : f80) S I, (1 <= k <= 4294967296)%Z -> (1 <= N <= 4294967296)%Z -> (S = 0 \/ b2 (1 - E) <= S)%R -> (S <= b2 (E - 1))%R ->
  apS k s S -> apI k f S I ->
  within (S * e * (5 * wr + 22 * IZR k * u)) (divergence A N s f) (S * log2 (IZR N) - gainS S I) /\ (Rabs (S * log2 (IZR N) - gainS S I) <= 3 * (S * e))%R.
Proof.
  intros k N s f S I Hk HN D M As Ai. destruct (row_gain k s f S I Hk D M As Ai) as [[Fg Rg] Ag].
  unfold divergence, c_ln2. cbn [n_sub n_div n_mul n_log n_ofZ IA]. set (g := entropyReduction A s f : f80) in *. set (G := gainS S I) in *.
  pose proof e_range as ER. pose proof wr_range as WR. pose proof u_pos as UP. pose proof (k_u k ltac:(lia)) as KU.
  pose proof (apS_abs k s S ltac:(lia) As) as Bs. destruct As as (Fs & S0 & Rs). assert (K1 : (1 <= IZR k)%R) by (apply IZR_le; lia).
  assert (NR : (1 <= IZR N <= 4294967296)%R) by (split; apply IZR_le; lia).
  destruct (int80_exact N ltac:(lia)) as [EN FN].
  assert (RN : (b2 (- E) <= IZR N <= b2 E)%R).
  { split; [apply Rle_trans with (b2 0); [apply bpow_le; lia|rewrite bp0; lra]|]. apply Rle_trans with (b2 32); [change (b2 32) with 4294967296%R; lra|apply bpow_le; lia]. }
  assert (RN' : (b2 (- E) <= B2R (int80 N) <= b2 E)%R) by (rewrite EN; exact RN).
  destruct (lg_ok (int80 N) FN RN') as (Fl & Rl & Ll). rewrite EN in Rl, Ll. pose proof (log2_range (IZR N) RN) as LN.
  assert (Se0 : (0 <= S * e)%R) by (apply Rmult_le_pos; lra).
  assert (KS : (0 <= IZR k * u * (S * e) <= / 4000000000 * (S * e))%R) by (split; [apply Rmult_le_pos; lra|apply Rmult_le_compat_r; lra]).
  assert (WS : (0 <= S * e * wr <= S * e * / 60)%R) by (split; [apply Rmult_le_pos; lra|apply Rmult_le_compat_l; lra]).
  assert (AN : (Rabs (S * log2 (IZR N)) <= S * e)%R). { rewrite Rabs_mult, (Rabs_pos_eq S) by lra. apply Rmult_le_compat_l; lra. }
  set (h := Bdiv mode_NE (Bmult mode_NE s (lg (int80 N))) (lg (int80 2))).
  assert (Hh : is_finite h = true /\ (Rabs (B2R h - S * log2 (IZR N)) <= 2 * (S * e * wr) + 2 * (IZR k * u) * (S * e))%R).
  { destruct (Rlt_dec 0 S) as [P|NP].
    - destruct D as [D|D]; [lra|]. apply Rabs_le_inv in Bs.
      assert (R0 : (b2 (- E) <= B2R s <= b2 E)%R).
      { replace (- E)%Z with (1 - E - 1)%Z by lia. rewrite <- half_bpow. rewrite <- half_bpow in M. split; lra. }
      destruct (quo_ok s (lg (int80 N)) (ln (IZR N)) Fs Fl R0 Ll Rl) as [Fh Rh]. fold h in Fh, Rh. split; auto.
      change (ln (IZR N) / ln 2)%R with (log2 (IZR N)) in Rh.
      replace (B2R h - S * log2 (IZR N))%R with ((B2R h - B2R s * log2 (IZR N)) + (B2R s - S) * log2 (IZR N))%R by ring.
      eapply Rle_trans; [apply Rabs_triang|]. rewrite (Rabs_mult (B2R s - S)).
      assert (T1 : (B2R s * e * wr <= 2 * (S * e * wr))%R).
      { replace (2 * (S * e * wr))%R with ((2 * S) * (e * wr))%R by ring. rewrite Rmult_assoc. apply Rmult_le_compat_r; [apply Rmult_le_pos; lra|lra]. }
      assert (T2 : (Rabs (B2R s - S) * Rabs (log2 (IZR N)) <= 2 * IZR k * u * S * e)%R) by (apply Rmult_le_compat; auto using Rabs_pos).
      lra.
    - assert (Z : S = 0%R) by lra. rewrite Z in Bs. rewrite !Rmult_0_r in Bs. pose proof (Rabs_pos (B2R s - 0)).
      assert (Zs : B2R s = 0%R). { destruct (Req_dec (B2R s - 0) 0) as [X|X]; [lra|]. pose proof (Rabs_pos_lt _ X). lra. }
      destruct (mult80 s (lg (int80 N)) Fs Fl) as [E1 F1]. { rewrite Zs, Rmult_0_l, Rabs_R0. apply bpow_ge_0. }
      rewrite Zs, Rmult_0_l, round_0 in E1 by auto with typeclass_instances.
      destruct lg2_ok as [F2 R2]. apply Rabs_le_inv in R2. pose proof ln2_range as L2.
      destruct (div80 (Bmult mode_NE s (lg (int80 N))) (lg (int80 2)) F1 F2) as [E3 F3]; [lra|rewrite E1; unfold Rdiv; rewrite Rmult_0_l, Rabs_R0; apply bpow_ge_0|].
      fold h in E3, F3. split; auto. rewrite E3, E1. unfold Rdiv. rewrite Rmult_0_l, round_0 by auto with typeclass_instances.
      rewrite Z, Rmult_0_l, Rminus_0_r, Rabs_R0. lra. }
  destruct Hh as [Fh Rh].
  assert (AG : (Rabs (S * log2 (IZR N) - G) <= 3 * (S * e))%R).
  { unfold Rminus. eapply Rle_trans; [apply Rabs_triang|]. rewrite Rabs_Ropp. lra. }
  split; [|exact AG].
  assert (Dd : (Rabs ((B2R h - B2R g) - (S * log2 (IZR N) - G)) <= 5 * (S * e * wr) + 14 * (IZR k * u) * (S * e))%R).
  { replace ((B2R h - B2R g) - (S * log2 (IZR N) - G))%R with ((B2R h - S * log2 (IZR N)) + - (B2R g - G))%R by ring.
    eapply Rle_trans; [apply Rabs_triang|]. rewrite Rabs_Ropp. lra. }
  assert (Ad : (Rabs (B2R h - B2R g) <= 4 * (S * e))%R).
  { replace (B2R h - B2R g)%R with ((B2R h - B2R g) - (S * log2 (IZR N) - G) + (S * log2 (IZR N) - G))%R by ring. eapply Rle_trans; [apply Rabs_triang|]. lra. }
  pose proof e_big as BB. assert (SB : (S * e <= b2 E * e)%R).
  { apply Rmult_le_compat_r; [lra|]. apply Rle_trans with (b2 (E - 1)); auto. apply bpow_le; lia. }
  destruct (minus80 h g Fh Fg ltac:(lra)) as [Eg' Fg'].
  assert (Er : (Rabs (B2R (Bminus mode_NE h g) - (B2R h - B2R g)) <= u * Rabs (B2R h - B2R g))%R).
  { rewrite Eg'. unfold Rminus at 1 3 4. apply rnd80_plus_err; [apply b80R|apply generic_format_opp, b80R]. }
  assert (Er' : (u * Rabs (B2R h - B2R g) <= u * (4 * (S * e)))%R) by (apply Rmult_le_compat_l; lra).
  split; [exact Fg'|].
  replace (B2R (Bminus mode_NE h g) - (S * log2 (IZR N) - G))%R with ((B2R (Bminus mode_NE h g) - (B2R h - B2R g)) + ((B2R h - B2R g) - (S * log2 (IZR N) - G)))%R by ring.
  eapply Rle_trans; [apply Rabs_triang|].
  assert (u * (S * e) <= IZR k * (u * (S * e)))%R. { assert (0 <= u * (S * e))%R by (apply Rmult_le_pos; lra). nra. }
  lra.
Qed.

(** ** Accumulating components: after [j] of them, with total [T]. *)
Definition apQ (c : R) (j : Z) (v : f80) (T G : R) : Prop :=
  is_finite v = true /\ (0 <= T)%R /\ (Rabs (B2R v - G) <= T * e * (c + 8 * IZR j * u))%R /\ (Rabs G <= 3 * (T * e))%R.

Lemma apQ_zero : forall c, apQ c 0 (B754_zero false) 0 0.
Proof.
  intros c. split; [reflexivity|]. split; [lra|]. change (B2R (B754_zero false)) with 0%R. rewrite Rminus_0_r, Rabs_R0. split; lra.
Qed.

Lemma apQ_step : forall c j v T G g S G', (0 <= c <= / 10)%R -> (0 <= j <= 4294967296)%Z -> (T + S <= b2 E)%R -> (0 <= S)%R ->
  apQ c j v T G -> within (S * e * c) g G' -> (Rabs G' <= 3 * (S * e))%R -> apQ c (j + 1) (Bplus mode_NE v g) (T + S) (G + G').
Proof.
  intros c j v T G g S G' Hc Hj HT HS (Fv & T0 & Rv & AG) [Fg Rg] AG'. pose proof e_range as ER. pose proof u_pos as UP.
  pose proof (k_u j Hj) as KU. pose proof e_big as BB.
  assert (Te : (0 <= T * e)%R) by (apply Rmult_le_pos; lra). assert (Se : (0 <= S * e)%R) by (apply Rmult_le_pos; lra).
  assert (SB : ((T + S) * e <= b2 E * e)%R) by (apply Rmult_le_compat_r; lra).
  assert (X1 : (T * e * (c + 8 * IZR j * u) <= T * e * (/ 5))%R) by (apply Rmult_le_compat_l; lra).
  assert (X2 : (S * e * c <= S * e * (/ 10))%R) by (apply Rmult_le_compat_l; lra).
  assert (AB : (Rabs (B2R v + B2R g) <= 4 * ((T + S) * e))%R).
  { replace (B2R v + B2R g)%R with ((B2R v - G) + (B2R g - G') + (G + G'))%R by ring. eapply Rle_trans; [apply Rabs_triang|].
    pose proof (Rabs_triang (B2R v - G) (B2R g - G')). pose proof (Rabs_triang G G'). lra. }
  destruct (plus80 v g Fv Fg ltac:(lra)) as [Ev Ff]. pose proof (rnd80_plus_err _ _ (b80R v) (b80R g)) as Er. rewrite <- Ev in Er.
  assert (Er' : (u * Rabs (B2R v + B2R g) <= u * (4 * ((T + S) * e)))%R) by (apply Rmult_le_compat_l; lra).
  split; [exact Ff|]. split; [lra|]. split.
  - replace (B2R (Bplus mode_NE v g) - (G + G'))%R with ((B2R (Bplus mode_NE v g) - (B2R v + B2R g)) + ((B2R v - G) + (B2R g - G')))%R by ring.
    eapply Rle_trans; [apply Rabs_triang|]. pose proof (Rabs_triang (B2R v - G) (B2R g - G')) as Tr. rewrite plus_IZR.
    assert (0 <= IZR j * u * (S * e))%R by (apply Rmult_le_pos; lra).
    assert (0 <= u * (T * e))%R by (apply Rmult_le_pos; lra). assert (0 <= u * (S * e))%R by (apply Rmult_le_pos; lra). lra.
  - eapply Rle_trans; [apply Rabs_triang|]. lra.
Qed.

Lemma within_le : forall a b v x, (a <= b)%R -> within a v x -> within b v x.
Proof. intros a b v x H [F R]. split; auto. lra. Qed.

(** The error of an entry of a table: [k] numbers per component, [K] components. *)
Lemma apQ_err : forall k K v T G, (1 <= k <= 4294967296)%Z -> (0 <= K)%Z ->
  apQ (5 * wr + 22 * IZR k * u) K v T G -> within (num_err E (k + K) d * T) v G.
Proof.
  intros k K v T G Hk HK (F & T0 & R & _). split; auto. eapply Rle_trans; [exact R|]. unfold num_err.
  change (b2 (-56)) with (b2 (8 + -64)). rewrite bpow_plus. change (b2 8) with 256%R. rewrite plus_IZR.
  pose proof e_range. pose proof u_pos as UP. assert (K1 : (1 <= IZR k)%R) by (apply IZR_le; lia). assert (K2 : (0 <= IZR K)%R) by (apply IZR_le; lia).
  replace (e * (75 * d + (IZR k + IZR K) * (256 * u)) * T)%R with (T * e * (75 * d + (IZR k + IZR K) * (256 * u)))%R by ring.
  apply Rmult_le_compat_l; [apply Rmult_le_pos; lra|]. unfold wr.
  assert (u <= IZR k * u)%R by nra. assert (0 <= IZR K * u)%R by nra. lra.
Qed.

Lemma coef_range : forall k, (1 <= k <= 4294967296)%Z -> (0 <= 5 * wr + 22 * IZR k * u <= / 10)%R.
Proof. intros k Hk. pose proof wr_range. pose proof (k_u k ltac:(lia)). lra. Qed.

(** One component of an entry. *)
Lemma comp_ok : forall k N (s f : f80) S I K (q : quality A) T G Lo, (1 <= k <= 4294967296)%Z -> (1 <= N <= 4294967296)%Z ->
  (0 <= K <= 4294967296)%Z -> (S = 0 \/ b2 (1 - E) <= S)%R -> (T + S <= b2 (E - 1))%R ->
  apS k s S -> apI k f S I ->
  apQ (5 * wr + 22 * IZR k * u) K (gain q) T G -> apQ (5 * wr + 22 * IZR k * u) K (loss q) T Lo ->
  apQ (5 * wr + 22 * IZR k * u) (K + 1) (n_add A (gain q) (entropyReduction A s f)) (T + S) (G + gainS S I) /\
  apQ (5 * wr + 22 * IZR k * u) (K + 1) (n_add A (loss q) (divergence A N s f)) (T + S) (Lo + (S * log2 (IZR N) - gainS S I)).
Proof.
  intros k N s f S I K q T G Lo Hk HN HK D M As Ai Qg Ql. pose proof (proj1 (proj2 As)) as S0. pose proof (proj1 (proj2 Qg)) as T0.
  assert (M' : (S <= b2 (E - 1))%R) by lra. destruct (row_gain k s f S I Hk D M' As Ai) as [Wg Ag]. destruct (row_loss k N s f S I Hk HN D M' As Ai) as [Wl Al].
  assert (MB : (T + S <= b2 E)%R) by (apply Rle_trans with (b2 (E - 1)); auto; apply bpow_le; lia).
  pose proof e_range as ER. pose proof wr_range as WR. pose proof (k_u k ltac:(lia)) as KU. assert (Se : (0 <= S * e)%R) by (apply Rmult_le_pos; lra).
  pose proof (coef_range k Hk) as C. cbn [n_add IA]. split.
  - apply apQ_step; auto; [|lra]. eapply within_le; [|exact Wg]. apply Rmult_le_compat_l; lra.
  - apply apQ_step; auto.
Qed.
End L.

(** ** Sums of data. *)
Lemma total_datum : forall E l, Forall (fun x : R => x = 0 \/ b2 (1 - E) <= x)%R l -> (0 <= total l /\ (total l = 0 \/ b2 (1 - E) <= total l))%R.
Proof.
  intros E l H. induction H as [|x l Hx H [IH1 IH2]]; [split; [rewrite total_nil; lra|left; apply total_nil]|]. rewrite total_cons.
  pose proof (bpow_gt_0 radix2 (1 - E)). split; [destruct Hx; lra|]. destruct Hx as [->|Hx]; [rewrite Rplus_0_l; auto|]. right. lra.
Qed.
