(** * Facts about [float] parameters: midpoints of intervals in [0,1]. *)
From Coq Require Import ZArith Reals Lra Lia.
From Flocq Require Import Core BinarySingleNaN Sterbenz.
From Verif Require Import Base Arith Ieee SpecSearch SpecIeee.

Notation fexp32 := (FLT_exp (-149) 24).
Notation rnd32 := (round radix2 fexp32 ZnearestE).
Notation F32 := (generic_format radix2 fexp32).
Notation ulp32 := (ulp radix2 fexp32).
Notation b2 := (bpow radix2).

#[global] Instance v32 : Valid_exp fexp32 := FLT_exp_valid (-149) 24.
#[global] Instance m32 : Monotone_exp fexp32 := FLT_exp_monotone (-149) 24.

Lemma b2R : forall x : f32, F32 (B2R x).
Proof. intros x. apply (generic_format_B2R 24 128 x). Qed.

Lemma bp0 : b2 0 = 1%R. Proof. reflexivity. Qed.
Lemma bp_24 : b2 (-24) = (/ 16777216)%R. Proof. cbn. f_equal. Qed.
Lemma bp_25 : b2 (-25) = (/ 33554432)%R. Proof. cbn. f_equal. Qed.
Lemma bp_23 : b2 (1 - 24) = (/ 8388608)%R. Proof. cbn. f_equal. Qed.

Lemma F_1 : F32 1. Proof. change 1%R with (b2 0). apply generic_format_bpow. unfold FLT_exp. lia. Qed.
Lemma F_0 : F32 0. Proof. apply generic_format_0. Qed.

(** ulp of a number below 2^e. *)
Lemma ulp_below : forall e x, (-149 <= e - 24)%Z -> (Rabs x < b2 e)%R -> (ulp32 x <= b2 (e - 24))%R.
Proof.
  intros e x He H. destruct (Req_dec x 0) as [->|N]; [rewrite ulp_FLT_0 by apply prec32; apply bpow_le; lia|].
  rewrite ulp_neq_0 by auto. apply bpow_le. unfold cexp, FLT_exp. pose proof (mag_le_bpow radix2 x e N H). lia.
Qed.

Lemma mag_ge : forall x e, (b2 e < x)%R -> (e < mag radix2 x)%Z.
Proof. intros x e H. apply (mag_gt_bpow radix2 x e). rewrite Rabs_pos_eq; [lra|]. pose proof (bpow_gt_0 radix2 e). lra. Qed.

(** Halving is exact above 2^-24. *)
Lemma half_exact : forall d, F32 d -> (b2 (-24) < d)%R -> F32 (d / 2).
Proof.
  intros d Fd Hd. pose proof (mag_ge _ _ Hd) as Hm. pose proof Fd as Fd'. unfold generic_format in Fd'. rewrite Fd'.
  set (f := Ztrunc (scaled_mantissa radix2 fexp32 d)) in *. replace (F2R {| Fnum := f; Fexp := cexp radix2 fexp32 d |} / 2)%R with (F2R (Float radix2 f (cexp radix2 fexp32 d - 1))).
  - apply generic_format_F2R. intros Nf.
    assert (E : F2R (Float radix2 f (cexp radix2 fexp32 d - 1)) = (d * b2 (-1))%R).
    { rewrite Fd' at 2. unfold F2R. cbn [Fnum Fexp]. unfold Zminus. rewrite bpow_plus. rewrite Rmult_assoc. reflexivity. }
    rewrite E. unfold cexp at 1. rewrite mag_mult_bpow.
    + unfold cexp, FLT_exp. lia.
    + pose proof (bpow_gt_0 radix2 (-24)). lra.
  - unfold F2R. cbn [Fnum Fexp]. unfold Zminus. rewrite bpow_plus. change (b2 (-(1))) with (/ 2)%R. field.
Qed.

Lemma rnd_F : forall x, F32 x -> rnd32 x = x. Proof. intros. apply round_generic; auto with typeclass_instances. Qed.
Lemma rnd_le : forall x y, (x <= y)%R -> (rnd32 x <= rnd32 y)%R. Proof. intros. apply round_le; auto with typeclass_instances. Qed.
Lemma rnd_format : forall x, F32 (rnd32 x). Proof. intros. apply generic_format_round; auto with typeclass_instances. Qed.
Lemma rnd_near : forall x g, F32 g -> (Rabs (rnd32 x - x) <= Rabs (g - x))%R.
Proof. intros x g Fg. destruct (round_N_pt radix2 fexp32 (fun n => negb (Z.even n)) x) as [_ K]. apply K; auto. Qed.

(** The midpoint a + fl(b-a)/2, rounded, lies strictly between. *)
Lemma mid_strict : forall a b, F32 a -> F32 b -> (0 <= a)%R -> (a < b)%R -> (b <= 1)%R -> (b2 (-24) < rnd32 (b - a))%R ->
  let m := rnd32 (a + rnd32 (b - a) / 2) in (a < m < b)%R.
Proof.
  intros a b Fa Fb Ha Hab Hb Hd. set (d := rnd32 (b - a)) in *. cbv zeta.
  assert (S1 : F32 (succ radix2 fexp32 a)) by (apply generic_format_succ; auto with typeclass_instances).
  assert (S2 : succ radix2 fexp32 a = (a + ulp32 a)%R) by (apply succ_eq_pos; auto).
  assert (Pu : (0 < ulp32 a)%R).
  { destruct (Req_dec a 0) as [->|N]; [rewrite ulp_FLT_0 by apply prec32; apply bpow_gt_0|rewrite ulp_neq_0 by auto; apply bpow_gt_0]. }
  destruct (Rle_lt_dec b (2 * a)) as [C|C].
  - assert (Ed : d = (b - a)%R) by (apply rnd_F; apply sterbenz; auto with typeclass_instances; lra).
    assert (Hu : (ulp32 a <= b2 (-24))%R) by (apply (ulp_below 0); [lia|rewrite Rabs_pos_eq by auto; rewrite bp0; lra]).
    set (x := (a + d / 2)%R). pose proof (rnd_near x _ S1) as K. rewrite S2 in K.
    assert (G : (Rabs (a + ulp32 a - x) < d / 2)%R) by (apply Rabs_def1; unfold x; lra).
    pose proof (Rle_lt_trans _ _ _ K G) as K'. apply Rabs_def2 in K'. unfold x in *. lra.
  - assert (Hu : (ulp32 a <= b2 (-1 - 24))%R).
    { apply (ulp_below (-1)); [lia|]. rewrite Rabs_pos_eq by auto. change (b2 (-1)) with (/ 2)%R. lra. }
    assert (bp : b2 (-24) = (2 * b2 (-1 - 24))%R) by (rewrite bp_24; change (-1 - 24)%Z with (-25)%Z; rewrite bp_25; field).
    split.
    + apply Rlt_le_trans with (a + ulp32 a)%R; [lra|]. rewrite <- S2. rewrite <- (rnd_F _ S1). apply rnd_le. rewrite S2. lra.
    + assert (Pb : (0 < b)%R) by lra.
      assert (P1 : (pred radix2 fexp32 b + ulp32 (pred radix2 fexp32 b))%R = b) by (apply pred_plus_ulp; auto with typeclass_instances).
      assert (P0 : (0 <= pred radix2 fexp32 b)%R) by (apply pred_ge_0; auto with typeclass_instances).
      assert (P2 : (pred radix2 fexp32 b < b)%R) by (apply pred_lt_id; lra).
      assert (P3 : (ulp32 (pred radix2 fexp32 b) <= ulp32 b)%R) by (apply ulp_le; auto with typeclass_instances; rewrite !Rabs_pos_eq; lra).
      assert (Hb24 : (b2 (-24) < b)%R). { apply Rlt_le_trans with d; auto. rewrite <- (rnd_F _ Fb). apply rnd_le. lra. }
      assert (U : (ulp32 b <= b * b2 (1 - 24))%R).
      { pose proof (ulp_FLT_le radix2 (-149) 24 b) as K. rewrite Rabs_pos_eq in K by lra. apply K.
        apply Rle_trans with (b2 (-24)); [apply bpow_le; lia|lra]. }
      rewrite bp_23 in U.
      assert (Er : (Rabs (d - (b - a)) <= / 2 * ulp32 (b - a))%R) by (apply error_le_half_ulp; auto with typeclass_instances).
      assert (U2 : (ulp32 (b - a) <= ulp32 b)%R) by (apply ulp_le; auto with typeclass_instances; rewrite !Rabs_pos_eq; lra).
      apply Rabs_le_inv in Er.
      apply Rle_lt_trans with (pred radix2 fexp32 b); auto.
      rewrite <- (rnd_F (pred radix2 fexp32 b)) by (apply generic_format_pred; auto with typeclass_instances).
      apply rnd_le. lra.
Qed.

(** ** The operations on floats in [0,1]. *)

Lemma rm_eq : round_mode mode_NE = ZnearestE. Proof. reflexivity. Qed.

Lemma rnd_abs1 : forall x, (Rabs x <= 1)%R -> (Rabs (rnd32 x) <= 1)%R.
Proof.
  intros x H. apply Rabs_le. apply Rabs_le_inv in H. split.
  - rewrite <- (rnd_F (-(1))%R) by (apply generic_format_opp, F_1). apply rnd_le. lra.
  - rewrite <- (rnd_F 1%R F_1). apply rnd_le. lra.
Qed.
Lemma small_ok : forall x, (Rabs x <= 1)%R -> Rlt_bool (Rabs (rnd32 x)) (b2 128) = true.
Proof.
  intros x H. apply Rlt_bool_true. apply Rle_lt_trans with 1%R; [apply rnd_abs1; auto|]. change 1%R with (b2 0). apply bpow_lt. lia.
Qed.

Lemma minus32 : forall a b : f32, unit32 a -> unit32 b ->
  B2R (Bminus mode_NE b a) = rnd32 (B2R b - B2R a) /\ is_finite (Bminus mode_NE b a) = true.
Proof.
  intros a b [Fa Ra] [Fb Rb]. pose proof (Bminus_correct 24 128 prec32 emax32 mode_NE b a Fb Fa) as K.
  change (SpecFloat.fexp 24 128) with fexp32 in K. change (round_mode mode_NE) with ZnearestE in K.
  rewrite small_ok in K by (apply Rabs_le; lra). destruct K as (K1 & K2 & _). auto.
Qed.

Lemma plus32 : forall a b : f32, is_finite a = true -> is_finite b = true -> (Rabs (B2R a + B2R b) <= 1)%R ->
  B2R (Bplus mode_NE a b) = rnd32 (B2R a + B2R b) /\ is_finite (Bplus mode_NE a b) = true.
Proof.
  intros a b Fa Fb R. pose proof (Bplus_correct 24 128 prec32 emax32 mode_NE a b Fa Fb) as K.
  change (SpecFloat.fexp 24 128) with fexp32 in K. change (round_mode mode_NE) with ZnearestE in K.
  rewrite small_ok in K by auto. destruct K as (K1 & K2 & _). auto.
Qed.

Lemma two32_R : B2R (int32 2) = 2%R.
Proof. unfold B2R. cbn. unfold F2R. cbn. lra. Qed.
Lemma one32_R : B2R (int32 1) = 1%R /\ is_finite (int32 1) = true.
Proof. split; [|reflexivity]. unfold B2R. cbn. unfold F2R. cbn. lra. Qed.

Lemma half32 : forall d : f32, is_finite d = true -> (Rabs (B2R d) <= 1)%R ->
  B2R (Bdiv mode_NE d (int32 2)) = rnd32 (B2R d / 2) /\ is_finite (Bdiv mode_NE d (int32 2)) = true.
Proof.
  intros d Fd R. pose proof (Bdiv_correct 24 128 prec32 emax32 mode_NE d (int32 2)) as K. rewrite two32_R in K.
  specialize (K ltac:(lra)). change (SpecFloat.fexp 24 128) with fexp32 in K. change (round_mode mode_NE) with ZnearestE in K.
  rewrite small_ok in K.
  - destruct K as (K1 & K2 & _). rewrite K2. auto.
  - apply Rabs_le_inv in R. apply Rabs_le. lra.
Qed.

Lemma ltb32 : forall a b : f32, is_finite a = true -> is_finite b = true -> (Bltb a b = true <-> (B2R a < B2R b)%R).
Proof.
  intros a b Fa Fb. rewrite Bltb_correct by auto. split; intros H.
  - destruct (Rlt_bool_spec (B2R a) (B2R b)); [auto|discriminate].
  - apply Rlt_bool_true; auto.
Qed.

Definition mid32 (a b : f32) : f32 := Bplus mode_NE a (Bdiv mode_NE (Bminus mode_NE b a) (int32 2)).

Lemma mid32_ok : forall th a b, thr32 th -> unit32 a -> unit32 b -> Bltb a b = true -> Bltb th (Bminus mode_NE b a) = true ->
  unit32 (mid32 a b) /\ Bltb a (mid32 a b) = true /\ Bltb (mid32 a b) b = true /\
  B2R (mid32 a b) = rnd32 (B2R a + rnd32 (B2R b - B2R a) / 2).
Proof.
  intros th a b [Ft Rt] Ua Ub Hab Hth. pose proof Ua as [Fa Ra]. pose proof Ub as [Fb Rb].
  destruct (minus32 a b Ua Ub) as [Ed Fd]. apply ltb32 in Hab; auto. apply ltb32 in Hth; auto. rewrite Ed in Hth.
  assert (Hd : (b2 (-24) < rnd32 (B2R b - B2R a))%R) by lra.
  assert (D1 : (Rabs (B2R (Bminus mode_NE b a)) <= 1)%R) by (rewrite Ed; apply rnd_abs1; apply Rabs_le; lra).
  destruct (half32 _ Fd D1) as [Eh Fh]. rewrite Ed in Eh. rewrite rnd_F in Eh by (apply half_exact; [apply rnd_format|auto]).
  assert (Du : (rnd32 (B2R b - B2R a) <= B2R b)%R).
  { rewrite <- (rnd_F (B2R b)) at 2 by apply b2R. apply rnd_le. lra. }
  pose proof (bpow_gt_0 radix2 (-24)) as P.
  assert (Bd : (Rabs (B2R a + B2R (Bdiv mode_NE (Bminus mode_NE b a) (int32 2))) <= 1)%R).
  { rewrite Eh. apply Rabs_le. split; [lra|]. destruct (Rle_lt_dec (B2R b) (2 * B2R a)) as [C|C]; [|lra].
    rewrite rnd_F; [lra|]. apply sterbenz; auto with typeclass_instances; try apply b2R. lra. }
  destruct (plus32 a _ Fa Fh Bd) as [Em Fm]. rewrite Eh in Em.
  pose proof (mid_strict (B2R a) (B2R b) (b2R a) (b2R b) ltac:(lra) Hab ltac:(lra) Hd) as M. cbv zeta in M. rewrite <- Em in M.
  fold (mid32 a b) in *. split; [split; [auto|lra]|]. rewrite !ltb32 by auto. split; [lra|]. split; [lra|]. auto.
Qed.


(** Floats in [0,1] are bisectable down to every threshold of at least 2^-24, in both instances. *)
Lemma ieee_bisectable : forall lg th, thr32 th -> bisectable (IA lg) unit32 th.
Proof.
  intros lg th T. constructor.
  - intros a [Fa _]. unfold plt. cbn [p_ltb IA]. rewrite ltb32 by auto. lra.
  - intros a b c [Fa _] [Fb _] [Fc _]. unfold plt. cbn [p_ltb IA]. rewrite !ltb32 by auto. lra.
  - intros a b Ua Ub H1 H2. destruct (mid32_ok th a b T Ua Ub H1 H2) as (K1 & K2 & K3 & _). auto.
Qed.
Lemma fpar_bisectable : forall th, thr32 th -> bisectable (RP Fpar) unit32 th.
Proof.
  intros th T. constructor.
  - intros a [Fa _]. unfold plt. cbn [p_ltb RP pp_ltb Fpar]. rewrite ltb32 by auto. lra.
  - intros a b c [Fa _] [Fb _] [Fc _]. unfold plt. cbn [p_ltb RP pp_ltb Fpar]. rewrite !ltb32 by auto. lra.
  - intros a b Ua Ub H1 H2. destruct (mid32_ok th a b T Ua Ub H1 H2) as (K1 & K2 & K3 & _). auto.
Qed.

(** ** Termination measures. *)
Lemma F_multiple : forall x, F32 x -> x = (IZR (Ztrunc (x * b2 149)) * b2 (-149))%R.
Proof.
  intros x Fx. apply (generic_format_FIX_FLT radix2 (-149) 24) in Fx. unfold generic_format, scaled_mantissa, cexp, FIX_exp, F2R in Fx.
  cbn [Fnum Fexp] in Fx. exact Fx.
Qed.

Lemma F_measure : forall x y, F32 x -> F32 y -> (x < y)%R -> Ztrunc (x * b2 149) < Ztrunc (y * b2 149).
Proof.
  intros x y Fx Fy H. apply lt_IZR. apply (Rmult_lt_reg_r (b2 (-149))); [apply bpow_gt_0|]. rewrite <- !F_multiple; auto.
Qed.

Lemma half_ulp_bound : forall x, (Rabs x <= 1)%R -> (Rabs (rnd32 x - x) <= b2 (-25))%R.
Proof.
  intros x H. destruct (Req_dec (Rabs x) 1) as [E|N].
  - rewrite rnd_F; [rewrite Rminus_eq_0, Rabs_R0; apply bpow_ge_0|].
    destruct (Rcase_abs x) as [C|C]; [rewrite Rabs_left in E by auto; replace x with (-(1))%R by lra; apply generic_format_opp, F_1|
      rewrite Rabs_right in E by auto; rewrite E; apply F_1].
  - pose proof (error_le_half_ulp radix2 fexp32 (fun n => negb (Z.even n)) x) as K.
    assert (U : (ulp32 x <= b2 (-24))%R) by (apply (ulp_below 0); [lia|rewrite bp0; lra]).
    change (Znearest (fun n : Z => negb (Z.even n))) with ZnearestE in K. rewrite bp_24 in U. rewrite bp_25. lra.
Qed.

(** Each half of the interval is at most half as wide, plus 2^-24. *)
Lemma mid_halves : forall a b, F32 a -> F32 b -> (0 <= a)%R -> (a < b)%R -> (b <= 1)%R -> (b2 (-24) < rnd32 (b - a))%R ->
  let m := rnd32 (a + rnd32 (b - a) / 2) in (m - a <= (b - a) / 2 + b2 (-24) /\ b - m <= (b - a) / 2 + b2 (-24))%R.
Proof.
  intros a b Fa Fb Ha Hab Hb Hd. cbv zeta.
  pose proof (half_ulp_bound (b - a) ltac:(apply Rabs_le; lra)) as K1. apply Rabs_le_inv in K1.
  pose proof (bpow_gt_0 radix2 (-24)) as P.
  assert (Du : (rnd32 (b - a) <= b)%R) by (rewrite <- (rnd_F b Fb) at 2; apply rnd_le; lra).
  assert (Bd : (Rabs (a + rnd32 (b - a) / 2) <= 1)%R).
  { apply Rabs_le. split; [lra|]. destruct (Rle_lt_dec b (2 * a)) as [C|C]; [|lra].
    rewrite rnd_F; [lra|]. apply sterbenz; auto with typeclass_instances. lra. }
  pose proof (half_ulp_bound _ Bd) as K2. apply Rabs_le_inv in K2. rewrite bp_24. rewrite bp_25 in *. lra.
Qed.
