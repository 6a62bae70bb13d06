(** * Rounding errors of sums of long doubles. *)
From Coq Require Import ZArith Reals Lra Lia.
From Flocq Require Import Core BinarySingleNaN Relative Plus_error.
From Verif Require Import Base Arith Quality Ieee SpecIeee IeeeConv IeeeFacts SpecNear.

Notation fexp80 := (FLT_exp (-16445) 64).
Notation rnd80 := (round radix2 fexp80 ZnearestE).
Notation F80 := (generic_format radix2 fexp80).

#[global] Instance v80 : Valid_exp fexp80 := FLT_exp_valid (-16445) 64.
#[global] Instance m80 : Monotone_exp fexp80 := FLT_exp_monotone (-16445) 64.

Lemma b80R : forall x : f80, F80 (B2R x).
Proof. intros x. apply (generic_format_B2R 64 16384 x). Qed.

Lemma half_bpow : forall e, (/ 2 * b2 e = b2 (e - 1))%R.
Proof. intro e. unfold Zminus. rewrite bpow_plus. change (b2 (-(1))) with (/ 2)%R. ring. Qed.

Lemma rnd80_err : forall x, (Rabs (rnd80 x - x) <= b2 (-64) * Rabs x + b2 (-16446))%R.
Proof.
  intro x. destruct (error_N_FLT radix2 (-16445) 64 ltac:(lia) (fun n => negb (Z.even n)) x) as (eps & eta & H1 & H2 & _ & E).
  rewrite E. rewrite half_bpow in H1, H2. change (-64 + 1 - 1)%Z with (-64)%Z in H1. change (-16445 - 1)%Z with (-16446)%Z in H2.
  replace (x * (1 + eps) + eta - x)%R with (eps * x + eta)%R by ring.
  eapply Rle_trans; [apply Rabs_triang|]. rewrite Rabs_mult. pose proof (Rabs_pos x).
  apply Rplus_le_compat; auto. apply Rmult_le_compat_r; auto.
Qed.

Lemma rnd80_plus_err : forall x y, F80 x -> F80 y -> (Rabs (rnd80 (x + y) - (x + y)) <= b2 (-64) * Rabs (x + y))%R.
Proof.
  intros x y Fx Fy.
  destruct (FLT_plus_error_N_ex radix2 (-16445) 64 (fun n => negb (Z.even n)) x y Fx Fy) as (eps & H & E). rewrite E.
  replace ((x + y) * (1 + eps) - (x + y))%R with (eps * (x + y))%R by ring. rewrite Rabs_mult.
  apply Rmult_le_compat_r; [apply Rabs_pos|]. eapply Rle_trans; [exact H|]. unfold u_ro. rewrite half_bpow.
  change (-64 + 1 - 1)%Z with (-64)%Z. pose proof (bpow_gt_0 radix2 (-64)).
  apply (Rmult_le_reg_r (1 + b2 (-64))); [lra|]. unfold Rdiv. rewrite Rmult_assoc, Rinv_l by lra.
  apply Rmult_le_compat_l; lra.
Qed.

Lemma rnd80_abs : forall x e, (Rabs x <= b2 e)%R -> (-16381 <= e)%Z -> (Rabs (rnd80 x) <= b2 e)%R.
Proof.
  intros x e H He. apply abs_round_le_generic; auto with typeclass_instances.
  apply generic_format_bpow. unfold FLT_exp. lia.
Qed.

Lemma no_ovf : forall x, (Rabs x <= b2 16383)%R -> Rlt_bool (Rabs (rnd80 x)) (b2 16384) = true.
Proof.
  intros x H. apply Rlt_bool_true. apply Rle_lt_trans with (b2 16383); [apply rnd80_abs; auto; lia|]. apply bpow_lt. lia.
Qed.

Lemma plus80 : forall a b : f80, is_finite a = true -> is_finite b = true -> (Rabs (B2R a + B2R b) <= b2 16383)%R ->
  B2R (Bplus mode_NE a b) = rnd80 (B2R a + B2R b) /\ is_finite (Bplus mode_NE a b) = true.
Proof.
  intros a b Fa Fb R. pose proof (Bplus_correct 64 16384 prec80 emax80 mode_NE a b Fa Fb) as K.
  change (SpecFloat.fexp 64 16384) with fexp80 in K. change (round_mode mode_NE) with ZnearestE in K.
  rewrite no_ovf in K by auto. destruct K as (K1 & K2 & _). auto.
Qed.
Lemma minus80 : forall a b : f80, is_finite a = true -> is_finite b = true -> (Rabs (B2R a - B2R b) <= b2 16383)%R ->
  B2R (Bminus mode_NE a b) = rnd80 (B2R a - B2R b) /\ is_finite (Bminus mode_NE a b) = true.
Proof.
  intros a b Fa Fb R. pose proof (Bminus_correct 64 16384 prec80 emax80 mode_NE a b Fa Fb) as K.
  change (SpecFloat.fexp 64 16384) with fexp80 in K. change (round_mode mode_NE) with ZnearestE in K.
  rewrite no_ovf in K by auto. destruct K as (K1 & K2 & _). auto.
Qed.
Lemma mult80 : forall a b : f80, is_finite a = true -> is_finite b = true -> (Rabs (B2R a * B2R b) <= b2 16383)%R ->
  B2R (Bmult mode_NE a b) = rnd80 (B2R a * B2R b) /\ is_finite (Bmult mode_NE a b) = true.
Proof.
  intros a b Fa Fb R. pose proof (Bmult_correct 64 16384 prec80 emax80 mode_NE a b) as K.
  change (SpecFloat.fexp 64 16384) with fexp80 in K. change (round_mode mode_NE) with ZnearestE in K.
  rewrite no_ovf in K by auto. destruct K as (K1 & K2 & _). rewrite K2, Fa, Fb. auto.
Qed.

Lemma ltb80 : forall a b : f80, is_finite a = true -> is_finite b = true -> (Bltb a b = true <-> (B2R a < B2R b)%R).
Proof.
  intros a b Fa Fb. rewrite Bltb_correct by auto. split; intros H.
  - destruct (Rlt_bool_spec (B2R a) (B2R b)); [auto|discriminate].
  - apply Rlt_bool_true; auto.
Qed.
Lemma eqb80 : forall a b : f80, is_finite a = true -> is_finite b = true -> (Beqb a b = true <-> B2R a = B2R b).
Proof.
  intros a b Fa Fb. rewrite Beqb_correct by auto. split; intros H.
  - destruct (Req_bool_spec (B2R a) (B2R b)); [auto|discriminate].
  - apply Req_bool_true; auto.
Qed.

(** ** The comparison of two tradeoffs with finite values. *)
Section T.
Context (lg : f80 -> f80).
Notation A := (IA lg).
Notation tv := (fun t : tradeoff A => (t_value t : f80)).

Definition fval (t : tradeoff A) : Prop := is_finite (tv t) = true.
Definition rval (t : tradeoff A) : R := B2R (tv t).

Lemma gtb_true : forall a b, fval a -> fval b -> t_gtb A a b = true -> (rval b <= rval a)%R.
Proof.
  intros a b Fa Fb H. unfold t_gtb in H. cbn [n_ltb n_eqb IA] in H. apply Bool.orb_true_iff in H. destruct H as [H|H].
  - apply ltb80 in H; auto. unfold rval. lra.
  - apply andb_prop in H. destruct H as [H _]. apply eqb80 in H; auto. unfold rval. lra.
Qed.
Lemma gtb_false : forall a b, fval a -> fval b -> t_gtb A a b = false -> (rval a <= rval b)%R.
Proof.
  intros a b Fa Fb H. unfold t_gtb in H. cbn [n_ltb n_eqb IA] in H. apply Bool.orb_false_iff in H. destruct H as [H _].
  apply Rnot_lt_le. intro K. apply (ltb80 (tv b) (tv a)) in K; auto. congruence.
Qed.
(** operator< of tradeoffs: strictly smaller value. *)
Lemma ltb_true : forall a b, fval a -> fval b -> t_ltb A a b = true -> (rval a <= rval b)%R.
Proof.
  intros a b Fa Fb H. unfold t_ltb in H. apply Bool.negb_true_iff, Bool.orb_false_iff in H. destruct H as [H _]. apply gtb_false; auto.
Qed.
Lemma ltb_false : forall a b, fval a -> fval b -> t_ltb A a b = false -> (rval b <= rval a)%R.
Proof.
  intros a b Fa Fb H. unfold t_ltb in H. apply Bool.negb_false_iff, Bool.orb_true_iff in H. destruct H as [H|H].
  - apply gtb_true; auto.
  - unfold t_eqb in H. cbn [n_eqb IA] in H. apply eqb80 in H; auto. unfold rval. lra.
Qed.
End T.

(** ** Accumulated errors: [near N M k v x] says that v is x up to the error of adding k terms of absolute value at most M
    (among at most N terms in all). *)
Definition eunit (N : Z) (M : R) : R := (IZR N * M * b2 (-62))%R.
Definition near (N : Z) (M : R) (k : Z) (v : f80) (x : R) : Prop :=
  is_finite v = true /\ (Rabs (B2R v - x) <= IZR (Z.max 0 (2 * k - 1)) * eunit N M)%R /\ (Rabs x <= IZR k * M)%R.

Lemma bp62 : b2 (-62) = (/ 4611686018427387904)%R. Proof. cbn. f_equal. Qed.
Lemma bp64 : b2 (-64) = (/ 18446744073709551616)%R. Proof. cbn. f_equal. Qed.

Section N.
Variables (N : Z) (M : R).
Hypothesis HN : (1 <= N <= 4294967296)%Z.
Hypothesis HM : (0 <= M <= b2 16001)%R.
Notation E := (eunit N M).

Lemma N_R : (1 <= IZR N <= 4294967296)%R.
Proof. split; apply IZR_le; lia. Qed.

Lemma E_pos : (0 <= E)%R.
Proof.
  unfold eunit. pose proof N_R. rewrite bp62. apply Rmult_le_pos; [apply Rmult_le_pos; lra|lra].
Qed.
Lemma E_small : (8 * E <= M)%R.
Proof. unfold eunit. rewrite bp62. pose proof N_R. nra. Qed.
Lemma NM_small : (2 * (IZR N * M) <= b2 16383)%R.
Proof.
  pose proof N_R as H. assert (K : (IZR N * M <= b2 32 * b2 16001)%R).
  { apply Rmult_le_compat; try lra. change (b2 32) with 4294967296%R. lra. }
  rewrite <- bpow_plus in K. apply Rle_trans with (2 * b2 16033)%R.
  - change (32 + 16001)%Z with 16033%Z in K. lra.
  - change 2%R with (b2 1). rewrite <- bpow_plus. apply bpow_le. lia.
Qed.

Lemma near_zero : near N M 0 (B754_zero false) 0.
Proof.
  split; [reflexivity|]. change (B2R (B754_zero false)) with 0%R. rewrite Rminus_0_r, Rabs_R0.
  change (Z.max 0 (2 * 0 - 1)) with 0%Z. split; lra.
Qed.

Lemma near_ext : forall k v x y, x = y -> near N M k v x -> near N M k v y.
Proof. intros; subst; auto. Qed.

(** A computed value is not larger than N (M + E). *)
Lemma near_abs : forall k v x, (0 <= k <= N)%Z -> near N M k v x -> (Rabs (B2R v) <= IZR k * (M + 2 * E))%R.
Proof.
  intros k v x Hk (_ & H1 & H2). replace (B2R v) with (B2R v - x + x)%R by ring.
  eapply Rle_trans; [apply Rabs_triang|]. pose proof E_pos.
  assert (K : (IZR (Z.max 0 (2 * k - 1)) <= 2 * IZR k)%R).
  { rewrite <- (mult_IZR 2). apply IZR_le. lia. }
  assert (IZR (Z.max 0 (2 * k - 1)) * E <= 2 * IZR k * E)%R by (apply Rmult_le_compat_r; auto). lra.
Qed.

Lemma near_exact : forall k v x, (k <= 0)%Z -> near N M k v x -> x = 0%R /\ B2R v = 0%R.
Proof.
  intros k v x Hk (_ & H1 & H2). replace (Z.max 0 (2 * k - 1)) with 0%Z in H1 by lia.
  rewrite Rmult_0_l in H1. assert (IZR k * M <= 0)%R. { assert (IZR k <= 0)%R by (apply IZR_le; lia). nra. }
  assert (X : x = 0%R). { destruct (Req_dec x 0); auto. pose proof (Rabs_pos_lt x ltac:(auto)). lra. }
  split; auto. subst x. rewrite Rminus_0_r in H1. destruct (Req_dec (B2R v) 0); auto. pose proof (Rabs_pos_lt (B2R v) ltac:(auto)). lra.
Qed.

(** One addition loses at most E. *)
Lemma near_plus : forall k1 k2 v w x y, (0 <= k1)%Z -> (0 <= k2)%Z -> (k1 + k2 <= N)%Z ->
  near N M k1 v x -> near N M k2 w y ->
  is_finite (Bplus mode_NE v w) = true /\ B2R (Bplus mode_NE v w) = rnd80 (B2R v + B2R w) /\
  (Rabs (B2R (Bplus mode_NE v w) - (B2R v + B2R w)) <= E)%R.
Proof.
  intros k1 k2 v w x y H1 H2 H3 Nv Nw.
  pose proof (near_abs k1 v x ltac:(lia) Nv) as Av. pose proof (near_abs k2 w y ltac:(lia) Nw) as Aw.
  pose proof E_pos as EP. pose proof E_small as ES. pose proof NM_small as NM. pose proof N_R as NR.
  assert (K12 : (IZR k1 + IZR k2 <= IZR N)%R) by (rewrite <- plus_IZR; apply IZR_le; lia).
  assert (K1 : (0 <= IZR k1)%R) by (apply IZR_le; lia). assert (K2 : (0 <= IZR k2)%R) by (apply IZR_le; lia).
  assert (AB : (Rabs (B2R v + B2R w) <= IZR N * (M + 2 * E))%R).
  { eapply Rle_trans; [apply Rabs_triang|]. apply Rle_trans with ((IZR k1 + IZR k2) * (M + 2 * E))%R; [lra|].
    apply Rmult_le_compat_r; lra. }
  pose proof (proj1 Nv) as Fv. pose proof (proj1 Nw) as Fw.
  assert (Le : (IZR N * (M + 2 * E) <= 2 * (IZR N * M))%R).
  { replace (2 * (IZR N * M))%R with (IZR N * (2 * M))%R by ring. apply Rmult_le_compat_l; lra. }
  destruct (plus80 v w Fv Fw ltac:(lra)) as [Ev Ff].
  split; [exact Ff|]. split; [exact Ev|]. rewrite Ev.
  pose proof (rnd80_plus_err _ _ (b80R v) (b80R w)) as Er.
  assert (RE : (b2 (-64) * Rabs (B2R v + B2R w) <= E)%R).
  { apply Rle_trans with (b2 (-64) * (IZR N * (M + 2 * E)))%R; [apply Rmult_le_compat_l; auto; apply bpow_ge_0|].
    apply Rle_trans with (b2 (-64) * (2 * (IZR N * M)))%R; [apply Rmult_le_compat_l; auto; apply bpow_ge_0|].
    assert (X : E = (IZR N * M * b2 (-62))%R) by reflexivity. rewrite X, bp64, bp62.
    assert (0 <= IZR N * M)%R by (apply Rmult_le_pos; lra). lra. }
  lra.
Qed.

Lemma near_add : forall k1 k2 v w x y, (0 <= k1)%Z -> (0 <= k2)%Z -> (k1 + k2 <= N)%Z ->
  near N M k1 v x -> near N M k2 w y -> near N M (k1 + k2) (Bplus mode_NE v w) (x + y).
Proof.
  intros k1 k2 v w x y H1 H2 H3 Nv Nw. destruct (near_plus k1 k2 v w x y H1 H2 H3 Nv Nw) as (Ff & Ev & Er).
  split; [exact Ff|]. split.
  - destruct (Z.eq_dec k1 0) as [->|D1].
    { destruct (near_exact 0 v x ltac:(lia) Nv) as [-> Zv]. rewrite Ev, Zv, Rplus_0_l, Rplus_0_l.
      rewrite round_generic; auto with typeclass_instances; [|apply b80R]. apply Nw. }
    destruct (Z.eq_dec k2 0) as [->|D2].
    { destruct (near_exact 0 w y ltac:(lia) Nw) as [-> Zv]. rewrite Ev, Zv, Rplus_0_r, Rplus_0_r, Z.add_0_r.
      rewrite round_generic; auto with typeclass_instances; [|apply b80R]. apply Nv. }
    destruct Nv as (_ & Ev1 & _), Nw as (_ & Ew1 & _).
    replace (Z.max 0 (2 * (k1 + k2) - 1)) with (Z.max 0 (2 * k1 - 1) + Z.max 0 (2 * k2 - 1) + 1)%Z by lia. rewrite !plus_IZR.
    replace (B2R (Bplus mode_NE v w) - (x + y))%R with ((B2R (Bplus mode_NE v w) - (B2R v + B2R w)) + ((B2R v - x) + (B2R w - y)))%R by ring.
    eapply Rle_trans; [apply Rabs_triang|]. pose proof (Rabs_triang (B2R v - x) (B2R w - y)). lra.
  - destruct Nv as (_ & _ & Av1), Nw as (_ & _ & Aw1). rewrite plus_IZR. eapply Rle_trans; [apply Rabs_triang|]. lra.
Qed.

(** Adding to an exact zero changes nothing. *)
Lemma near_zero_l : forall k w y, (0 <= k <= N)%Z -> near N M k w y -> B2R (Bplus mode_NE (B754_zero false) w) = B2R w.
Proof.
  intros k w y Hk Nw. destruct (near_plus 0 k (B754_zero false) w 0 y ltac:(lia) ltac:(lia) ltac:(lia) near_zero Nw) as (_ & Ev & _).
  rewrite Ev. change (B2R (B754_zero false)) with 0%R. rewrite Rplus_0_l. apply round_generic; auto with typeclass_instances. apply b80R.
Qed.

(** An exactly represented term. *)
Lemma near_one : forall v, is_finite v = true -> (Rabs (B2R v) <= M)%R -> near N M 1 v (B2R v).
Proof.
  intros v F H. split; auto. rewrite Rminus_diag_eq by auto. rewrite Rabs_R0. change (Z.max 0 (2 * 1 - 1)) with 1%Z.
  pose proof E_pos. split; lra.
Qed.
End N.

(** ** The value of one part. *)
Lemma wgain_range : forall p, unit32 p -> (0 <= wgain p <= 1)%R.
Proof. intros p [_ H]. exact H. Qed.

Lemma wloss_ok : forall p, unit32 p -> wloss p = rnd32 (1 - wgain p) /\ unit32 (Bminus mode_NE (int32 1) p).
Proof.
  intros p Up. destruct one32_R as [O1 O2]. assert (U1 : unit32 (int32 1)) by (split; [exact O2|rewrite O1; lra]).
  destruct (minus32 p (int32 1) Up U1) as [E F]. rewrite O1 in E. unfold wloss, wgain. split; auto. split; auto. rewrite E.
  destruct Up as [_ Rp]. split.
  - rewrite <- (rnd_F 0%R F_0). apply rnd_le. lra.
  - apply Rle_trans with (rnd32 1); [apply rnd_le; lra|rewrite (rnd_F 1%R F_1); lra].
Qed.

Lemma near_pic : forall lg N B (q : quality (IA lg)) (p : f32), (1 <= N <= 4294967296)%Z -> sane_bound B -> qual_le B q -> unit32 p ->
  near N (2 * B) 1 (pic (IA lg) q p) (wgain p * B2R (gain q : f80) - wloss p * B2R (loss q : f80)).
Proof.
  intros lg N B q p HN [B1 B2] [[Fg Rg] [Fl Rl]] Up. unfold pic. cbn [n_sub n_mul IA p_num p_compl].
  set (g := (gain q : f80)) in *. set (l := (loss q : f80)) in *.
  destruct (wloss_ok p Up) as [_ Uc]. set (c := Bminus mode_NE (int32 1) p) in *. change (wloss p) with (B2R c). change (wgain p) with (B2R p).
  destruct (to80_exact p (proj1 Up)) as [Ep Fp]. destruct (to80_exact c (proj1 Uc)) as [Ec Fc].
  destruct Up as [_ Rp], Uc as [_ Rc].
  assert (BB : (b2 16000 <= b2 16383)%R) by (apply bpow_le; lia).
  assert (BP : (0 < B)%R) by (pose proof (bpow_gt_0 radix2 (-16000)); lra).
  assert (Ag : (Rabs (B2R p * B2R g) <= B)%R). { rewrite Rabs_mult, (Rabs_pos_eq (B2R p)) by lra. pose proof (Rabs_pos (B2R g)). nra. }
  assert (Al : (Rabs (B2R c * B2R l) <= B)%R). { rewrite Rabs_mult, (Rabs_pos_eq (B2R c)) by lra. pose proof (Rabs_pos (B2R l)). nra. }
  destruct (mult80 (to80 p) g Fp Fg) as [Eg Fg']; [rewrite Ep; lra|].
  destruct (mult80 (to80 c) l Fc Fl) as [El Fl']; [rewrite Ec; lra|].
  rewrite Ep in Eg. rewrite Ec in El. set (a := Bmult mode_NE (to80 p) g) in *. set (b := Bmult mode_NE (to80 c) l) in *.
  pose proof (rnd80_err (B2R p * B2R g)) as Er1. pose proof (rnd80_err (B2R c * B2R l)) as Er2. rewrite <- Eg in Er1. rewrite <- El in Er2.
  assert (Eta : (b2 (-16446) <= b2 (-64) * B)%R).
  { apply Rle_trans with (b2 (-64) * b2 (-16000))%R; [rewrite <- bpow_plus; apply bpow_le; lia|].
    apply Rmult_le_compat_l; [apply bpow_ge_0|lra]. }
  pose proof (bpow_gt_0 radix2 (-64)) as U0. assert (U1 : (b2 (-64) <= / 1000)%R) by (rewrite bp64; lra).
  assert (X1 : (Rabs (B2R a - B2R p * B2R g) <= 2 * (b2 (-64) * B))%R) by nra.
  assert (X2 : (Rabs (B2R b - B2R c * B2R l) <= 2 * (b2 (-64) * B))%R) by nra.
  assert (U2 : (b2 (-64) * B <= / 1000 * B)%R) by nra.
  assert (Aa : (Rabs (B2R a) <= 2 * B)%R).
  { replace (B2R a) with (B2R a - B2R p * B2R g + B2R p * B2R g)%R by ring. eapply Rle_trans; [apply Rabs_triang|]. lra. }
  assert (D : (Rabs ((B2R a - B2R b) - (B2R p * B2R g - B2R c * B2R l)) <= 4 * (b2 (-64) * B))%R).
  { replace ((B2R a - B2R b) - (B2R p * B2R g - B2R c * B2R l))%R with ((B2R a - B2R p * B2R g) + - (B2R b - B2R c * B2R l))%R by ring.
    eapply Rle_trans; [apply Rabs_triang|]. rewrite Rabs_Ropp. lra. }
  assert (V : (Rabs (B2R p * B2R g - B2R c * B2R l) <= 2 * B)%R).
  { unfold Rminus. eapply Rle_trans; [apply Rabs_triang|]. rewrite Rabs_Ropp. lra. }
  assert (Ab : (Rabs (B2R a - B2R b) <= 2 * B + 4 * (b2 (-64) * B))%R).
  { replace (B2R a - B2R b)%R with ((B2R a - B2R b) - (B2R p * B2R g - B2R c * B2R l) + (B2R p * B2R g - B2R c * B2R l))%R by ring.
    eapply Rle_trans; [apply Rabs_triang|]. lra. }
  assert (B3 : (4 * B <= b2 16383)%R).
  { apply Rle_trans with (4 * b2 16000)%R; [lra|]. change 4%R with (b2 2). rewrite <- bpow_plus. apply bpow_le. lia. }
  destruct (minus80 a b Fg' Fl' ltac:(lra)) as [Es Fs].
  assert (Er : (Rabs (B2R (Bminus mode_NE a b) - (B2R a - B2R b)) <= b2 (-64) * Rabs (B2R a - B2R b))%R).
  { rewrite Es. unfold Rminus at 1 3 4. apply rnd80_plus_err; [apply b80R|apply generic_format_opp, b80R]. }
  split; [exact Fs|]. split; [|lra].
  change (Z.max 0 (2 * 1 - 1)) with 1%Z. rewrite Rmult_1_l.
  replace (B2R (Bminus mode_NE a b) - (B2R p * B2R g - B2R c * B2R l))%R with
    ((B2R (Bminus mode_NE a b) - (B2R a - B2R b)) + ((B2R a - B2R b) - (B2R p * B2R g - B2R c * B2R l)))%R by ring.
  eapply Rle_trans; [apply Rabs_triang|].
  assert (Er' : (b2 (-64) * Rabs (B2R a - B2R b) <= b2 (-64) * (2 * B + 4 * (b2 (-64) * B)))%R) by (apply Rmult_le_compat_l; lra).
  assert (NR : (1 <= IZR N)%R) by (apply IZR_le; lia).
  assert (EE : (8 * (b2 (-64) * B) <= eunit N (2 * B))%R). { unfold eunit. rewrite bp62, bp64. nra. }
  assert (b2 (-64) * (4 * (b2 (-64) * B)) <= b2 (-64) * B)%R by (apply Rmult_le_compat_l; lra).
  assert (0 <= b2 (-64) * B)%R by (apply Rmult_le_pos; lra). lra.
Qed.
