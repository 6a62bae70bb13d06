(** * C39, C40 in floating point: operator== of Quality, and the type of the area under the curve. *)
From Coq Require Import ZArith Reals Lra Lia Bool.
From Flocq Require Import Core BinarySingleNaN.
From Verif Require Import Base Arith Quality Search Ieee.

Notation b2 := (bpow radix2).
Notation rnd80 := (round radix2 (SpecFloat.fexp 64 16384) ZnearestE).

Lemma lit_R : B2R (to80 prec_literal) = (16225927682921336832 * / 2 ^ 107)%R.
Proof.
  rewrite <- SF2R_B2SF.
  assert (E : B2SF (to80 prec_literal) = SpecFloat.S754_finite false 16225927682921336832 (-107)) by (vm_compute; reflexivity).
  rewrite E. unfold SF2R, F2R. cbn [Defs.Fnum Defs.Fexp cond_Zopp].
  replace (bpow radix2 (-107)) with (/ 2 ^ 107)%R by (cbn; f_equal; lra). reflexivity.
Qed.

(** ** The tolerance is the literal 1e-13 to double precision. *)
Theorem C40_ieee_literal : forall lg, is_finite (n_prec (IA lg)) = true /\
  (Rabs (B2R (n_prec (IA lg)) - / 10000000000000) <= / 2 ^ 97)%R.
Proof.
  intro lg. split; [vm_compute; reflexivity|].
  change (n_prec (IA lg)) with (to80 prec_literal).
  rewrite lit_R. apply Rabs_le. lra.
Qed.
Print Assumptions C40_ieee_literal.

(** ** Symmetry *)
Lemma finite_cases : forall x : f80, is_finite x = true \/ x = B754_nan \/ exists s, x = B754_infinity s.
Proof. intros [s|s| |s m e H]; auto. right; right; eauto. Qed.

Lemma plus_comm80 : forall x y : f80, Bplus mode_NE x y = Bplus mode_NE y x.
Proof.
  intros x y. destruct (is_finite x) eqn:Fx; [destruct (is_finite y) eqn:Fy|].
  - pose proof (Bplus_correct 64 16384 prec80 emax80 mode_NE x y Fx Fy) as P.
    pose proof (Bplus_correct 64 16384 prec80 emax80 mode_NE y x Fy Fx) as Q.
    rewrite (Rplus_comm (B2R y)) in Q.
    destruct (Rlt_bool _ _).
    + destruct P as (P1 & P2 & P3), Q as (Q1 & Q2 & Q3). apply B2R_Bsign_inj; auto; [congruence|].
      rewrite P3, Q3. destruct (Rcompare _ _); auto. apply andb_comm.
    + destruct P as (P1 & P2), Q as (Q1 & Q2). apply B2SF_inj. congruence.
  - destruct x as [|[]| |], y as [|[]| |]; try discriminate; reflexivity.
  - destruct x as [|[]| |], y as [|[]| |]; try discriminate; reflexivity.
Qed.

Lemma minus_abs80 : forall x y : f80, Babs (Bminus mode_NE x y) = Babs (Bminus mode_NE y x).
Proof.
  intros x y. destruct (is_finite x) eqn:Fx; [destruct (is_finite y) eqn:Fy|].
  - pose proof (Bminus_correct 64 16384 prec80 emax80 mode_NE x y Fx Fy) as P.
    pose proof (Bminus_correct 64 16384 prec80 emax80 mode_NE y x Fy Fx) as Q.
    assert (E : round radix2 (SpecFloat.fexp 64 16384) (round_mode mode_NE) (B2R y - B2R x) =
                (- round radix2 (SpecFloat.fexp 64 16384) (round_mode mode_NE) (B2R x - B2R y))%R).
    { rewrite <- round_NE_opp. f_equal. ring. }
    rewrite E in Q. rewrite Rabs_Ropp in Q.
    destruct (Rlt_bool _ _).
    + destruct P as (P1 & P2 & _), Q as (Q1 & Q2 & _).
      apply B2R_Bsign_inj.
      * rewrite is_finite_Babs; auto.
      * rewrite is_finite_Babs; auto.
      * rewrite !B2R_Babs, P1, Q1, Rabs_Ropp. reflexivity.
      * rewrite !Bsign_Babs; auto.
    + destruct P as (P1 & _), Q as (Q1 & _).
      assert (I : forall z s, B2SF z = binary_overflow 64 16384 mode_NE s -> Babs z = (B754_infinity false : f80)).
      { intros z s Ez. destruct z; cbn in Ez; try discriminate. reflexivity. }
      rewrite (I _ _ P1), (I _ _ Q1). reflexivity.
  - destruct x as [|[]| |], y as [|[]| |]; try discriminate; reflexivity.
  - destruct x as [|[]| |], y as [|[]| |]; try discriminate; reflexivity.
Qed.

Lemma eqb_sym80 : forall x y : f80, Beqb x y = Beqb y x.
Proof.
  intros x y. change (Beqb x y) with (match Bcompare x y with Some Eq => true | _ => false end).
  change (Beqb y x) with (match Bcompare y x with Some Eq => true | _ => false end).
  rewrite Bcompare_swap. destruct (Bcompare y x) as [[]|]; reflexivity.
Qed.

(** operator== is symmetric, whatever the operands (NaN and infinities included). *)
Theorem C40_ieee_sym : forall lg (a b : quality (IA lg)), q_eqb (IA lg) a b = q_eqb (IA lg) b a.
Proof.
  intros lg [g l] [g' l']. unfold q_eqb, n_max.
  cbn [gain loss IA n_mul n_div n_add n_sub n_ltb n_eqb n_abs n_prec n_ofZ].
  rewrite (plus_comm80 g' g), (plus_comm80 l' l), (minus_abs80 g' g), (eqb_sym80 g' g), (eqb_sym80 l' l). reflexivity.
Qed.
Print Assumptions C40_ieee_sym.

(** It is reflexive on numbers; a NaN gain compares equal to nothing, not even to itself. *)
Theorem C40_ieee_refl : forall lg (a : quality (IA lg)),
  (is_nan (gain a) = false -> is_nan (loss a) = false -> q_eqb (IA lg) a a = true) /\
  (is_nan (gain a) = true -> forall b, q_eqb (IA lg) a b = false).
Proof.
  intros lg [g l]. split.
  - cbn [gain loss]. intros Hg Hl. unfold q_eqb. cbn [gain loss IA n_eqb]. rewrite !Beqb_refl, Hg, Hl. reflexivity.
  - cbn [gain]. intros Hg [g' l']. destruct g; try discriminate. unfold q_eqb. cbn [gain loss IA n_eqb n_ltb n_abs n_sub].
    replace (Bminus mode_NE (B754_nan : f80) g') with (B754_nan : f80) by (destruct g'; reflexivity).
    destruct g'; reflexivity.
Qed.
Print Assumptions C40_ieee_refl.

(** ** The defect in floating point: equal gains hide any difference between the losses. *)
Lemma lit_bounds : is_finite (to80 prec_literal) = true /\ (b2 (-44) <= B2R (to80 prec_literal) <= 1)%R /\ Bsign (to80 prec_literal) = false.
Proof.
  split; [vm_compute; reflexivity|]. split; [|vm_compute; reflexivity].
  rewrite lit_R.
  replace (bpow radix2 (-44)) with (/ 2 ^ 44)%R by (cbn; f_equal; lra). lra.
Qed.

Lemma fmt_b2 : forall e, (-16445 <= e)%Z -> generic_format radix2 (SpecFloat.fexp 64 16384) (b2 e).
Proof. intros e He. apply generic_format_bpow. change (SpecFloat.fexp 64 16384) with (FLT_exp (-16445) 64). unfold FLT_exp. lia. Qed.

Lemma rnd80_le : forall x y, (x <= y)%R -> (rnd80 x <= rnd80 y)%R.
Proof. intros. apply round_le; auto. apply (fexp_correct 64 16384). apply prec80. apply valid_rnd_N. Qed.

Lemma rnd80_gen : forall x, generic_format radix2 (SpecFloat.fexp 64 16384) x -> rnd80 x = x.
Proof. intros x H. apply round_generic; auto. apply valid_rnd_N. Qed.

Lemma two80 : B2R (int80 2) = 2%R /\ is_finite (int80 2) = true.
Proof. split; [|reflexivity]. unfold B2R. cbn. unfold F2R. cbn. lra. Qed.

(** x/2*1e-13 is a positive number when x is at least 2^-16000. *)
Lemma prec_pos : forall x : f80, is_finite x = true -> (b2 (-16000) <= B2R x)%R ->
  let p := Bmult mode_NE (Bdiv mode_NE x (int80 2)) (to80 prec_literal) in is_finite p = true /\ (0 < B2R p)%R.
Proof.
  intros x Fx Hx. destruct two80 as [T1 T2]. destruct lit_bounds as (L1 & L2 & L3).
  pose proof (bpow_gt_0 radix2 (-16000)) as P0.
  pose proof (abs_B2R_lt_emax 64 16384 x) as UB. rewrite Rabs_pos_eq in UB by lra.
  pose proof (generic_format_B2R 64 16384 x) as GX.
  (* the half *)
  assert (D : let d := Bdiv mode_NE x (int80 2) in is_finite d = true /\ (b2 (-16001) <= B2R d <= B2R x)%R).
  { cbn zeta. pose proof (Bdiv_correct 64 16384 prec80 emax80 mode_NE x (int80 2)) as P. rewrite T1 in P.
    specialize (P ltac:(lra)).
    assert (H1 : (b2 (-16001) <= rnd80 (B2R x / 2) <= B2R x)%R).
    { split.
      - rewrite <- (rnd80_gen (b2 (-16001))) by (apply fmt_b2; lia). apply rnd80_le.
        change (-16000)%Z with (1 + -16001)%Z in Hx. rewrite bpow_plus in Hx. change (b2 1) with 2%R in Hx. lra.
      - rewrite <- (rnd80_gen (B2R x)) at 2 by auto. apply rnd80_le. lra. }
    rewrite Rlt_bool_true in P.
    - destruct P as (P1 & P2 & _). split; [rewrite P2; auto|]. rewrite P1. exact H1.
    - rewrite Rabs_pos_eq; [change (round_mode mode_NE) with ZnearestE; lra|].
      pose proof (bpow_gt_0 radix2 (-16001)). change (round_mode mode_NE) with ZnearestE. lra. }
  destruct D as [D1 D2]. set (d := Bdiv mode_NE x (int80 2)) in *. cbn zeta.
  pose proof (bpow_gt_0 radix2 (-16001)) as P1.
  pose proof (Bmult_correct 64 16384 prec80 emax80 mode_NE d (to80 prec_literal)) as M.
  assert (H2 : (b2 (-16045) <= rnd80 (B2R d * B2R (to80 prec_literal)) <= B2R x)%R).
  { split.
    - rewrite <- (rnd80_gen (b2 (-16045))) by (apply fmt_b2; lia). apply rnd80_le.
      change (-16045)%Z with (-16001 + -44)%Z. rewrite bpow_plus. apply Rmult_le_compat; try lra; apply bpow_ge_0.
    - rewrite <- (rnd80_gen (B2R x)) by auto. apply rnd80_le.
      apply Rle_trans with (B2R d * 1)%R; [|lra]. apply Rmult_le_compat_l; lra. }
  pose proof (bpow_gt_0 radix2 (-16045)) as P2.
  rewrite Rlt_bool_true in M.
  - destruct M as (M1 & M2 & _). split; [rewrite M2, D1, L1; reflexivity|]. rewrite M1. change (round_mode mode_NE) with ZnearestE. lra.
  - change (round_mode mode_NE) with ZnearestE. rewrite Rabs_pos_eq; lra.
Qed.

Theorem C40_ieee_refuted : forall lg (g l l' : f80), is_finite g = true -> (b2 (-16000) <= B2R g <= b2 16000)%R ->
  q_eqb (IA lg) (@mkQ (IA lg) g l) (@mkQ (IA lg) g l') = true.
Proof.
  intros lg g l l' Fg Hg. unfold q_eqb, n_max.
  cbn [gain loss IA n_mul n_div n_add n_sub n_ltb n_eqb n_abs n_prec n_ofZ].
  apply orb_true_iff. right. rewrite andb_diag.
  pose proof (bpow_gt_0 radix2 (-16000)) as P0.
  (* the difference of the gains is zero *)
  assert (Z0 : is_finite (Babs (Bminus mode_NE g g)) = true /\ B2R (Babs (Bminus mode_NE g g)) = 0%R).
  { pose proof (Bminus_correct 64 16384 prec80 emax80 mode_NE g g Fg Fg) as P.
    replace (B2R g - B2R g)%R with 0%R in P by ring. rewrite round_0 in P by apply valid_rnd_round_mode. rewrite Rabs_R0 in P.
    rewrite Rlt_bool_true in P by apply bpow_gt_0. destruct P as (P1 & P2 & _).
    rewrite is_finite_Babs, B2R_Babs, P1, Rabs_R0. auto. }
  destruct Z0 as [Z1 Z2].
  (* the sum of the gains *)
  assert (S1 : is_finite (Bplus mode_NE g g) = true /\ (b2 (-16000) <= B2R (Bplus mode_NE g g))%R).
  { pose proof (Bplus_correct 64 16384 prec80 emax80 mode_NE g g Fg Fg) as P.
    assert (H : (b2 (-16000) <= rnd80 (B2R g + B2R g) <= b2 16001)%R).
    { split.
      - rewrite <- (rnd80_gen (b2 (-16000))) by (apply fmt_b2; lia). apply rnd80_le. lra.
      - rewrite <- (rnd80_gen (b2 16001)) by (apply fmt_b2; lia). apply rnd80_le.
        change 16001%Z with (1 + 16000)%Z. rewrite bpow_plus. change (b2 1) with 2%R. lra. }
    rewrite Rlt_bool_true in P.
    - destruct P as (P1 & P2 & _). split; auto. rewrite P1. exact (proj1 H).
    - change (round_mode mode_NE) with ZnearestE. rewrite Rabs_pos_eq by lra.
      apply Rle_lt_trans with (b2 16001); [exact (proj2 H)|apply bpow_lt; lia]. }
  destruct S1 as [S1 S2].
  assert (FIN : forall x : f80, is_finite x = true -> (b2 (-16000) <= B2R x)%R ->
    Bltb (Babs (Bminus mode_NE g g)) (Bmult mode_NE (Bdiv mode_NE x (int80 2)) (to80 prec_literal)) = true).
  { intros x Fx Hx. destruct (prec_pos x Fx Hx) as [Q1 Q2]. rewrite Bltb_correct by auto. apply Rlt_bool_true. rewrite Z2. exact Q2. }
  destruct (Bltb (Bplus mode_NE g g) (Bplus mode_NE l l')) eqn:EB; [|apply FIN; auto].
  set (s2 := Bplus mode_NE l l') in *.
  destruct (finite_cases s2) as [F2|[N2|[s I2]]].
  - apply FIN; auto. rewrite Bltb_correct in EB by auto.
    destruct (Rlt_bool_spec (B2R (Bplus mode_NE g g)) (B2R s2)); [lra|discriminate].
  - rewrite N2 in EB. destruct (Bplus mode_NE g g); discriminate.
  - rewrite I2 in *. destruct s; [exfalso; destruct (Bplus mode_NE g g); discriminate|].
    assert (E : Bmult mode_NE (Bdiv mode_NE (B754_infinity false : f80) (int80 2)) (to80 prec_literal) = B754_infinity false).
    { apply B2SF_inj. vm_compute. reflexivity. }
    rewrite E. destruct (Babs (Bminus mode_NE g g)); try discriminate; reflexivity.
Qed.
Print Assumptions C40_ieee_refuted.

(** The hypotheses hold of gain 1; the losses 0 and 1 differ. *)
Example C40_ieee_nonvacuous : forall lg, q_eqb (IA lg) (@mkQ (IA lg) (int80 1) (int80 0)) (@mkQ (IA lg) (int80 1) (int80 1)) = true.
Proof.
  intro lg. apply C40_ieee_refuted; [reflexivity|].
  assert (E : B2R (int80 1) = 1%R) by (unfold B2R; cbn; unfold F2R; cbn; lra). rewrite E.
  change 1%R with (b2 0). split; apply bpow_le; lia.
Qed.

(** ** The area under the curve is a float: what computeAUC() returns has a float value (or is an infinity or a NaN). *)
Theorem C39_ieee_float : forall lg P T (st : @pstate (IA lg) P T) x, s_auc (IA lg) st = Ok x -> exists f : f32, x = to80 f.
Proof.
  intros lg P T st x. unfold s_auc. destruct (ps_list st); [discriminate|].
  intro E. destruct (for_up _ _ _ _) as [a| |]; cbn [bind] in E; try discriminate. injection E as <-.
  eexists. reflexivity.
Qed.
Print Assumptions C39_ieee_float.
