(** * Rounding errors of computeAUC and computePOpt. *)
From Coq Require Import ZArith Reals Lra Lia Sorting.Sorted.
From Flocq Require Import Core BinarySingleNaN Relative.
From Verif Require Import Base BaseFacts Arith Quality Search SpecSearch SearchFacts Ieee SpecIeee IeeeConv IeeeFacts SpecNear NearFacts NumFacts DoubleFacts SpecRNum RNumFacts SearchGet SpecAuc SpecNum.

Notation tiny := (bpow radix2 (-16446)).
Lemma tiny_small : (0 < tiny <= bpow radix2 (-150))%R.
Proof. split; [apply bpow_gt_0|apply bpow_le; lia]. Qed.
Lemma u80_small : (0 < bpow radix2 (-64) <= / 1048576)%R.
Proof. split; [apply bpow_gt_0|]. change (/ 1048576)%R with (bpow radix2 (-20)). apply bpow_le. lia. Qed.

Lemma prod_err : forall a A b B al be, (Rabs (a - A) <= al)%R -> (Rabs (b - B) <= be)%R -> (Rabs (a * b - A * B) <= al * Rabs b + Rabs A * be)%R.
Proof.
  intros a A b B al be Ha Hb. replace (a * b - A * B)%R with ((a - A) * b + A * (b - B))%R by ring. eapply Rle_trans; [apply Rabs_triang|]. rewrite !Rabs_mult.
  apply Rplus_le_compat; [apply Rmult_le_compat_r; auto; apply Rabs_pos|apply Rmult_le_compat_l; auto; apply Rabs_pos].
Qed.
Lemma abs_near : forall a A e, (Rabs (a - A) <= e)%R -> (Rabs a <= Rabs A + e)%R.
Proof. intros a A e H. replace a with (A + (a - A))%R by ring. eapply Rle_trans; [apply Rabs_triang|]. lra. Qed.
Lemma big80 : forall x, (x <= 1048576)%R -> (x <= bpow radix2 16383)%R.
Proof. intros x H. apply Rle_trans with (bpow radix2 20); [change (bpow radix2 20) with 1048576%R; lra|apply bpow_le; lia]. Qed.

(** One trapezoid. *)
Lemma trap_term : forall g0 g1 l0 l1 : f80, is_finite g0 = true -> is_finite g1 = true -> is_finite l0 = true -> is_finite l1 = true ->
  (Rabs (B2R g0) <= 3)%R -> (Rabs (B2R g1) <= 3)%R -> (Rabs (B2R l0) <= 3)%R -> (Rabs (B2R l1) <= 3)%R ->
  let t := Bdiv mode_NE (Bmult mode_NE (Bminus mode_NE g1 g0) (Bplus mode_NE l1 l0)) (int80 2) in let D := (B2R g1 - B2R g0)%R in
  is_finite t = true /\ (Rabs (B2R t - D * (B2R l1 + B2R l0) / 2) <= 32 * bpow radix2 (-64) * Rabs D + 3 * tiny)%R.
Proof.
  intros g0 g1 l0 l1 F0 F1 F2 F3 B0 B1 B2 B3 t D. pose proof tiny_small as Ht. pose proof u80_small as Hu. set (u := bpow radix2 (-64)) in *. set (e := tiny) in *.
  assert (HD : (Rabs D <= 6)%R) by (unfold D; apply Rabs_le_inv in B0; apply Rabs_le_inv in B1; apply Rabs_le; lra). set (Si := (B2R l1 + B2R l0)%R).
  assert (HS : (Rabs Si <= 6)%R) by (unfold Si; apply Rabs_le_inv in B2; apply Rabs_le_inv in B3; apply Rabs_le; lra).
  pose proof (Rabs_pos D) as PD. pose proof (Rabs_pos Si) as PS.
  destruct (minus80 g1 g0 F1 F0 ltac:(apply big80; fold D; lra)) as [Ea Fa]. fold D in Ea. set (a := Bminus mode_NE g1 g0) in *.
  assert (Ra : (Rabs (B2R a - D) <= u * Rabs D)%R).
  { rewrite Ea. unfold D, Rminus at 2 3. unfold Rminus. apply rnd80_plus_err; [apply b80R|apply generic_format_opp, b80R]. }
  destruct (plus80 l1 l0 F3 F2 ltac:(apply big80; fold Si; lra)) as [Eb Fb]. fold Si in Eb. set (b := Bplus mode_NE l1 l0) in *.
  assert (Rb : (Rabs (B2R b - Si) <= u * Rabs Si)%R) by (rewrite Eb; apply rnd80_plus_err; apply b80R).
  assert (uD : (u * Rabs D <= Rabs D)%R) by (rewrite <- (Rmult_1_l (Rabs D)) at 2; apply Rmult_le_compat_r; lra).
  assert (uD0 : (0 <= u * Rabs D)%R) by (apply Rmult_le_pos; lra).
  assert (uS : (u * Rabs Si <= u * 6)%R) by (apply Rmult_le_compat_l; lra).
  assert (Aa : (Rabs (B2R a) <= 2 * Rabs D)%R) by (eapply Rle_trans; [apply (abs_near _ _ _ Ra)|]; lra).
  assert (Ab : (Rabs (B2R b) <= 7)%R) by (eapply Rle_trans; [apply (abs_near _ _ _ Rb)|]; lra).
  assert (Aab : (Rabs (B2R a * B2R b) <= 14 * Rabs D)%R).
  { rewrite Rabs_mult. replace (14 * Rabs D)%R with (2 * Rabs D * 7)%R by ring. apply Rmult_le_compat; auto; apply Rabs_pos. }
  destruct (mult80 a b Fa Fb ltac:(apply big80; lra)) as [Ec Fc]. set (c := Bmult mode_NE a b) in *.
  pose proof (rnd80_err (B2R a * B2R b)) as Rc. rewrite <- Ec in Rc. fold u e in Rc.
  assert (uab : (u * Rabs (B2R a * B2R b) <= u * (14 * Rabs D))%R) by (apply Rmult_le_compat_l; lra).
  pose proof (prod_err _ _ _ _ _ _ Ra Rb) as Rab.
  assert (Q1 : (u * Rabs D * Rabs (B2R b) <= u * Rabs D * 7)%R) by (apply Rmult_le_compat_l; [apply Rmult_le_pos; lra|lra]).
  assert (Q2 : (Rabs D * (u * Rabs Si) <= Rabs D * (u * 6))%R) by (apply Rmult_le_compat_l; lra).
  assert (Rc' : (Rabs (B2R c - D * Si) <= 27 * (u * Rabs D) + e)%R).
  { replace (B2R c - D * Si)%R with ((B2R c - B2R a * B2R b) + (B2R a * B2R b - D * Si))%R by ring. eapply Rle_trans; [apply Rabs_triang|]. lra. }
  assert (Ac : (Rabs (B2R c) <= 28 * Rabs D + e)%R) by (eapply Rle_trans; [apply (abs_near _ _ _ Rc)|]; lra).
  destruct (int80_exact 2 ltac:(lia)) as [E2 F2'].
  assert (Hc2 : (Rabs (B2R c / 2) <= 14 * Rabs D + e)%R) by (unfold Rdiv; rewrite Rabs_mult, (Rabs_pos_eq (/ 2)) by lra; lra).
  assert (e1 : (e <= 1)%R) by (apply Rle_trans with (bpow radix2 (-150)); [lra|]; change 1%R with (bpow radix2 0); apply bpow_le; lia).
  destruct (div80 c (int80 2) Fc F2' ltac:(rewrite E2; lra) ltac:(rewrite E2; apply big80; lra)) as [Ed Fd]. rewrite E2 in Ed.
  fold t in Ed, Fd. split; [exact Fd|].
  pose proof (rnd80_err (B2R c / 2)) as Rd. change (IZR 2) with 2%R in Ed. rewrite <- Ed in Rd. fold u e in Rd.
  assert (uc : (u * Rabs (B2R c / 2) <= u * (14 * Rabs D + e))%R) by (apply Rmult_le_compat_l; lra).
  assert (ue : (u * e <= e)%R) by (rewrite <- (Rmult_1_l e) at 2; apply Rmult_le_compat_r; lra).
  replace (B2R t - D * Si / 2)%R with ((B2R t - B2R c / 2) + (B2R c - D * Si) * / 2)%R by field. eapply Rle_trans; [apply Rabs_triang|]. rewrite (Rabs_mult _ (/ 2)), (Rabs_pos_eq (/ 2)) by lra. lra.
Qed.

(** Conversion to float. *)
Lemma rnd32_err : forall x, (Rabs (round radix2 (FLT_exp (-149) 24) ZnearestE x - x) <= bpow radix2 (-24) * Rabs x + bpow radix2 (-150))%R.
Proof.
  intro x. destruct (error_N_FLT radix2 (-149) 24 ltac:(lia) (fun n => negb (Z.even n)) x) as (eps & eta & H1 & H2 & _ & E).
  rewrite E. rewrite half_bpow in H1, H2. change (-24 + 1 - 1)%Z with (-24)%Z in H1. change (-149 - 1)%Z with (-150)%Z in H2.
  replace (x * (1 + eps) + eta - x)%R with (eps * x + eta)%R by ring.
  eapply Rle_trans; [apply Rabs_triang|]. rewrite Rabs_mult. pose proof (Rabs_pos x).
  apply Rplus_le_compat; auto. apply Rmult_le_compat_r; auto.
Qed.
Lemma narrow32 : forall x : f80, is_finite x = true -> (Rabs (B2R x) <= bpow radix2 127)%R -> B2R (to32 x) = round radix2 (FLT_exp (-149) 24) ZnearestE (B2R x) /\ is_finite (to32 x) = true.
Proof.
  intros x Hx Bx. destruct x as [s| | |s m e B]; try discriminate; [split; [cbn [B2R to32 conv]; symmetry; apply round_0; auto with typeclass_instances|reflexivity]|].
  unfold to32, conv.
  pose proof (binary_normalize_correct 24 128 prec32 emax32 mode_NE (cond_Zopp s (Zpos m)) e s) as K. cbv zeta in K.
  change (F2R {| Fnum := cond_Zopp s (Zpos m); Fexp := e |}) with (B2R (B754_finite s m e B : f80)) in K.
  change (SpecFloat.fexp 24 128) with (FLT_exp (-149) 24) in K. change (round_mode mode_NE) with ZnearestE in K.
  rewrite Rlt_bool_true in K; [destruct K as (K1 & K2 & _); split; auto|].
  apply Rle_lt_trans with (bpow radix2 127); [|apply bpow_lt; lia]. apply abs_round_le_generic; auto with typeclass_instances. apply generic_format_bpow. unfold FLT_exp. lia.
Qed.
Lemma float_close : forall x : f80, is_finite x = true -> (Rabs (B2R x) <= bpow radix2 127)%R ->
  is_finite (to80 (to32 x)) = true /\ (Rabs (B2R (to80 (to32 x)) - B2R x) <= bpow radix2 (-24) * Rabs (B2R x) + bpow radix2 (-150))%R.
Proof.
  intros x Fx Bx. destruct (narrow32 x Fx Bx) as (E1 & F1). destruct (to80_exact (to32 x) F1) as (E2 & F2). split; [exact F2|].
  rewrite E2, E1. apply rnd32_err.
Qed.

(** A sum or difference in long double, then converted to float. *)
Lemma float_of : forall (x : f80) s S e, is_finite x = true -> (Rabs (B2R x - s) <= bpow radix2 (-64) * Rabs s)%R -> (Rabs (s - S) <= e)%R -> (0 <= e)%R -> (Rabs S + e <= bpow radix2 100)%R ->
  is_finite (to80 (to32 x)) = true /\ (Rabs (B2R (to80 (to32 x)) - S) <= e + bpow radix2 (-23) * (Rabs S + e) + bpow radix2 (-149))%R.
Proof.
  intros x s S e Fx Rx HS He HB.
  pose proof (abs_near _ _ _ HS) as S'. pose proof (abs_near _ _ _ Rx) as Ax. set (a := Rabs s) in *. assert (Ps : (0 <= a)%R) by apply Rabs_pos.
  assert (Q : (bpow radix2 (-64) * a <= bpow radix2 (-30) * a)%R) by (apply Rmult_le_compat_r; [lra|apply bpow_le; lia]).
  assert (u30 : (bpow radix2 (-30) = / 64 * bpow radix2 (-24))%R) by (change (-30)%Z with (-6 + -24)%Z; rewrite bpow_plus; reflexivity).
  assert (u24 : (0 < bpow radix2 (-24) <= / 1000)%R) by (rewrite bp_24; lra).
  assert (Q30 : (bpow radix2 (-30) * a <= a)%R) by (rewrite <- (Rmult_1_l a) at 2; apply Rmult_le_compat_r; lra).
  assert (M2 : (2 * bpow radix2 100 <= bpow radix2 127)%R). { change 2%R with (bpow radix2 1). rewrite <- bpow_plus. apply bpow_le. lia. }
  destruct (float_close x Fx ltac:(lra)) as (Ff & Rf). split; [exact Ff|]. set (y := to80 (to32 x)) in *.
  replace (B2R y - S)%R with ((B2R y - B2R x) + (B2R x - s) + (s - S))%R by ring.
  eapply Rle_trans; [apply Rabs_triang|]. eapply Rle_trans; [apply Rplus_le_compat_r, Rabs_triang|].
  assert (Q3 : (bpow radix2 (-24) * Rabs (B2R x) <= bpow radix2 (-24) * (a + bpow radix2 (-30) * a))%R) by (apply Rmult_le_compat_l; lra).
  assert (Q4 : (bpow radix2 (-24) * (bpow radix2 (-30) * a) <= / 1000 * (bpow radix2 (-30) * a))%R) by (apply Rmult_le_compat_r; [apply Rmult_le_pos; [apply bpow_ge_0|lra]|lra]).
  assert (Q5 : (bpow radix2 (-23) * (Rabs S + e) = 2 * (bpow radix2 (-24) * (Rabs S + e)))%R).
  { change (-23)%Z with (1 + -24)%Z. rewrite bpow_plus. change (bpow radix2 1) with 2%R. ring. }
  assert (Q6 : (bpow radix2 (-24) * a <= bpow radix2 (-24) * (Rabs S + e))%R) by (apply Rmult_le_compat_l; lra).
  assert (Q7 : (bpow radix2 (-30) * a = / 64 * (bpow radix2 (-24) * a))%R) by (rewrite u30; ring).
  assert (Q8 : (bpow radix2 (-150) <= bpow radix2 (-149))%R) by (apply bpow_le; lia).
  assert (Q9 : (0 <= bpow radix2 (-24) * a)%R) by (apply Rmult_le_pos; lra).
  rewrite Q5. lra.
Qed.

(** One step of the accumulation. *)
Lemma acc_step : forall (a t : f80) A T e f, is_finite a = true -> is_finite t = true -> (Rabs (B2R a - A) <= e)%R -> (Rabs (B2R t - T) <= f)%R -> (0 <= e)%R -> (0 <= f)%R ->
  (Rabs (A + T) + (e + f) <= bpow radix2 100)%R ->
  is_finite (to80 (to32 (Bplus mode_NE a t))) = true /\
  (Rabs (B2R (to80 (to32 (Bplus mode_NE a t))) - (A + T)) <= e + f + bpow radix2 (-23) * (Rabs (A + T) + (e + f)) + bpow radix2 (-149))%R.
Proof.
  intros a t A T e f Fa Ft Ha Ht He Hf HB.
  assert (S : (Rabs (B2R a + B2R t - (A + T)) <= e + f)%R).
  { replace (B2R a + B2R t - (A + T))%R with ((B2R a - A) + (B2R t - T))%R by ring. eapply Rle_trans; [apply Rabs_triang|]. lra. }
  pose proof (abs_near _ _ _ S) as S'. assert (M : (bpow radix2 100 <= bpow radix2 16383)%R) by (apply bpow_le; lia).
  destruct (plus80 a t Fa Ft ltac:(lra)) as [Ex Fx].
  apply (float_of _ (B2R a + B2R t)%R); auto; [|lra]. rewrite Ex. apply rnd80_plus_err; apply b80R.
Qed.

(** The final 1 - auc. *)
Lemma acc_last : forall (a : f80) A e, is_finite a = true -> (Rabs (B2R a - A) <= e)%R -> (0 <= e)%R -> (Rabs (1 - A) + e <= bpow radix2 100)%R ->
  is_finite (to80 (to32 (Bminus mode_NE (int80 1) a))) = true /\
  (Rabs (B2R (to80 (to32 (Bminus mode_NE (int80 1) a))) - (1 - A)) <= e + bpow radix2 (-23) * (Rabs (1 - A) + e) + bpow radix2 (-149))%R.
Proof.
  intros a A e Fa Ha He HB. destruct (int80_exact 1 ltac:(lia)) as [E1 F1].
  assert (S : (Rabs (1 - B2R a - (1 - A)) <= e)%R) by (replace (1 - B2R a - (1 - A))%R with (- (B2R a - A))%R by ring; rewrite Rabs_Ropp; exact Ha).
  pose proof (abs_near _ _ _ S) as S'. assert (M : (bpow radix2 100 <= bpow radix2 16383)%R) by (apply bpow_le; lia).
  destruct (minus80 (int80 1) a F1 Fa ltac:(rewrite E1; lra)) as [Ex Fx]. rewrite E1 in Ex.
  apply (float_of _ (1 - B2R a)%R); auto. rewrite Ex. unfold Rminus. apply rnd80_plus_err; [|apply generic_format_opp, b80R].
  replace 1%R with (B2R (int80 1)) by (rewrite E1; reflexivity). apply b80R.
Qed.

(** ** Trapezoids and variation *)
Lemma variation_nonneg : forall l, (0 <= variation l)%R.
Proof. induction l as [|x [|y l] IH]; cbn [variation]; try lra. pose proof (Rabs_pos (y - x)). cbn [variation] in IH. lra. Qed.

Lemma variation_firstn : forall n l, (variation (firstn n l) <= variation l)%R.
Proof.
  induction n as [|n IH]; intros [|x l]; try (cbn [firstn]; lra); [cbn [firstn]; change (variation []) with 0%R; apply variation_nonneg|]. cbn [firstn]. specialize (IH l).
  destruct l as [|y l]; [destruct n; cbn; lra|]. destruct n; [cbn [firstn]; change (variation [x]) with 0%R; apply variation_nonneg|].
  cbn [firstn] in *. change (variation (x :: y :: firstn n l)) with (Rabs (y - x) + variation (y :: firstn n l))%R. change (variation (x :: y :: l)) with (Rabs (y - x) + variation (y :: l))%R. lra.
Qed.

Lemma trap_var : forall l, Forall (fun gl => (Rabs (snd gl) <= 3)%R) l -> (Rabs (trapezoids l) <= 3 * variation (map fst l))%R.
Proof.
  induction l as [|[g0 l0] l IH]; intro F; [cbn; rewrite Rabs_R0; lra|]. inversion F as [|? ? F0 F']; subst. destruct l as [|[g1 l1] l]; [cbn; rewrite Rabs_R0; lra|].
  rewrite trap_cons. specialize (IH F'). inversion F' as [|? ? F1 _]; subst. cbn [fst snd] in *. change (variation (map fst ((g0, l0) :: (g1, l1) :: l))) with (Rabs (g1 - g0) + variation (map fst ((g1, l1) :: l)))%R.
  eapply Rle_trans; [apply Rabs_triang|]. replace ((g1 - g0) * (l1 + l0) / 2)%R with ((g1 - g0) * ((l1 + l0) / 2))%R by field. rewrite Rabs_mult.
  assert (Q : (Rabs ((l1 + l0) / 2) <= 3)%R) by (apply Rabs_le_inv in F0; apply Rabs_le_inv in F1; apply Rabs_le; lra).
  pose proof (Rabs_pos (g1 - g0)) as P. assert (Rabs (g1 - g0) * Rabs ((l1 + l0) / 2) <= Rabs (g1 - g0) * 3)%R by (apply Rmult_le_compat_l; auto). lra.
Qed.

(** ** The loop of computeAUC *)
Section L.
Context (lg : f80 -> f80).
Notation A := (IA lg).
Notation ql := (quality A).
Definition pts80 (qs : list (f32 * ql)) : list (R * R) := map (fun pq : f32 * ql => (B2R (gain (snd pq) : f80), B2R (loss (snd pq) : f80))) qs.
Definition small_q (pq : f32 * ql) : Prop := qual_le 3 (snd pq).

Lemma qual_at80 : forall (qs : list (f32 * ql)) p q, Forall unit32 (map fst qs) -> StronglySorted (plt A) (map fst qs) -> In (p, q) qs -> fmap_at A qs p = Ok q.
Proof.
  intros qs p q U S H. unfold fmap_at. assert (T1 : thr32 (int32 1)). { destruct one32_R as [E F]. split; auto. rewrite E. change 1%R with (bpow radix2 0). apply bpow_le. lia. }
  rewrite (fmap_get_In A unit32 (int32 1) (ieee_bisectable lg _ T1) qs p q); auto.
Qed.

Notation step qs := (fun i auc =>
         let* p1 := vget (map fst qs) (i + 1) in
         let* p0 := vget (map fst qs) i in
         let* q1 := fmap_at A qs p1 in
         let* q0 := fmap_at A qs p0 in
         Ok (n_float A (n_add A auc
               (n_div A (n_mul A (n_sub A (gain q1) (gain q0)) (n_add A (loss q1) (loss q0))) (n_ofZ A 2))))).

Lemma FS : forall X (qs : list X) j y, nth_error qs j = Some y -> firstn (Datatypes.S j) qs = firstn j qs ++ [y].
Proof. intros X. induction qs as [|z qs IH]; intros [|j] y H; simpl in *; try discriminate; [inversion H; auto|]. f_equal. apply IH; auto. Qed.

Lemma auc_loop80 : forall (qs : list (f32 * ql)) V, Forall unit32 (map fst qs) -> StronglySorted (plt A) (map fst qs) -> Forall small_q qs -> 1 <= vlen qs <= 1048576 ->
  (variation (map fst (pts80 qs)) <= V)%R -> (V <= bpow radix2 80)%R ->
  exists a : f80, for_up 0 (vlen (map fst qs) - 1) (step qs) (n_zero A) = Ok a /\ is_finite a = true /\
    (Rabs (B2R a - trapezoids (pts80 qs)) <= IZR (vlen qs - 1) * (bpow radix2 (-20) * (V + 1)))%R.
Proof.
  intros qs V U S Sm Hn HV HV2.
  set (c := (bpow radix2 (-20) * (V + 1))%R).
  assert (PV : (0 <= V)%R) by (eapply Rle_trans; [apply variation_nonneg|exact HV]).
  assert (c20 : c = (/ 1048576 * (V + 1))%R) by reflexivity. assert (Pc : (0 < c)%R) by lra.
  destruct (for_up_inv f80 (step qs) (fun i (acc : f80) => is_finite acc = true /\ (Rabs (B2R acc - trapezoids (pts80 (firstn (Z.to_nat (i + 1)) qs))) <= IZR i * c)%R) 0 (vlen (map fst qs) - 1) (n_zero A)) as (r & E & Fr & Er).
  - unfold vlen. rewrite map_length. unfold vlen in Hn. lia.
  - intros i acc Hi (Fa & Ha). unfold vlen in Hi, Hn. rewrite map_length in Hi.
    set (k := Z.to_nat i). assert (Ek : i = Z.of_nat k) by (unfold k; lia).
    destruct (nth_error qs k) as [[p0 q0]|] eqn:N0; [|apply nth_error_None in N0; lia].
    destruct (nth_error qs (Datatypes.S k)) as [[p1 q1]|] eqn:N1; [|apply nth_error_None in N1; lia].
    assert (V0 : vget (map fst qs) i = Ok p0).
    { apply vget_nth. split; [lia|]. fold k. rewrite nth_error_map, N0. auto. }
    assert (V1 : vget (map fst qs) (i + 1) = Ok p1).
    { apply vget_nth. split; [lia|]. replace (Z.to_nat (i + 1)) with (Datatypes.S k) by lia. rewrite nth_error_map, N1. auto. }
    rewrite V1. cbn [bind]. rewrite V0. cbn [bind].
    rewrite (qual_at80 qs p1 q1 U S (nth_error_In _ _ N1)). cbn [bind]. rewrite (qual_at80 qs p0 q0 U S (nth_error_In _ _ N0)). cbn [bind].
    eexists. split; [reflexivity|].
    pose proof (proj1 (Forall_forall _ _) Sm _ (nth_error_In _ _ N0)) as ((Fg0 & Bg0) & (Fl0 & Bl0)). pose proof (proj1 (Forall_forall _ _) Sm _ (nth_error_In _ _ N1)) as ((Fg1 & Bg1) & (Fl1 & Bl1)). cbn [snd] in *.
    destruct (trap_term _ _ _ _ Fg0 Fg1 Fl0 Fl1 Bg0 Bg1 Bl0 Bl1) as (Ft & Rt). cbv zeta in Ft, Rt.
    replace (Z.to_nat (i + 1 + 1)) with (Datatypes.S (Datatypes.S k)) by lia. replace (Z.to_nat (i + 1)) with (Datatypes.S k) in Ha by lia.
    assert (TE : trapezoids (pts80 (firstn (Datatypes.S (Datatypes.S k)) qs)) = (trapezoids (pts80 (firstn (Datatypes.S k) qs)) + (B2R (gain q1 : f80) - B2R (gain q0 : f80)) * (B2R (loss q1 : f80) + B2R (loss q0 : f80)) / 2)%R).
    { rewrite (FS _ _ _ _ N1), (FS _ _ _ _ N0). unfold pts80. rewrite !map_app, <- app_assoc. simpl map. simpl app at 3. apply trap_snoc. }
    assert (BT : (Rabs (trapezoids (pts80 (firstn (Datatypes.S (Datatypes.S k)) qs))) <= 3 * V)%R).
    { eapply Rle_trans; [apply trap_var|].
      - unfold pts80. apply Forall_map. apply Forall_forall. intros x Ix. apply (proj1 (Forall_forall _ _) Sm x). rewrite <- (firstn_skipn (Datatypes.S (Datatypes.S k)) qs). apply in_or_app. auto.
      - unfold pts80. rewrite <- firstn_map, <- firstn_map. pose proof (variation_firstn (Datatypes.S (Datatypes.S k)) (map fst (pts80 qs))) as K. unfold pts80 in K, HV. lra. }
    set (D := (B2R (gain q1 : f80) - B2R (gain q0 : f80))%R) in *. set (T0 := trapezoids (pts80 (firstn (Datatypes.S k) qs))) in *.
    assert (HD : (Rabs D <= 6)%R) by (unfold D; apply Rabs_le_inv in Bg0; apply Rabs_le_inv in Bg1; apply Rabs_le; lra). pose proof (Rabs_pos D) as PD.
    pose proof tiny_small as Ti. assert (T150 : (bpow radix2 (-150) <= bpow radix2 (-60))%R) by (apply bpow_le; lia). assert (T149 : (bpow radix2 (-149) <= bpow radix2 (-60))%R) by (apply bpow_le; lia).
    assert (u60 : (bpow radix2 (-60) <= / 1048576 * / 1048576)%R). { replace (/ 1048576 * / 1048576)%R with (bpow radix2 (-20) * bpow radix2 (-20))%R by reflexivity. rewrite <- bpow_plus. apply bpow_le. lia. }
    assert (u64 : (0 <= bpow radix2 (-64) <= bpow radix2 (-60))%R) by (split; [apply bpow_ge_0|apply bpow_le; lia]).
    set (f := (32 * bpow radix2 (-64) * Rabs D + 3 * tiny)%R) in *.
    assert (Hf : (0 <= f <= 200 * bpow radix2 (-60))%R).
    { unfold f. split; [apply Rplus_le_le_0_compat; [apply Rmult_le_pos; lra|lra]|]. assert (32 * bpow radix2 (-64) * Rabs D <= 32 * bpow radix2 (-60) * 6)%R by (apply Rmult_le_compat; lra). lra. }
    assert (Hi2 : (0 <= IZR i <= 1048576)%R) by (split; apply IZR_le; lia).
    assert (He : (0 <= IZR i * c <= V + 1)%R).
    { split; [apply Rmult_le_pos; lra|]. rewrite c20. apply Rle_trans with (1048576 * (/ 1048576 * (V + 1)))%R; [apply Rmult_le_compat_r; lra|lra]. }
    assert (HB : (10 * (bpow radix2 80) + 10 <= bpow radix2 100)%R).
    { change 100%Z with (20 + 80)%Z. rewrite bpow_plus. change (bpow radix2 20) with 1048576%R. assert (1 <= bpow radix2 80)%R by (change 1%R with (bpow radix2 0); apply bpow_le; lia). lra. }
    rewrite TE in BT. destruct (acc_step acc _ T0 _ _ f Fa Ft Ha Rt (proj1 He) (proj1 Hf) ltac:(lra)) as (Fs & Rs).
    split; [exact Fs|]. rewrite TE. eapply Rle_trans; [exact Rs|]. rewrite plus_IZR.
    assert (Q : (bpow radix2 (-23) * (Rabs (T0 + D * (B2R (loss q1 : f80) + B2R (loss q0 : f80)) / 2) + (IZR i * c + f)) <= / 8388608 * (3 * V + (V + 1 + f)))%R).
    { change (bpow radix2 (-23)) with (/ 8388608)%R. apply Rmult_le_compat_l; lra. }
    lra.
  - split; [reflexivity|]. destruct qs as [|x l]; [unfold vlen in Hn; cbn in Hn; lia|]. cbn [Z.add Z.to_nat Pos.to_nat Pos.iter_op Init.Nat.add firstn]. change (Pos.to_nat 1) with 1%nat. cbn [firstn pts80 map trapezoids].
    change (B2R (n_zero A : f80)) with 0%R. rewrite Rminus_0_r, Rabs_R0. rewrite Rmult_0_l. lra.
  - exists r. split; [exact E|]. split; [exact Fr|]. unfold vlen in Er. rewrite map_length in Er. replace (firstn _ qs) with qs in Er; [exact Er|]. symmetry. apply firstn_all2. lia.
Qed.

Context {Pn Tu : Type}.

Lemma auc80 : forall (st : @pstate A Pn Tu) V a, map fst (ps_qual st) = ps_list st -> Forall unit32 (ps_list st) -> StronglySorted (plt A) (ps_list st) -> Forall small_q (ps_qual st) ->
  vlen (ps_qual st) <= 1048576 -> (variation (map fst (pts80 (ps_qual st))) <= V)%R -> (V <= bpow radix2 80)%R -> s_auc A st = Ok a ->
  is_finite (a : f80) = true /\ (Rabs (B2R (a : f80) - (1 - trapezoids (pts80 (ps_qual st)))) <= IZR (vlen (ps_qual st)) * (bpow radix2 (-20) * (V + 1)))%R.
Proof.
  intros st V a K U S Sm Hn HV HV2 Ea. unfold s_auc in Ea. rewrite <- K in *. destruct (ps_qual st) as [|x l] eqn:Eqs; [discriminate Ea|].
  set (qs := x :: l) in *. assert (Hn1 : 1 <= vlen qs <= 1048576) by (split; [unfold qs, vlen; cbn [length]; lia|exact Hn]).
  destruct (auc_loop80 qs V U S Sm Hn1 HV HV2) as (y & Ey & Fy & Ry).
  assert (Ea' : a = n_float A (n_sub A (n_one A) y)).
  { unfold qs in Ea. cbn [map] in Ea. cbv iota in Ea. change (fst x :: map fst l) with (map fst (x :: l)) in Ea. fold qs in Ea.
    match type of Ea with bind ?e _ = _ => replace e with (@Ok (num A) y) in Ea by (symmetry; exact Ey) end. cbn [bind] in Ea. injection Ea as <-. reflexivity. }
  rewrite Ea'. clear Ea Ea' Ey.
  assert (PV : (0 <= V)%R) by (eapply Rle_trans; [apply variation_nonneg|exact HV]).
  assert (BT : (Rabs (trapezoids (pts80 qs)) <= 3 * V)%R).
  { eapply Rle_trans; [apply trap_var|lra]. unfold pts80. apply Forall_map. eapply Forall_impl; [|exact Sm]. intros z Hz. apply Hz. }
  set (T := trapezoids (pts80 qs)) in *. set (c := (bpow radix2 (-20) * (V + 1))%R) in *. assert (c20 : c = (/ 1048576 * (V + 1))%R) by reflexivity.
  assert (Hi2 : (0 <= IZR (vlen qs - 1) <= 1048576)%R) by (split; apply IZR_le; lia).
  assert (He : (0 <= IZR (vlen qs - 1) * c <= V + 1)%R).
  { split; [apply Rmult_le_pos; lra|]. rewrite c20. apply Rle_trans with (1048576 * (/ 1048576 * (V + 1)))%R; [apply Rmult_le_compat_r; lra|lra]. }
  assert (HB : (10 * (bpow radix2 80) + 10 <= bpow radix2 100)%R).
  { change 100%Z with (20 + 80)%Z. rewrite bpow_plus. change (bpow radix2 20) with 1048576%R. assert (1 <= bpow radix2 80)%R by (change 1%R with (bpow radix2 0); apply bpow_le; lia). lra. }
  assert (B1 : (Rabs (1 - T) <= 1 + 3 * V)%R) by (apply Rabs_le_inv in BT; apply Rabs_le; lra).
  assert (ZZ : (Rabs (1 - T) + IZR (vlen qs - 1) * c <= bpow radix2 100)%R). { lra. }
 destruct (acc_last y T _ Fy Ry (proj1 He) ZZ) as (F & B). split; [exact F|].
  change (n_float A (n_sub A (n_one A) y)) with (to80 (to32 (Bminus mode_NE (int80 1) y))).
  eapply Rle_trans; [exact B|].
  assert (T149 : (bpow radix2 (-149) <= bpow radix2 (-30))%R) by (apply bpow_le; lia). change (bpow radix2 (-30)) with (/ 1073741824)%R in T149.
  assert (Q : (bpow radix2 (-23) * (Rabs (1 - T) + IZR (vlen qs - 1) * c) <= / 8388608 * (1 + 3 * V + (V + 1)))%R) by (change (bpow radix2 (-23)) with (/ 8388608)%R; apply Rmult_le_compat_l; lra).
  assert (EI : (IZR (vlen qs) * c = IZR (vlen qs - 1) * c + c)%R) by (rewrite minus_IZR; ring). rewrite EI. set (nc := (IZR (vlen qs - 1) * c)%R) in *. set (w := (bpow radix2 (-23) * (Rabs (1 - T) + nc))%R) in *. match goal with |- (_ + _ + ?t <= _)%R => change (nc + w + t <= nc + c)%R end. lra.
Qed.

(** ** The loop of computePOpt *)
Definition sc (q : ql) : R := B2R (s_score A q : f80).

Lemma score80 : forall q : ql, qual_le 3 q -> is_finite (s_score A q : f80) = true /\ (Rabs (sc q - dist2 (B2R (gain q : f80)) (B2R (loss q : f80))) <= bpow radix2 (-57))%R /\ (Rabs (sc q) <= 100)%R.
Proof.
  intros [g l]. change (num (IA lg)) with f80 in g, l. intros ((Fg & Bg) & (Fl & Bl)). unfold sc, s_score. cbn [gain loss] in *. change (n_sub A g (n_one A)) with (Bminus mode_NE g (int80 1)).
  change (n_add A) with (@Bplus 64 16384 prec80 emax80 mode_NE). change (n_mul A) with (@Bmult 64 16384 prec80 emax80 mode_NE).
  destruct (int80_exact 1 ltac:(lia)) as [E1 F1]. pose proof tiny_small as Ti. pose proof u80_small as Hu. set (u := bpow radix2 (-64)) in *. set (e := tiny) in *.
  assert (ub : (e <= u)%R) by (apply bpow_le; lia).
  assert (A1 : (Rabs (B2R g - 1) <= 4)%R) by (apply Rabs_le_inv in Bg; apply Rabs_le; lra).
  destruct (minus80 g (int80 1) Fg F1 ltac:(rewrite E1; apply big80; lra)) as [Ea Fa]. set (a := Bminus mode_NE g (int80 1)) in *. rewrite E1 in Ea.
  assert (Ra : (Rabs (B2R a - (B2R g - 1)) <= u * 4)%R).
  { rewrite Ea. eapply Rle_trans; [unfold Rminus; apply rnd80_plus_err; [apply b80R|apply generic_format_opp; rewrite <- E1; apply b80R]|]. apply Rmult_le_compat_l; [unfold u in *; lra|exact A1]. }
  assert (Aa : (Rabs (B2R a) <= 5)%R) by (eapply Rle_trans; [apply (abs_near _ _ _ Ra)|]; lra).
  assert (Aaa : (Rabs (B2R a * B2R a) <= 25)%R) by (rewrite Rabs_mult; replace 25%R with (5 * 5)%R by ring; apply Rmult_le_compat; auto; apply Rabs_pos).
  assert (All : (Rabs (B2R l * B2R l) <= 9)%R) by (rewrite Rabs_mult; replace 9%R with (3 * 3)%R by ring; apply Rmult_le_compat; auto; apply Rabs_pos).
  destruct (mult80 a a Fa Fa ltac:(apply big80; lra)) as [Eb Fb]. destruct (mult80 l l Fl Fl ltac:(apply big80; lra)) as [Ec Fc].
  set (b := Bmult mode_NE a a) in *. set (c := Bmult mode_NE l l) in *.
  pose proof (rnd80_err (B2R a * B2R a)) as Rb. rewrite <- Eb in Rb. pose proof (rnd80_err (B2R l * B2R l)) as Rc. rewrite <- Ec in Rc. fold u e in Rb, Rc.
  assert (Ua : (u * Rabs (B2R a * B2R a) <= u * 25)%R) by (apply Rmult_le_compat_l; lra). assert (Ul : (u * Rabs (B2R l * B2R l) <= u * 9)%R) by (apply Rmult_le_compat_l; lra).
  pose proof (prod_err _ _ _ _ _ _ Ra Ra) as Raa.
  assert (Q1 : (u * 4 * Rabs (B2R a) <= u * 4 * 5)%R) by (apply Rmult_le_compat_l; lra). assert (Q2 : (Rabs (B2R g - 1) * (u * 4) <= 4 * (u * 4))%R) by (apply Rmult_le_compat_r; lra).
  assert (Ab : (Rabs (B2R b) <= 26)%R) by (eapply Rle_trans; [apply (abs_near _ _ _ Rb)|]; lra). assert (Ac : (Rabs (B2R c) <= 10)%R) by (eapply Rle_trans; [apply (abs_near _ _ _ Rc)|]; lra).
  assert (Abc : (Rabs (B2R b + B2R c) <= 36)%R) by (eapply Rle_trans; [apply Rabs_triang|]; lra).
  destruct (plus80 b c Fb Fc ltac:(apply big80; lra)) as [Ed Fd]. split; [exact Fd|].
  assert (Rd : (Rabs (B2R (Bplus mode_NE b c) - (B2R b + B2R c)) <= u * 36)%R).
  { rewrite Ed. eapply Rle_trans; [apply rnd80_plus_err; apply b80R|]. apply Rmult_le_compat_l; [unfold u in *; lra|exact Abc]. }
  split; [|eapply Rle_trans; [apply (abs_near _ _ _ Rd)|]; lra].
  assert (u57 : (bpow radix2 (-57) = 128 * u)%R). { change (-57)%Z with (7 + -64)%Z. rewrite bpow_plus. reflexivity. }
  rewrite u57. unfold dist2. set (y := B2R (Bplus mode_NE b c)) in *.
  replace (y - ((B2R g - 1) * (B2R g - 1) + B2R l * B2R l))%R with ((y - (B2R b + B2R c)) + ((B2R b - B2R a * B2R a) + (B2R a * B2R a - (B2R g - 1) * (B2R g - 1)) + (B2R c - B2R l * B2R l)))%R by ring.
  eapply Rle_trans; [apply Rabs_triang|]. eapply Rle_trans; [apply Rplus_le_compat_l; eapply Rle_trans; [apply Rabs_triang|apply Rplus_le_compat_r, Rabs_triang]|]. lra.
Qed.

Lemma leb80 : forall a b : f80, is_finite a = true -> is_finite b = true -> Bleb a b = Rle_bool (B2R a) (B2R b).
Proof. intros. apply Bleb_correct; auto. Qed.

Lemma popt80 : forall (st : @pstate A Pn Tu) r, map fst (ps_qual st) = ps_list st -> Forall unit32 (ps_list st) -> StronglySorted (plt A) (ps_list st) -> Forall small_q (ps_qual st) ->
  s_getP A st P_OPT = Ok r -> exists q, In (r, q) (ps_qual st) /\ forall p' q', In (p', q') (ps_qual st) -> (sc q <= sc q')%R.
Proof.
  intros st r K U S Sm E. unfold s_getP in E. change (P_OPT =? P_MIN) with false in E. change (P_OPT =? P_MAX) with false in E. change (P_OPT =? P_OPT) with true in E. cbv iota in E.
  unfold s_popt in E. rewrite <- K in *. set (qs := ps_qual st) in *.
  set (inv := fun (pre : list (f32 * ql)) (sp : f80 * option f32) => is_finite (fst sp) = true /\
    match snd sp with None => pre = [] /\ fst sp = int80 RAND_MAX | Some r => exists q, In (r, q) pre /\ fst sp = s_score A q /\ forall p' q', In (p', q') pre -> (sc q <= sc q')%R end).
  destruct (int80_exact RAND_MAX ltac:(unfold RAND_MAX; lia)) as [Em Fm].
  assert (H : forall post pre sp0, qs = pre ++ post -> inv pre sp0 ->
    exists sp, mfold (fun p sp => let '(score, popt) := sp in
                     let* q := fmap_at A qs p in
                     if n_leb A (s_score A q) score then Ok (s_score A q, Some p) else Ok (score, popt))
                  (map fst post) sp0 = Ok sp /\ inv qs sp).
  { induction post as [|[p q] post IH]; intros pre [s o] Eq Iv.
    - rewrite app_nil_r in Eq. subst pre. exists (s, o). auto.
    - cbn [map mfold fst]. assert (Iq : In (p, q) qs) by (rewrite Eq; apply in_or_app; simpl; auto).
      rewrite (qual_at80 qs p q U S Iq). cbn [bind]. pose proof (proj1 (Forall_forall _ _) Sm _ Iq) as Sq. destruct (score80 q Sq) as (Fs & _ & Bs).
      destruct Iv as (F0 & Iv). cbn [fst snd] in F0, Iv. change (n_leb A (s_score A q) s) with (Bleb (s_score A q : f80) s). rewrite (leb80 _ _ Fs F0).
      destruct (Rle_bool_spec (B2R (s_score A q : f80)) (B2R s)) as [L|L]; cbn [bind]; apply (IH (pre ++ [(p, q)])); try (rewrite <- app_assoc; exact Eq).
      + split; [exact Fs|]. cbn [fst snd]. exists q. split; [apply in_or_app; right; left; auto|]. split; [reflexivity|]. intros p' q' I'. apply in_app_or in I'. destruct I' as [I'|[K'|[]]].
        * destruct o as [r0|]; [|destruct Iv as [-> _]; destruct I']. destruct Iv as (q0 & I0 & -> & M0). specialize (M0 _ _ I'). unfold sc in *. lra.
        * injection K' as <- <-. lra.
      + split; [exact F0|]. cbn [fst snd]. destruct o as [r0|].
        * destruct Iv as (q0 & I0 & -> & M0). exists q0. split; [apply in_or_app; auto|]. split; [reflexivity|]. intros p' q' I'. apply in_app_or in I'. destruct I' as [I'|[K'|[]]]; [eauto|]. injection K' as <- <-. unfold sc. lra.
        * exfalso. destruct Iv as [_ ->]. rewrite Em in L. unfold sc in Bs. apply Rabs_le_inv in Bs. unfold RAND_MAX in L. lra. }
  destruct (H qs [] (int80 RAND_MAX, None) eq_refl) as (sp & Es & F & Iv); [split; [exact Fm|]; split; reflexivity|].
  match type of E with bind ?e _ = _ => replace e with (@Ok (num A * option (par A)) sp) in E by (symmetry; exact Es) end. cbn [bind] in E.
  destruct sp as [s0 [r0|]]; cbn [snd] in E, Iv; [|discriminate E]. injection E as <-. destruct Iv as (q & I & _ & M). exists q. split; auto.
Qed.
End L.

(** ** From the shown numbers back *)
Lemma shown_back : forall x : f80, is_finite (as_double x) = true -> (Rabs (B2R (as_double x)) <= 2)%R ->
  is_finite x = true /\ (Rabs (B2R x) <= 3)%R /\ (Rabs (B2R (as_double x) - B2R x) <= rd_err)%R.
Proof.
  intros x Fd Bd. assert (Fx : is_finite x = true) by (destruct x; auto; discriminate Fd). split; [exact Fx|].
  assert (Bx : (Rabs (B2R x) <= 3)%R); [|split; [exact Bx|apply as_double_close; [exact Fx|lra]]].
  assert (F64d : is_finite (to64 x) = true) by (unfold as_double in Fd; destruct (to64 x); auto; discriminate Fd).
  destruct (widen64 (to64 x) F64d) as (E2 & _). unfold as_double in Bd. rewrite E2 in Bd.
  assert (E1 : B2R (to64 x) = round radix2 (FLT_exp (-1074) 53) ZnearestE (B2R x)).
  { destruct x as [s| | |s m e B]; try discriminate; [cbn [B2R to64 conv]; symmetry; apply round_0; auto with typeclass_instances|].
    unfold to64, conv in *. pose proof (binary_normalize_correct 53 1024 prec64 emax64 mode_NE (cond_Zopp s (Zpos m)) e s) as K. cbv zeta in K.
    change (F2R {| Fnum := cond_Zopp s (Zpos m); Fexp := e |}) with (B2R (B754_finite s m e B : f80)) in K.
    change (SpecFloat.fexp 53 1024) with (FLT_exp (-1074) 53) in K. change (round_mode mode_NE) with ZnearestE in K.
    destruct (Rlt_bool _ _); [apply K|]. exfalso. set (z := binary_normalize 53 1024 _ _ _ _ _ _) in *. clearbody z. destruct z; try discriminate F64d; discriminate K. }
  rewrite E1 in Bd. pose proof (r64_err (B2R x)) as Re. set (y := round radix2 (FLT_exp (-1074) 53) ZnearestE (B2R x)) in *.
  assert (u53 : (bpow radix2 (-53) <= / 1048576)%R) by (change (/ 1048576)%R with (bpow radix2 (-20)); apply bpow_le; lia).
  assert (v53 : (bpow radix2 (-1075) <= / 1048576)%R) by (change (/ 1048576)%R with (bpow radix2 (-20)); apply bpow_le; lia).
  pose proof (Rabs_pos (B2R x)) as P. assert (Q : (bpow radix2 (-53) * Rabs (B2R x) <= / 1048576 * Rabs (B2R x))%R) by (apply Rmult_le_compat_r; auto).
  rewrite Rabs_minus_sym in Re. pose proof (abs_near _ _ _ Re). lra.
Qed.

Lemma dist2_close : forall g l g' l' d, (Rabs g <= 3)%R -> (Rabs l <= 3)%R -> (Rabs g' <= 3)%R -> (Rabs l' <= 3)%R -> (Rabs (g - g') <= d)%R -> (Rabs (l - l') <= d)%R -> (Rabs (dist2 g l - dist2 g' l') <= 14 * d)%R.
Proof.
  intros g l g' l' d B1 B2 B3 B4 Hg Hl. unfold dist2.
  replace ((g - 1) * (g - 1) + l * l - ((g' - 1) * (g' - 1) + l' * l'))%R with ((g - g') * (g + g' - 2) + (l - l') * (l + l'))%R by ring.
  eapply Rle_trans; [apply Rabs_triang|]. rewrite !Rabs_mult. apply Rabs_le_inv in B1, B2, B3, B4.
  assert (Q1 : (Rabs (g + g' - 2) <= 8)%R) by (apply Rabs_le; lra). assert (Q2 : (Rabs (l + l') <= 6)%R) by (apply Rabs_le; lra).
  assert (Rabs (g - g') * Rabs (g + g' - 2) <= d * 8)%R by (apply Rmult_le_compat; auto; apply Rabs_pos).
  assert (Rabs (l - l') * Rabs (l + l') <= d * 6)%R by (apply Rmult_le_compat; auto; apply Rabs_pos). lra.
Qed.

Definition close_pts (d : R) (x y : R * R) : Prop :=
  (Rabs (fst x - fst y) <= d /\ Rabs (snd x - snd y) <= d /\ Rabs (fst x) <= 3 /\ Rabs (snd x) <= 3 /\ Rabs (fst y) <= 3 /\ Rabs (snd y) <= 3)%R.

Lemma curve_close : forall d l l', (0 <= d)%R -> Forall2 (close_pts d) l l' ->
  (Rabs (trapezoids l - trapezoids l') <= IZR (vlen l) * (12 * d))%R /\ (variation (map fst l) <= variation (map fst l') + IZR (vlen l) * (2 * d))%R.
Proof.
  intros d l l' Hd H. induction H as [|[g0 l0] [g0' l0'] l l' C0 H IH]; [cbn; split; [rewrite Rminus_0_r, Rabs_R0; lra|lra]|].
  assert (VS : forall X (x : X) r, IZR (vlen (x :: r)) = (IZR (vlen r) + 1)%R) by (intros; unfold vlen; cbn [length]; rewrite Nat2Z.inj_succ, succ_IZR; reflexivity).
  assert (VP : (0 <= IZR (vlen l))%R) by (apply IZR_le; unfold vlen; lia).
  destruct H as [|[g1 l1] [g1' l1'] l l' C1 H].
  - cbn [map fst variation trapezoids]. rewrite VS. rewrite Rminus_0_r, Rabs_R0. split; [|]; (apply Rmult_le_pos || (rewrite Rplus_0_l; apply Rmult_le_pos)); lra.
  - rewrite VS. rewrite !trap_cons. destruct IH as [I1 I2]. destruct C0 as (A1 & A2 & A3 & A4 & A5 & A6), C1 as (B1 & B2 & B3 & B4 & B5 & B6). cbn [fst snd] in *.
    change (variation (map fst ((g0, l0) :: (g1, l1) :: l))) with (Rabs (g1 - g0) + variation (map fst ((g1, l1) :: l)))%R.
    change (variation (map fst ((g0', l0') :: (g1', l1') :: l'))) with (Rabs (g1' - g0') + variation (map fst ((g1', l1') :: l')))%R.
    apply Rabs_le_inv in A1, A2, A3, A4, A5, A6, B1, B2, B3, B4, B5, B6.
    assert (D1 : (Rabs ((g1 - g0) - (g1' - g0')) <= 2 * d)%R) by (apply Rabs_le; lra).
    assert (D2 : (Rabs ((l1 + l0) - (l1' + l0')) <= 2 * d)%R) by (apply Rabs_le; lra).
    pose proof (prod_err _ _ _ _ _ _ D1 D2) as P. pose proof (abs_near _ _ _ D1) as Nr.
    assert (Q1 : (Rabs (l1 + l0) <= 6)%R) by (apply Rabs_le; lra). assert (Q2 : (Rabs (g1' - g0') <= 6)%R) by (apply Rabs_le; lra).
    assert (P1 : (2 * d * Rabs (l1 + l0) <= 2 * d * 6)%R) by (apply Rmult_le_compat_l; lra). assert (P2 : (Rabs (g1' - g0') * (2 * d) <= 6 * (2 * d))%R) by (apply Rmult_le_compat_r; lra).
    set (T := trapezoids ((g1, l1) :: l)) in *. set (T' := trapezoids ((g1', l1') :: l')) in *. split; [|lra].
    replace ((g1 - g0) * (l1 + l0) / 2 + T - ((g1' - g0') * (l1' + l0') / 2 + T'))%R with (((g1 - g0) * (l1 + l0) - (g1' - g0') * (l1' + l0')) * / 2 + (T - T'))%R by field.
    eapply Rle_trans; [apply Rabs_triang|]. rewrite (Rabs_mult _ (/ 2)), (Rabs_pos_eq (/ 2)) by lra. lra.
Qed.

Lemma var_len : forall l, Forall (fun x => (Rabs x <= 3)%R) l -> (variation l <= 6 * IZR (vlen l))%R.
Proof.
  induction l as [|x l IH]; intro F; [cbn; lra|]. inversion F as [|? ? F0 F']; subst. specialize (IH F').
  assert (VS : IZR (vlen (x :: l)) = (IZR (vlen l) + 1)%R) by (unfold vlen; cbn [length]; rewrite Nat2Z.inj_succ, succ_IZR; reflexivity). rewrite VS.
  assert (VP : (0 <= IZR (vlen l))%R) by (apply IZR_le; unfold vlen; lia).
  destruct l as [|y l]; [cbn [variation]; lra|]. change (variation (x :: y :: l)) with (Rabs (y - x) + variation (y :: l))%R.
  inversion F' as [|? ? F1 _]; subst. apply Rabs_le_inv in F0, F1. assert (Rabs (y - x) <= 6)%R by (apply Rabs_le; lra). lra.
Qed.

(** ** From a state to what is shown *)
Section Fr.
Context (lg : f80 -> f80) {Pn Tu : Type}.
Notation A := (IA lg).
Notation ql := (quality A).
Definition shown_q (pq : f32 * ql) : f32 * (f80 * f80) := (fst pq, (as_double (gain (snd pq)), as_double (loss (snd pq)))).

Lemma sane_back : forall pq : f32 * ql, sane_row (shown_q pq) -> qual_le 3 (snd pq) /\
  (Rabs (B2R (as_double (gain (snd pq))) - B2R (gain (snd pq) : f80)) <= rd_err)%R /\ (Rabs (B2R (as_double (loss (snd pq))) - B2R (loss (snd pq) : f80)) <= rd_err)%R /\
  (Rabs (B2R (as_double (gain (snd pq)))) <= 3)%R /\ (Rabs (B2R (as_double (loss (snd pq)))) <= 3)%R.
Proof.
  intros [p [g l]] (Fg & Fl & Bg & Bl). cbn [fst snd gain loss] in *. change (num (IA lg)) with f80 in *.
  destruct (shown_back g Fg ltac:(apply Rabs_le; lra)) as (F1 & B1 & C1). destruct (shown_back l Fl ltac:(apply Rabs_le; lra)) as (F2 & B2 & C2).
  split; [split; split; auto|]. split; [exact C1|]. split; [exact C2|]. split; apply Rabs_le; lra.
Qed.

Lemma frame_auc : forall (st : @pstate A Pn Tu) (quals : list (f32 * (f80 * f80))) popt (auc : f80),
  map fst (ps_qual st) = ps_list st -> Forall unit32 (ps_list st) -> StronglySorted (plt A) (ps_list st) ->
  s_getP A st P_OPT = Ok popt -> s_auc A st = Ok auc -> quals = map shown_q (ps_qual st) -> Forall sane_row quals ->
  nearest_shown quals popt /\
  (vlen quals <= 1048576 -> within (IZR (vlen quals) * (bpow radix2 (-19) * (variation (map fst (points quals)) + 1))) auc (1 - trapezoids (points quals))).
Proof.
  intros st quals popt auc K U S Eo Ea Eq Sa. subst quals. rewrite Forall_map in Sa.
  assert (Sm : Forall (small_q lg) (ps_qual st)) by (eapply Forall_impl; [|exact Sa]; intros x Hx; apply (sane_back x Hx)).
  split.
  - destruct (popt80 lg st popt K U S Sm Eo) as (q & Iq & Mi). exists (as_double (gain q)), (as_double (loss q)).
    split; [apply in_map_iff; exists (popt, q); auto|]. intros p' g' l' I'. apply in_map_iff in I'. destruct I' as ([p1 q1] & E1 & I1). injection E1 as <- <- <-.
    specialize (Mi _ _ I1). pose proof (proj1 (Forall_forall _ _) Sa _ Iq) as Sq. pose proof (proj1 (Forall_forall _ _) Sa _ I1) as Sq1.
    destruct (sane_back _ Sq) as (Q & C1 & C2 & B1 & B2). destruct (sane_back _ Sq1) as (Q1 & C1' & C2' & B1' & B2'). cbn [snd] in *.
    destruct (score80 lg q Q) as (_ & R1 & _). destruct (score80 lg q1 Q1) as (_ & R2 & _). destruct Q as ((_ & Qg) & (_ & Qo)), Q1 as ((_ & Qg1) & (_ & Qo1)).
    pose proof (dist2_close _ _ _ _ _ B1 B2 Qg Qo C1 C2) as D1. pose proof (dist2_close _ _ _ _ _ B1' B2' Qg1 Qo1 C1' C2') as D2.
    apply Rabs_le_inv in R1, R2, D1, D2. unfold rd_err in *.
    assert (H49 : (bpow radix2 (-43) = 64 * bpow radix2 (-49))%R) by (change (-43)%Z with (6 + -49)%Z; rewrite bpow_plus; reflexivity).
    assert (H57 : (0 < bpow radix2 (-57) <= bpow radix2 (-49))%R) by (split; [apply bpow_gt_0|apply bpow_le; lia]). lra.
  - unfold vlen. rewrite map_length. fold (vlen (ps_qual st)). intro Hn. set (qs := ps_qual st) in *. set (n := vlen qs) in *.
    assert (Cl : Forall2 (close_pts rd_err) (points (map shown_q qs)) (pts80 lg qs)).
    { unfold points, pts80. rewrite map_map. clear -Sa. induction Sa as [|x l Hx _ IH]; [constructor|]. cbn [map]. constructor; [|exact IH].
      destruct (sane_back _ Hx) as (((_ & Qg) & (_ & Qo)) & C1 & C2 & B1 & B2). unfold close_pts, shown_q. cbn [fst snd]. repeat split; auto. }
    assert (Prd : (0 <= rd_err)%R) by apply bpow_ge_0.
    assert (Ln : vlen (points (map shown_q qs)) = n) by (unfold vlen, points; rewrite !map_length; reflexivity).
    assert (Cl' : Forall2 (close_pts rd_err) (pts80 lg qs) (points (map shown_q qs))).
    { clear -Cl. induction Cl as [|x y l l' (A1 & A2 & A3 & A4 & A5 & A6) _ IH]; [constructor|]. constructor; [|exact IH]. unfold close_pts. rewrite (Rabs_minus_sym (fst y)), (Rabs_minus_sym (snd y)). tauto. }
    assert (Ln' : vlen (pts80 lg qs) = n) by (unfold vlen, pts80; rewrite !map_length; reflexivity).
    destruct (curve_close _ _ _ Prd Cl) as (T1 & _). destruct (curve_close _ _ _ Prd Cl') as (_ & V1). rewrite Ln in T1. rewrite Ln' in V1.
    set (V := variation (map fst (points (map shown_q qs)))) in *. set (T := trapezoids (points (map shown_q qs))) in *.
    assert (PV : (0 <= V)%R) by apply variation_nonneg. assert (Pn0 : (0 <= IZR n <= 1048576)%R) by (split; apply IZR_le; [unfold n, vlen; apply Nat2Z.is_nonneg|exact Hn]).
    assert (r49 : (rd_err <= / 1048576 * / 1048576)%R).
    { replace (/ 1048576 * / 1048576)%R with (bpow radix2 (-20) * bpow radix2 (-20))%R by reflexivity. rewrite <- bpow_plus. apply bpow_le. lia. }
    assert (r40 : (16777216 * rd_err <= / 1048576)%R).
    { unfold rd_err. replace 16777216%R with (bpow radix2 24) by reflexivity. rewrite <- bpow_plus. replace (/ 1048576)%R with (bpow radix2 (-20)) by reflexivity. apply bpow_le. lia. }
    assert (nr : (IZR n * (2 * rd_err) <= 1048576 * (2 * rd_err))%R) by (apply Rmult_le_compat_r; lra).
    assert (VB : (variation (map fst (pts80 lg qs)) <= V + / 8)%R) by lra.
    assert (VB2 : (variation (map fst (pts80 lg qs)) <= bpow radix2 80)%R).
    { eapply Rle_trans; [apply var_len|].
      - unfold pts80. rewrite map_map. apply Forall_map. eapply Forall_impl; [|exact Sm]. intros x Hx. apply Hx.
      - assert (E0 : vlen (map fst (pts80 lg qs)) = n) by (unfold vlen, pts80; rewrite !map_length; reflexivity). rewrite E0. apply Rle_trans with (bpow radix2 30); [change (bpow radix2 30) with 1073741824%R; lra|apply bpow_le; lia]. }
    destruct (auc80 lg st _ auc K U S Sm Hn (Rle_refl _) VB2 Ea) as (Fa & Ra). fold qs in Ra. fold n in Ra. split; [exact Fa|].
    set (T' := trapezoids (pts80 lg qs)) in *. set (V' := variation (map fst (pts80 lg qs))) in *.
    replace (B2R auc - (1 - T))%R with ((B2R auc - (1 - T')) + (T - T'))%R by ring. eapply Rle_trans; [apply Rabs_triang|].
    assert (b20 : (bpow radix2 (-19) * (V + 1) = 2 * (/ 1048576 * (V + 1)))%R) by (change (bpow radix2 (-19)) with (/ 524288)%R; lra). rewrite b20.
    eapply Rle_trans; [apply Rplus_le_compat; [exact Ra|exact T1]|]. rewrite <- Rmult_plus_distr_l. apply Rmult_le_compat_l; [exact (proj1 Pn0)|]. change (bpow radix2 (-20)) with (/ 1048576)%R. clear -VB PV r40 Prd. lra.
Qed.
End Fr.
