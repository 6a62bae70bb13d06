(** * Rounding errors of normalised tables, and of the partitions computed from them. *)
From Coq Require Import ZArith Reals Lra Lia.
From Flocq Require Import Core BinarySingleNaN.
From Verif Require Import Base BaseFacts Arith Quality Ieee SpecIeee IeeeFacts SpecParts SpecInfo InfoFacts SpecNear NearFacts P_Near SpecNum NumFacts ONum SpecNorm.
Local Open Scope R_scope.
Notation eta := (b2 (-16446)).

(** One quotient. *)
Lemma quot_close : forall (x X : f80) g G e t T0, is_finite x = true -> is_finite X = true -> 0 <= e ->
  Rabs (B2R x - g) <= e * t -> Rabs (B2R X - G) <= e * T0 -> 0 <= t <= T0 -> 0 < T0 -> 0 <= g <= G -> 0 < G -> 2 * e * T0 <= G ->
  let c := 2 * e * (T0 / G) in
  is_finite (Bdiv mode_NE x X : f80) = true /\
  Rabs (B2R (Bdiv mode_NE x X : f80) - g / G) <= (c + 2 * u) * (t / T0 + g / G) + eta.
Proof.
  intros x X g G e t T0 Fx FX He Hx HX Ht HT Hg HG Hs c.
  assert (C1 : c <= 1). { unfold c, Rdiv. rewrite <- Rmult_assoc. apply Rmult_le_reg_r with G; auto. rewrite Rmult_assoc, Rinv_l by lra. lra. }
  assert (C0 : 0 <= c). { unfold c. apply Rmult_le_pos; [lra|]. apply Rmult_le_pos; [lra|]. left. apply Rinv_0_lt_compat; auto. }
  set (w := g / G). assert (W0 : 0 <= w <= 1).
  { unfold w, Rdiv. split; [apply Rmult_le_pos; [lra|left; apply Rinv_0_lt_compat; auto]|]. apply Rmult_le_reg_r with G; auto. rewrite Rmult_assoc, Rinv_l by lra. lra. }
  set (s := t / T0). assert (S0 : 0 <= s <= 1).
  { unfold s, Rdiv. split; [apply Rmult_le_pos; [lra|left; apply Rinv_0_lt_compat; auto]|]. apply Rmult_le_reg_r with T0; auto. rewrite Rmult_assoc, Rinv_l by lra. lra. }
  assert (Eg : g = w * G) by (unfold w; field; lra). assert (Et : t = s * T0) by (unfold s; field; lra).
  assert (Ec : e * T0 = c * G / 2) by (unfold c; field; lra).
  set (a := B2R x) in *. set (b := B2R X) in *.
  assert (B0 : G / 2 <= b) by (apply Rabs_le_inv in HX; lra). assert (Bp : 0 < b) by lra.
  assert (Q : Rabs (a / b - w) <= c * (s + w)).
  { replace (a / b - w) with (((a - g) - w * (b - G)) * / b) by (rewrite Eg; field; lra).
    rewrite Rabs_mult, (Rabs_pos_eq (/ b)) by (left; apply Rinv_0_lt_compat; auto).
    apply Rmult_le_reg_r with b; auto. rewrite Rmult_assoc, Rinv_l, Rmult_1_r by lra.
    apply Rle_trans with (Rabs (a - g) + w * Rabs (b - G)).
    { unfold Rminus at 1. eapply Rle_trans; [apply Rabs_triang|]. rewrite Rabs_Ropp, Rabs_mult, (Rabs_pos_eq w) by lra. lra. }
    apply Rle_trans with (e * t + w * (e * T0)).
    { apply Rplus_le_compat; auto. apply Rmult_le_compat_l; lra. }
    rewrite Et. replace (e * (s * T0) + w * (e * T0)) with ((s + w) * (e * T0)) by ring. rewrite Ec.
    replace ((s + w) * (c * G / 2)) with (c * (s + w) * (G / 2)) by field. apply Rmult_le_compat_l; [apply Rmult_le_pos; lra|auto]. }
  assert (Qb : Rabs (a / b) <= 2 * (s + w)).
  { replace (a / b) with ((a / b - w) + w) by ring. eapply Rle_trans; [apply Rabs_triang|]. rewrite (Rabs_pos_eq w) by lra.
    assert (c * (s + w) <= 1 * (s + w)) by (apply Rmult_le_compat_r; lra). lra. }
  destruct (div80 x X Fx FX) as [D1 D2].
  - fold b. lra.
  - fold a. fold b. eapply Rle_trans; [exact Qb|]. apply Rle_trans with (b2 2); [change (b2 2) with 4; lra|apply bpow_le; lia].
  - split; auto. rewrite D1. fold a. fold b. fold w. fold s. pose proof (rnd80_err (a / b)) as Er.
    replace (rnd80 (a / b) - w) with ((rnd80 (a / b) - a / b) + (a / b - w)) by ring. eapply Rle_trans; [apply Rabs_triang|].
    assert (u * Rabs (a / b) <= u * (2 * (s + w))) by (apply Rmult_le_compat_l; [apply bpow_ge_0|auto]).
    lra.
Qed.

(** The relative error is far above the unit roundoff. *)
Lemma c_above : forall E k d T0 G, (32 <= E)%Z -> (1 <= k)%Z -> 0 <= d -> 0 < T0 -> 0 < G -> G <= 3 * (T0 * IZR E) ->
  8 * u <= 2 * num_err E k d * (T0 / G).
Proof.
  intros E k d T0 G HE Hk Hd HT HG H. assert (EP : 32 <= IZR E) by (apply IZR_le; lia). assert (KP : 1 <= IZR k) by (apply IZR_le; lia).
  assert (R1 : / (3 * IZR E) <= T0 / G).
  { apply Rmult_le_reg_r with (3 * IZR E * G); [apply Rmult_lt_0_compat; lra|].
    replace (/ (3 * IZR E) * (3 * IZR E * G)) with G by (field; lra). replace (T0 / G * (3 * IZR E * G)) with (3 * (T0 * IZR E)) by (field; lra). auto. }
  assert (R2 : IZR E * (b2 (-56)) <= num_err E k d).
  { unfold num_err. apply Rmult_le_compat_l; [lra|]. pose proof (bpow_gt_0 radix2 (-56)).
    assert (1 * b2 (-56) <= IZR k * b2 (-56)) by (apply Rmult_le_compat_r; lra). lra. }
  apply Rle_trans with (2 * (IZR E * b2 (-56)) * / (3 * IZR E)).
  - replace (2 * (IZR E * b2 (-56)) * / (3 * IZR E)) with (2 / 3 * b2 (-56)) by (field; lra).
    change (-56)%Z with (8 + -64)%Z. rewrite bpow_plus. change (b2 8) with 256. pose proof u_pos. lra.
  - apply Rmult_le_compat; try lra.
    + apply Rmult_le_pos; [lra|]. apply Rmult_le_pos; [lra|apply bpow_ge_0].
    + left. apply Rinv_0_lt_compat. lra.
Qed.

Lemma num_err_nonneg : forall E k d, (0 <= E)%Z -> (0 <= k)%Z -> 0 <= d -> 0 <= num_err E k d.
Proof.
  intros E k d HE Hk Hd. unfold num_err. apply Rmult_le_pos; [apply IZR_le; auto|]. pose proof (bpow_ge_0 radix2 (-56)).
  assert (0 <= IZR k) by (apply IZR_le; auto). assert (0 <= IZR k * b2 (-56)) by (apply Rmult_le_pos; auto). lra.
Qed.

(** Values of lists with arbitrary errors per part. *)
Lemma value_close2 : forall lg (X : Type) (f : X -> quality (IA lg)) (G Lo eg el : X -> R) a b l, 0 <= a <= 1 -> 0 <= b <= 1 ->
  (forall y, In y l -> Rabs (B2R (gain (f y) : f80) - G y) <= eg y /\ Rabs (B2R (loss (f y) : f80) - Lo y) <= el y) ->
  Rabs (exact_value a b (map f l) - Rsum (fun y => a * G y - b * Lo y) l) <= Rsum eg l + Rsum el l.
Proof.
  intros lg X f G Lo eg el a b l Ha Hb H. unfold exact_value. rewrite Rsum_map. induction l as [|y l IH].
  - rewrite !Rsum_nil, Rminus_diag_eq, Rabs_R0 by auto. lra.
  - rewrite !Rsum_cons. assert (IH' := IH ltac:(intros; apply H; right; auto)). destruct (H y ltac:(left; auto)) as [W1 W2].
    set (g := B2R (gain (f y) : f80)) in *. set (o := B2R (loss (f y) : f80)) in *. set (s := Rsum (fun q : X => _) l) in *. set (s' := Rsum (fun y0 => a * G y0 - b * Lo y0) l) in *.
    replace (a * g - b * o + s - (a * G y - b * Lo y + s')) with (a * (g - G y) + - (b * (o - Lo y)) + (s - s')) by ring.
    eapply Rle_trans; [apply Rabs_triang|]. assert (Rabs (a * (g - G y) + - (b * (o - Lo y))) <= eg y + el y); [|lra].
    eapply Rle_trans; [apply Rabs_triang|]. rewrite Rabs_Ropp, !Rabs_mult, (Rabs_pos_eq a), (Rabs_pos_eq b) by lra.
    pose proof (Rabs_pos (g - G y)). pose proof (Rabs_pos (o - Lo y)).
    assert (a * Rabs (g - G y) <= 1 * Rabs (g - G y)) by (apply Rmult_le_compat_r; lra).
    assert (b * Rabs (o - Lo y) <= 1 * Rabs (o - Lo y)) by (apply Rmult_le_compat_r; lra). lra.
Qed.

Section G.
Variables (lg : f80 -> f80) (E N K : Z) (d : R).
Hypothesis HE : (32 <= E <= 8000)%Z.
Hypothesis Hd : 0 <= d <= / 1024.
Hypothesis HN : (1 <= N <= 4294967296)%Z.
Hypothesis HK : (0 <= K)%Z.
Variables (X : Type) (D : X -> Prop) (q : X -> quality (IA lg)) (G Lo T : X -> R) (r : X).
Notation e := (num_err E (N + K) d).
Hypothesis Dr : D r.
(** The table is accurate, and the exact measures of a part are non-negative and at most those of the whole [r]. *)
Hypothesis Hq : forall y, D y -> within (e * T y) (gain (q y)) (G y) /\ within (e * T y) (loss (q y)) (Lo y) /\
  0 <= T y <= T r /\ 0 <= G y <= G r /\ 0 <= Lo y <= Lo r /\ Rabs (G y) <= 3 * (T y * IZR E) /\ Rabs (Lo y) <= 3 * (T y * IZR E).
Hypothesis HG : well_above E (N + K) d (T r) (G r).
Hypothesis HLo : well_above E (N + K) d (T r) (Lo r).

Definition nq (y : X) : quality (IA lg) := @mkQ (IA lg) (n_div (IA lg) (gain (q y)) (gain (q r))) (n_div (IA lg) (loss (q y)) (loss (q r))).

Lemma T_pos : 0 < T r.
Proof.
  destruct HG as [G0 _]. destruct (Hq r Dr) as (_ & _ & Tr & _ & _ & A & _). rewrite Rabs_pos_eq in A by lra.
  destruct (Rle_lt_or_eq_dec 0 (T r) (proj1 Tr)) as [P|P]; auto. rewrite <- P in A. lra.
Qed.

Lemma e_nonneg : 0 <= e.
Proof. apply num_err_nonneg; lia || lra. Qed.

Definition eg (y : X) : R := (2 * e * (T r / G r) + 2 * u) * (T y / T r + G y / G r) + eta.
Definition el (y : X) : R := (2 * e * (T r / Lo r) + 2 * u) * (T y / T r + Lo y / Lo r) + eta.

Lemma nq_close : forall y, D y -> within (eg y) (gain (nq y)) (G y / G r) /\ within (el y) (loss (nq y)) (Lo y / Lo r).
Proof.
  intros y Hy. destruct (Hq y Hy) as ([F1 A1] & [F2 A2] & T1 & G1 & L1 & _). destruct (Hq r Dr) as ([F3 A3] & [F4 A4] & _).
  destruct HG as [P1 Q1], HLo as [P2 Q2]. unfold nq. cbn [gain loss n_div IA].
  split; (apply (quot_close _ _ _ _ e); auto; [apply e_nonneg|apply T_pos]).
Qed.

Lemma c_g : 8 * u <= 2 * e * (T r / G r).
Proof.
  apply c_above; try lia; try lra; [apply T_pos|apply HG|]. destruct (Hq r Dr) as (_ & _ & _ & G1 & _ & A & _). rewrite Rabs_pos_eq in A; lra.
Qed.
Lemma c_l : 8 * u <= 2 * e * (T r / Lo r).
Proof.
  apply c_above; try lia; try lra; [apply T_pos|apply HLo|]. destruct (Hq r Dr) as (_ & _ & _ & _ & G1 & _ & A). rewrite Rabs_pos_eq in A; lra.
Qed.

Lemma ratio01 : forall a b, 0 < b -> 0 <= a <= b -> 0 <= a / b <= 1.
Proof.
  intros a b Hb Ha. split; [apply Rmult_le_pos; [lra|left; apply Rinv_0_lt_compat; auto]|]. apply Rmult_le_reg_r with b; auto. unfold Rdiv. rewrite Rmult_assoc, Rinv_l; lra.
Qed.

Lemma eta_u : IZR N * eta <= u.
Proof.
  apply Rle_trans with (b2 32 * eta); [apply Rmult_le_compat_r; [apply bpow_ge_0|change (b2 32) with 4294967296; apply IZR_le; lia]|].
  rewrite <- bpow_plus. apply bpow_le. lia.
Qed.

(** Sum of the errors of gains (or losses) over a list of at most N parts whose totals and measures add up to at most the whole's. *)
Lemma err_sum : forall (M : X -> R) l, 0 < M r -> 8 * u <= 2 * e * (T r / M r) -> (Z.of_nat (length l) <= N)%Z -> (Rsum T l <= T r) -> (Rsum M l <= M r) ->
  Rsum (fun y => (2 * e * (T r / M r) + 2 * u) * (T y / T r + M y / M r) + eta) l <= norm_err E (N + K) d (T r) (M r).
Proof.
  intros M l P C Hl Ht Hm. unfold norm_err. set (c := 2 * e * (T r / M r)) in *. replace (6 * e * (T r / M r)) with (3 * c) by (unfold c; ring).
  pose proof T_pos as TP. pose proof u_pos.
  assert (S : Rsum (fun y => (c + 2 * u) * (T y / T r + M y / M r) + eta) l = (c + 2 * u) * (Rsum T l / T r + Rsum M l / M r) + INR (length l) * eta).
  { clear - TP P. induction l as [|y l IH]; [rewrite !Rsum_nil; unfold Rdiv; cbn [length INR]; ring|]. rewrite !Rsum_cons, IH. cbn [length]. rewrite S_INR. unfold Rdiv. ring. }
  rewrite S. rewrite INR_IZR_INZ. assert (IZR (Z.of_nat (length l)) * eta <= u).
  { eapply Rle_trans; [|exact eta_u]. apply Rmult_le_compat_r; [apply bpow_ge_0|apply IZR_le; auto]. }
  assert (R1 : forall a b, 0 < b -> a <= b -> a / b <= 1) by (intros a b Hb Ha; apply Rmult_le_reg_r with b; auto; unfold Rdiv; rewrite Rmult_assoc, Rinv_l; lra).
  pose proof (R1 _ _ TP Ht). pose proof (R1 _ _ P Hm).
  assert ((c + 2 * u) * (Rsum T l / T r + Rsum M l / M r) <= (c + 2 * u) * 2) by (apply Rmult_le_compat_l; lra). lra.
Qed.

(** One entry. *)
Lemma nq_entry : forall y, D y -> within (norm_err E (N + K) d (T r) (G r)) (gain (nq y)) (G y / G r) /\
  within (norm_err E (N + K) d (T r) (Lo r)) (loss (nq y)) (Lo y / Lo r).
Proof.
  intros y Hy. destruct (nq_close y Hy) as [[F1 W1] [F2 W2]]. destruct (Hq y Hy) as (_ & _ & T1 & G1 & L1 & _).
  split; split; auto.
  - eapply Rle_trans; [exact W1|]. pose proof (err_sum G [y] (proj1 HG) c_g ltac:(cbn; lia)) as S. rewrite !Rsum_cons, !Rsum_nil, !Rplus_0_r in S. apply S; lra.
  - eapply Rle_trans; [exact W2|]. pose proof (err_sum Lo [y] (proj1 HLo) c_l ltac:(cbn; lia)) as S. rewrite !Rsum_cons, !Rsum_nil, !Rplus_0_r in S. apply S; lra.
Qed.

Lemma norm_err_le : forall g0, well_above E (N + K) d (T r) g0 -> norm_err E (N + K) d (T r) g0 <= 3.
Proof.
  intros g0 [P H]. unfold norm_err. replace (6 * e * (T r / g0)) with (3 * (2 * e * T r * / g0)) by (field; lra).
  assert (2 * e * T r * / g0 <= 1); [|lra]. apply Rmult_le_reg_r with g0; auto. rewrite Rmult_assoc, Rinv_l; lra.
Qed.

Lemma nq_le : forall y, D y -> qual_le 4 (nq y).
Proof.
  intros y Hy. destruct (nq_entry y Hy) as [[F1 W1] [F2 W2]]. destruct (Hq y Hy) as (_ & _ & _ & G1 & L1 & _).
  pose proof (norm_err_le _ HG). pose proof (norm_err_le _ HLo).
  pose proof (ratio01 _ _ (proj1 HG) G1). pose proof (ratio01 _ _ (proj1 HLo) L1).
  split; split; auto; apply Rabs_le; apply Rabs_le_inv in W1, W2; lra.
Qed.

Lemma norm_opt : forall (p : f32) l lx, unit32 p -> (forall y, In y l \/ In y lx -> D y) ->
  (Z.of_nat (length l) <= N)%Z -> (Z.of_nat (length lx) <= N)%Z ->
  Rsum T l <= T r -> Rsum T lx <= T r -> Rsum G l <= G r -> Rsum G lx <= G r -> Rsum Lo l <= Lo r -> Rsum Lo lx <= Lo r ->
  exact_value (wgain p) (wloss p) (map nq l) <= exact_value (wgain p) (wloss p) (map nq lx) + slack N 4 ->
  Rsum (fun y => wgain p * (G y / G r) - wloss p * (Lo y / Lo r)) l <=
  Rsum (fun y => wgain p * (G y / G r) - wloss p * (Lo y / Lo r)) lx + nopt_err E N K d (T r) (G r) (Lo r).
Proof.
  intros p l lx Hp Hin L1 L2 T1 T2 G1 G2 O1 O2 Opt.
  assert (Hc : forall l', (forall y, In y l' -> D y) -> (Z.of_nat (length l') <= N)%Z -> Rsum T l' <= T r -> Rsum G l' <= G r -> Rsum Lo l' <= Lo r ->
    Rabs (exact_value (wgain p) (wloss p) (map nq l') - Rsum (fun y => wgain p * (G y / G r) - wloss p * (Lo y / Lo r)) l') <=
    norm_err E (N + K) d (T r) (G r) + norm_err E (N + K) d (T r) (Lo r)).
  { intros l' H1 H2 H3 H4 H5. destruct (C75_weights p Hp) as (_ & Rw & _).
    eapply Rle_trans; [apply (value_close2 lg X nq (fun y => G y / G r) (fun y => Lo y / Lo r) eg el)|].
    - destruct Hp as [_ Hp]. exact Hp.
    - exact Rw.
    - intros y Iy. destruct (nq_close y (H1 y Iy)) as [[_ W1] [_ W2]]. auto.
    - apply Rplus_le_compat; [apply (err_sum G)|apply (err_sum Lo)]; auto; try apply HG; try apply HLo; [apply c_g|apply c_l]. }
  pose proof (Hc l ltac:(auto) L1 T1 G1 O1) as B1. pose proof (Hc lx ltac:(auto) L2 T2 G2 O2) as B2. apply Rabs_le_inv in B1, B2.
  unfold nopt_err. assert (Sl : slack N 4 = IZR (N * N) * b2 (-57)).
  { unfold slack. change (-57)%Z with (2 + -59)%Z. rewrite bpow_plus. change (b2 2) with 4. ring. }
  rewrite Sl in Opt. lra.
Qed.

(** Exact totals. *)
Lemma norm_unit : forall (M : X -> R) (lx : list X), 0 < M r -> (forall y, In y lx -> 0 <= M y) -> Rsum M lx <= M r -> 0 <= Rsum (fun y => M y / M r) lx <= 1.
Proof.
  intros M lx P H B. assert (Es : Rsum (fun y => M y / M r) lx = Rsum M lx / M r).
  { clear H B. induction lx as [|y l IH]; [rewrite !Rsum_nil; field; lra|]. rewrite !Rsum_cons, IH. field. lra. }
  assert (0 <= Rsum M lx). { clear Es B. induction lx as [|y l IH]; [rewrite Rsum_nil; lra|]. rewrite Rsum_cons. pose proof (H y (or_introl eq_refl)). specialize (IH (fun z I => H z (or_intror I))). lra. }
  rewrite Es. split; [apply Rmult_le_pos; [auto|left; apply Rinv_0_lt_compat; auto]|]. apply Rmult_le_reg_r with (M r); auto. unfold Rdiv. rewrite Rmult_assoc, Rinv_l; lra.
Qed.

(** Reported totals. *)
Lemma norm_total : forall (lx : list X) (gx lo : f80), (forall y, In y lx -> D y) -> (Z.of_nat (length lx) <= N)%Z ->
  Rsum T lx <= T r -> Rsum G lx <= G r -> Rsum Lo lx <= Lo r ->
  is_finite gx = true /\ is_finite lo = true /\ Rabs (B2R gx - exact_gain (map nq lx)) <= slack N 4 / 4 /\ Rabs (B2R lo - exact_loss (map nq lx)) <= slack N 4 / 4 ->
  within (ntot_err E N K d (T r) (G r)) gx (Rsum (fun y => G y / G r) lx) /\ within (ntot_err E N K d (T r) (Lo r)) lo (Rsum (fun y => Lo y / Lo r) lx).
Proof.
  intros lx gx lo Hin L2 T2 G2 O2 (F1 & F2 & B1 & B2).
  assert (S : forall (f : X -> R) (M e0 : X -> R) l, (forall y, In y l -> Rabs (f y - M y) <= e0 y) -> Rabs (Rsum f l - Rsum M l) <= Rsum e0 l).
  { intros f M e0 l. induction l as [|y l IH]; intro H; [rewrite !Rsum_nil, Rminus_diag_eq, Rabs_R0 by auto; lra|].
    rewrite !Rsum_cons. replace (f y + Rsum f l - (M y + Rsum M l)) with ((f y - M y) + (Rsum f l - Rsum M l)) by ring. eapply Rle_trans; [apply Rabs_triang|].
    apply Rplus_le_compat; [apply H; left; auto|apply IH; intros; apply H; right; auto]. }
  assert (Sl : slack N 4 / 4 = IZR (N * N) * b2 (-59)) by (unfold slack; field). rewrite Sl in B1, B2.
  unfold exact_gain, exact_loss in B1, B2. rewrite Rsum_map in B1, B2.
  pose proof (S (fun y => B2R (gain (nq y) : f80)) (fun y => G y / G r) eg lx ltac:(intros y Iy; destruct (nq_close y (Hin y Iy)) as [[_ W1] _]; exact W1)) as S1.
  pose proof (S (fun y => B2R (loss (nq y) : f80)) (fun y => Lo y / Lo r) el lx ltac:(intros y Iy; destruct (nq_close y (Hin y Iy)) as [_ [_ W1]]; exact W1)) as S2.
  pose proof (err_sum G lx (proj1 HG) c_g L2 T2 G2) as Q1. pose proof (err_sum Lo lx (proj1 HLo) c_l L2 T2 O2) as Q2.
  change (Rsum eg lx <= norm_err E (N + K) d (T r) (G r)) in Q1. change (Rsum el lx <= norm_err E (N + K) d (T r) (Lo r)) in Q2.
  unfold ntot_err. split; (split; [auto|]).
  - set (a := Rsum (fun y => B2R (gain (nq y) : f80)) lx) in *. set (b := Rsum (fun y => G y / G r) lx) in *.
    change (Rabs (B2R gx - a) <= IZR (N * N) * b2 (-59)) in B1. apply Rabs_le_inv in B1, S1. apply Rabs_le. lra.
  - set (a := Rsum (fun y => B2R (loss (nq y) : f80)) lx) in *. set (b := Rsum (fun y => Lo y / Lo r) lx) in *.
    change (Rabs (B2R lo - a) <= IZR (N * N) * b2 (-59)) in B2. apply Rabs_le_inv in B2, S2. apply Rabs_le. lra.
Qed.
End G.
