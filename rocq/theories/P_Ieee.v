(** * Property C34: the parameter search with IEEE float parameters.

    [IA lg] is the code's arithmetic (Ieee.v): long double qualities, float parameters, [lg] any implementation of log.
    [o_search], [h_search], [d_search] are computeBestPartitions. *)
From Coq Require Import Reals Lra Lia.
From Flocq Require Import Core BinarySingleNaN.
From Verif Require Import Base BaseFacts Arith Quality Utm UtmProofs Hierarchy SpecTree HierarchyFacts HierarchyProofs TreeDec Partitions Partitioners Search SpecSearch
  SearchFacts SearchProofs SearchInst SearchMeasure Ieee SpecIeee IeeeFacts IeeeDiverge.

(** Every midpoint computed by the search lies strictly between its bounds. *)
Theorem C34_midpoint : forall th a b : f32, thr32 th -> unit32 a -> unit32 b -> (B2R a < B2R b)%R ->
  Bltb th (Bminus mode_NE b a) = true ->
  let m := Bplus mode_NE a (Bdiv mode_NE (Bminus mode_NE b a) (int32 2)) in
  is_finite m = true /\ (B2R a < B2R m < B2R b)%R.
Proof.
  intros th a b T Ua Ub L Wd m. pose proof Ua as [Fa _]. pose proof Ub as [Fb _].
  destruct (mid32_ok th a b T Ua Ub (proj2 (ltb32 a b Fa Fb) L) Wd) as ([Fm _] & L1 & L2 & _). split; [exact Fm|].
  split; [apply (proj1 (ltb32 _ _ Fa Fm) L1)|apply (proj1 (ltb32 _ _ Fm Fb) L2)].
Qed.
Print Assumptions C34_midpoint.

Definition meas (x : f32) : Z := Ztrunc (B2R x * bpow radix2 149).
Lemma meas_mono : forall lg (a b : f32), unit32 a -> unit32 b -> plt (IA lg) a b -> meas a < meas b.
Proof. intros lg a b [Fa _] [Fb _] H. apply F_measure; [apply b2R|apply b2R|]. apply ltb32; auto. Qed.

Lemma plt_IA : forall lg (a b : f32), unit32 a -> unit32 b -> (B2R a < B2R b)%R -> plt (IA lg) a b.
Proof. intros lg a b [Fa _] [Fb _] H. apply (proj2 (ltb32 a b Fa Fb) H). Qed.

(** The depth: the width, measured above 2^-23. *)
Definition dep (th : f32) (n : nat) (a b : f32) : Prop :=
  (B2R b - B2R a - bpow radix2 (-23) <= (B2R th - bpow radix2 (-23)) * 2 ^ n)%R.
Lemma dep0 : forall lg th a b, thr32 th -> unit32 a -> unit32 b -> plt (IA lg) a b -> dep th 0 a b -> p_ltb (IA lg) th (p_sub (IA lg) b a) = false.
Proof.
  intros lg th a b [Ft Rt] Ua Ub _ H. cbn [p_ltb p_sub IA]. destruct (minus32 a b Ua Ub) as [E F].
  destruct (Bltb th (Bminus mode_NE b a)) eqn:K; [|reflexivity]. exfalso. apply ltb32 in K; auto. rewrite E in K.
  unfold dep in H. cbn [pow] in H. assert (L : (B2R b - B2R a <= B2R th)%R) by lra. apply rnd_le in L. rewrite (rnd_F (B2R th)) in L by apply b2R. lra.
Qed.
Lemma depS : forall lg th n a b, thr32 th -> unit32 a -> unit32 b -> plt (IA lg) a b -> plt (IA lg) th (p_sub (IA lg) b a) -> dep th (S n) a b ->
  dep th n a (mid32 a b) /\ dep th n (mid32 a b) b.
Proof.
  intros lg th n a b T Ua Ub L Wd H. destruct (mid32_ok th a b T Ua Ub L Wd) as (_ & _ & _ & Em).
  pose proof T as [Ft Rt]. destruct (minus32 a b Ua Ub) as [E F]. pose proof Ua as [Fa Ra]. pose proof Ub as [Fb Rb].
  apply (proj1 (ltb32 a b Fa Fb)) in L. apply (proj1 (ltb32 _ _ Ft F)) in Wd. rewrite E in Wd.
  destruct (mid_halves (B2R a) (B2R b) (b2R a) (b2R b) ltac:(lra) L ltac:(lra) ltac:(lra)) as [K1 K2]. rewrite <- Em in K1, K2.
  unfold dep in *. cbn [pow] in H. assert (P : bpow radix2 (-23) = (2 * bpow radix2 (-24))%R) by (rewrite bp_24; cbn; field). lra.
Qed.

(** The search terminates for all float bounds in [0,1] and every threshold of at least 2^-24. *)
Theorem C34_ordered : forall lg (t : utm (quality (IA lg))) n, 0 <= n <= 65535 -> utm_shape t n ->
  forall th mn mx : f32, thr32 th -> unit32 mn -> unit32 mx -> (B2R mn < B2R mx)%R ->
  exists fuel, forall prev, exists st, o_search (IA lg) false fuel t prev th mn mx = Ok st.
Proof.
  intros lg t n Hn S th mn mx T Un Ux L. pose proof (ieee_bisectable lg th T) as B. pose proof (plt_IA lg _ _ Un Ux L) as L'.
  destruct (measure_bisect (IA lg) unit32 th B (o_best (IA lg) t) on_param (on_eqb (IA lg)) (fun p _ => o_ok (IA lg) t n Hn S p) meas (meas_mono lg) mn mx Un Ux L') as [l Hl].
  exact (search_total (IA lg) unit32 th B (o_best (IA lg) t) on_param (on_eqb (IA lg)) on_quality (o_tuples (IA lg)) (fun p _ => o_ok (IA lg) t n Hn S p) mn mx l Un Ux L' Hl).
Qed.
Print Assumptions C34_ordered.

Theorem C34_hier : forall m, well_built m -> 2 <= m_hsize m -> forall lg (t : list (quality (IA lg))), vlen t = m_hsize m ->
  forall th mn mx : f32, thr32 th -> unit32 mn -> unit32 mx -> (B2R mn < B2R mx)%R ->
  exists fuel, forall prev, exists st, h_search (IA lg) false fuel t m prev th mn mx = Ok st.
Proof.
  intros m W H2 lg t Ht th mn mx T Un Ux L. pose proof (ieee_bisectable lg th T) as B. pose proof (plt_IA lg _ _ Un Ux L) as L'.
  destruct (measure_bisect (IA lg) unit32 th B (h_best (IA lg) t m) hn_param (hn_eqb (IA lg)) (fun p _ => h_ok m W H2 (IA lg) t Ht p) meas (meas_mono lg) mn mx Un Ux L') as [l Hl].
  exact (search_total (IA lg) unit32 th B (h_best (IA lg) t m) hn_param (hn_eqb (IA lg)) hn_quality (h_tuples (IA lg)) (fun p _ => h_ok m W H2 (IA lg) t Ht p) mn mx l Un Ux L' Hl).
Qed.
Print Assumptions C34_hier.

Theorem C34_spatio : forall m, well_built m -> forall lg (t : list (utm (quality (IA lg)))) n, 1 <= n <= 65535 -> vlen t = m_hsize m -> Forall (fun u => utm_shape u n) t ->
  forall th mn mx : f32, thr32 th -> unit32 mn -> unit32 mx -> (B2R mn < B2R mx)%R ->
  exists fuel, forall prev, exists st, d_search (IA lg) false fuel t m prev th mn mx = Ok st.
Proof.
  intros m W lg t n Hn Ht F th mn mx T Un Ux L. pose proof (ieee_bisectable lg th T) as B. pose proof (plt_IA lg _ _ Un Ux L) as L'.
  destruct (measure_bisect (IA lg) unit32 th B (d_best (IA lg) t m) dn_param (dn_eqb (IA lg)) (fun p _ => d_ok m W (IA lg) t n Hn Ht F p) meas (meas_mono lg) mn mx Un Ux L') as [l Hl].
  exact (search_total (IA lg) unit32 th B (d_best (IA lg) t m) dn_param (dn_eqb (IA lg)) dn_quality (d_tuples (IA lg)) (fun p _ => d_ok m W (IA lg) t n Hn Ht F p) mn mx l Un Ux L' Hl).
Qed.
Print Assumptions C34_spatio.

(** ... and with recursion depth k+1 when (max-min-2^-23) <= (threshold-2^-23) * 2^k (e.g. 11 for threshold 0.001 on [0,1]). *)
Theorem C34_ordered_depth : forall lg (t : utm (quality (IA lg))) n, 0 <= n <= 65535 -> utm_shape t n ->
  forall (th mn mx : f32) k prev, thr32 th -> unit32 mn -> unit32 mx -> (B2R mn < B2R mx)%R ->
  (B2R mx - B2R mn - bpow radix2 (-23) <= (B2R th - bpow radix2 (-23)) * 2 ^ k)%R ->
  exists st, o_search (IA lg) false (S k) t prev th mn mx = Ok st.
Proof.
  intros lg t n Hn S th mn mx k prev T Un Ux L H.
  exact (search_depth (IA lg) unit32 th (ieee_bisectable lg th T) (o_best (IA lg) t) on_param (on_eqb (IA lg)) on_quality (o_tuples (IA lg)) (fun p _ => o_ok (IA lg) t n Hn S p)
    (dep th) (fun a b => dep0 lg th a b T) (fun n a b => depS lg th n a b T) k prev mn mx Un Ux (plt_IA lg _ _ Un Ux L) H).
Qed.
Print Assumptions C34_ordered_depth.

Theorem C34_hier_depth : forall m, well_built m -> 2 <= m_hsize m -> forall lg (t : list (quality (IA lg))), vlen t = m_hsize m ->
  forall (th mn mx : f32) k prev, thr32 th -> unit32 mn -> unit32 mx -> (B2R mn < B2R mx)%R ->
  (B2R mx - B2R mn - bpow radix2 (-23) <= (B2R th - bpow radix2 (-23)) * 2 ^ k)%R ->
  exists st, h_search (IA lg) false (S k) t m prev th mn mx = Ok st.
Proof.
  intros m W H2 lg t Ht th mn mx k prev T Un Ux L H.
  exact (search_depth (IA lg) unit32 th (ieee_bisectable lg th T) (h_best (IA lg) t m) hn_param (hn_eqb (IA lg)) hn_quality (h_tuples (IA lg)) (fun p _ => h_ok m W H2 (IA lg) t Ht p)
    (dep th) (fun a b => dep0 lg th a b T) (fun n a b => depS lg th n a b T) k prev mn mx Un Ux (plt_IA lg _ _ Un Ux L) H).
Qed.
Print Assumptions C34_hier_depth.

Theorem C34_spatio_depth : forall m, well_built m -> forall lg (t : list (utm (quality (IA lg)))) n, 1 <= n <= 65535 -> vlen t = m_hsize m -> Forall (fun u => utm_shape u n) t ->
  forall (th mn mx : f32) k prev, thr32 th -> unit32 mn -> unit32 mx -> (B2R mn < B2R mx)%R ->
  (B2R mx - B2R mn - bpow radix2 (-23) <= (B2R th - bpow radix2 (-23)) * 2 ^ k)%R ->
  exists st, d_search (IA lg) false (S k) t m prev th mn mx = Ok st.
Proof.
  intros m W lg t n Hn Ht F th mn mx k prev T Un Ux L H.
  exact (search_depth (IA lg) unit32 th (ieee_bisectable lg th T) (d_best (IA lg) t m) dn_param (dn_eqb (IA lg)) dn_quality (d_tuples (IA lg)) (fun p _ => d_ok m W (IA lg) t n Hn Ht F p)
    (dep th) (fun a b => dep0 lg th a b T) (fun n a b => depS lg th n a b T) k prev mn mx Un Ux (plt_IA lg _ _ Un Ux L) H).
Qed.
Print Assumptions C34_spatio_depth.

(** ** Below 2^-24 the search need not end.

    The whole has gain 1 and loss 1 + 2^-24, everything smaller has gain and loss 0: the best partition is the finest for
    p = 1/2 and the whole for the next float, 1/2 + 2^-24. The midpoint of these two rounds to 1/2. *)
Definition loss24 : f80 := binary_normalize 64 16384 prec80 emax80 mode_NE 16777217 (-24) false.
Definition q24 lg : quality (IA lg) := @mkQ (IA lg) (int80 1) loss24.
Lemma loss24_R : B2R loss24 = (1 + bpow radix2 (-24))%R.
Proof. unfold B2R, loss24. cbn. unfold F2R. cbn. lra. Qed.

Definition otab24 lg : utm (quality (IA lg)) := mkU 2 3 [q_zero (IA lg); q_zero (IA lg); q24 lg].

Theorem C34_ordered_diverges : forall lg, utm_shape (otab24 lg) 2 /\
  u_get (otab24 lg) 0 0 = Ok (q_zero (IA lg)) /\ u_get (otab24 lg) 1 1 = Ok (q_zero (IA lg)) /\ u_get (otab24 lg) 0 1 = Ok (q24 lg) /\
  forall th, tiny32 th -> forall strict fuel prev,
    o_search (IA lg) strict fuel (otab24 lg) prev th (B754_zero false) (int32 1) = OutOfFuel.
Proof.
  intros lg. assert (S : utm_shape (otab24 lg) 2) by (repeat split). split; [exact S|]. split; [reflexivity|]. split; [reflexivity|]. split; [reflexivity|].
  intros th T strict fuel prev. apply search_diverge; [| | |exact T].
  - apply (o_ok (IA lg) (otab24 lg) 2 ltac:(lia) S).
  - apply on_eqb_refl.
  - vm_compute. reflexivity.
Qed.
Print Assumptions C34_ordered_diverges.

Theorem C34_hier_diverges : forall lg, exists m, meta_build 2 [2; 2; -1] = Ok m /\ well_built m /\
  forall th, tiny32 th -> forall strict fuel prev,
    h_search (IA lg) strict fuel [q_zero (IA lg); q_zero (IA lg); q24 lg] m prev th (B754_zero false) (int32 1) = OutOfFuel.
Proof.
  intros lg. assert (V : valid_tree 2 [2; 2; -1] 2) by (apply valid_treeb_ok; reflexivity).
  assert (U : uniform_depth 2 [2; 2; -1] 2) by (apply (uniformb_ok 1); reflexivity).
  destruct (uniform_well_built _ _ _ V U) as (m & E & W & E1 & E2 & E3). exists m. split; [exact E|]. split; [exact W|].
  intros th T strict fuel prev. assert (Hs : m_hsize m = 3) by (rewrite (wb_hsize m W), E2; reflexivity). apply search_diverge; [| | |exact T].
  - apply (h_ok m W ltac:(lia) (IA lg)). rewrite Hs. reflexivity.
  - apply hn_eqb_refl.
  - vm_compute in E. injection E as <-. vm_compute. reflexivity.
Qed.
Print Assumptions C34_hier_diverges.

Theorem C34_spatio_diverges : forall lg, exists m, meta_build 2 [2; 2; -1] = Ok m /\ well_built m /\
  forall th, tiny32 th -> forall strict fuel prev,
    d_search (IA lg) strict fuel [u_new 1 (q_zero (IA lg)); u_new 1 (q_zero (IA lg)); u_new 1 (q24 lg)] m prev th (B754_zero false) (int32 1) = OutOfFuel.
Proof.
  intros lg. assert (V : valid_tree 2 [2; 2; -1] 2) by (apply valid_treeb_ok; reflexivity).
  assert (U : uniform_depth 2 [2; 2; -1] 2) by (apply (uniformb_ok 1); reflexivity).
  destruct (uniform_well_built _ _ _ V U) as (m & E & W & E1 & E2 & E3). exists m. split; [exact E|]. split; [exact W|].
  intros th T strict fuel prev. assert (Hs : m_hsize m = 3) by (rewrite (wb_hsize m W), E2; reflexivity). apply search_diverge; [| | |exact T].
  - apply (d_ok m W (IA lg) _ 1 ltac:(lia)); [rewrite Hs; reflexivity|repeat constructor].
  - intros x. unfold dn_eqb. rewrite Z.eqb_refl. apply forallb_forall. intros y Hy. apply existsb_exists. exists y. split; auto.
    unfold dpart_eqb. rewrite !Z.eqb_refl. reflexivity.
  - vm_compute in E. injection E as <-. vm_compute. reflexivity.
Qed.
Print Assumptions C34_spatio_diverges.

(** The hypotheses are met: 0, 1 are in range, 2^-23 and 0.001 are thresholds, 2^-26 is tiny; depth 11 for 0.001. *)
Definition f_2_26 : f32 := binary_normalize 24 128 prec32 emax32 mode_NE 1 (-26) false.
Definition f_milli : f32 := Bdiv mode_NE (int32 1) (int32 1000).
Example C34_nonvacuous : unit32 (B754_zero false) /\ unit32 (int32 1) /\ (B2R (B754_zero false : f32) < B2R (int32 1))%R /\
  thr32 f_milli /\ dep f_milli 10 (B754_zero false) (int32 1) /\ tiny32 f_2_26.
Proof.
  destruct one32_R as [E F]. change (B2R (B754_zero false : f32)) with 0%R. unfold dep. change (B2R (B754_zero false : f32)) with 0%R. unfold unit32. rewrite !E. cbn [B2R].
  assert (M : B2R f_milli = (IZR 8589935 * / IZR 8589934592)%R) by (unfold B2R, f_milli; cbn; unfold F2R; cbn; lra).
  split; [split; [reflexivity|lra]|]. split; [split; [reflexivity|lra]|]. split; [lra|].
  split; [split; [reflexivity|]; rewrite M, bp_24; lra|]. split; [rewrite M; cbn; lra|].
  split; [reflexivity|]. rewrite bp_24. unfold B2R, f_2_26. cbn. unfold F2R. cbn. lra.
Qed.
