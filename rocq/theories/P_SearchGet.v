(** * Properties C38 and C39: getP and computeAUC after a search, in exact arithmetic.

    [s_getP], [s_auc] model Partitioner::getP and Partitioner::computeAUC on the state of the object; [o_search], [h_search],
    [d_search] are computeBestPartitions (see P_Search). *)
From Coq Require Import Reals Lra Lia Sorting.Sorted.
From Verif Require Import Base BaseFacts Arith Quality Utm UtmProofs Hierarchy SpecTree SpecParts SpecInfo SpecData HierarchyFacts
  Values Qualities Partitions Partitioners Search SpecSearch SearchReal SearchGet AucData P_Ordered P_Hier P_Spatio P_OrderedData P_HierData P_SpatioData P_Search.

(** ** C38: P_MIN gives 0; P_MAX the largest listed parameter; P_OPT the listed parameter whose quality is closest to gain 1,
    loss 0, the largest of them on ties, unless every squared distance exceeds RAND_MAX; any other strategy 0. *)
Theorem C38_ordered : forall (t : utm (quality RA)) n, 0 <= n <= 65535 -> utm_shape t n ->
  forall (th : R) fuel prev (mn mx : R) st, (mn < mx)%R -> o_search RA false fuel t prev th mn mx = Ok st ->
  s_getP RA st P_MIN = Ok 0%R /\
  (exists r, s_getP RA st P_MAX = Ok r /\ In r (ps_list st) /\ forall p, In p (ps_list st) -> (p <= r)%R) /\
  (forall p q, In (p, q) (ps_qual st) -> (dist2 (gain q) (loss q) <= IZR RAND_MAX)%R ->
     exists r qr, s_getP RA st P_OPT = Ok r /\ In (r, qr) (ps_qual st) /\
       forall p' q', In (p', q') (ps_qual st) -> (dist2 (gain qr) (loss qr) < dist2 (gain q') (loss q'))%R \/
         (dist2 (gain qr) (loss qr) = dist2 (gain q') (loss q') /\ (p' <= r)%R)) /\
  ((forall p q, In (p, q) (ps_qual st) -> (IZR RAND_MAX < dist2 (gain q) (loss q))%R) -> s_getP RA st P_OPT = UB) /\
  (forall z, z <> P_MIN -> z <> P_MAX -> z <> P_OPT -> s_getP RA st z = Ok 0%R).
Proof. intros t n Hn S th fuel prev mn mx st H E.
  exact (getP_agree (o_best RA t) on_quality mn mx st (C30_ordered_real t n Hn S th fuel prev mn mx st H E)). Qed.
Print Assumptions C38_ordered.

Theorem C38_hier : forall m, well_built m -> 2 <= m_hsize m -> forall (t : list (quality RA)), vlen t = m_hsize m ->
  forall (th : R) fuel prev (mn mx : R) st, (mn < mx)%R -> h_search RA false fuel t m prev th mn mx = Ok st ->
  s_getP RA st P_MIN = Ok 0%R /\
  (exists r, s_getP RA st P_MAX = Ok r /\ In r (ps_list st) /\ forall p, In p (ps_list st) -> (p <= r)%R) /\
  (forall p q, In (p, q) (ps_qual st) -> (dist2 (gain q) (loss q) <= IZR RAND_MAX)%R ->
     exists r qr, s_getP RA st P_OPT = Ok r /\ In (r, qr) (ps_qual st) /\
       forall p' q', In (p', q') (ps_qual st) -> (dist2 (gain qr) (loss qr) < dist2 (gain q') (loss q'))%R \/
         (dist2 (gain qr) (loss qr) = dist2 (gain q') (loss q') /\ (p' <= r)%R)) /\
  ((forall p q, In (p, q) (ps_qual st) -> (IZR RAND_MAX < dist2 (gain q) (loss q))%R) -> s_getP RA st P_OPT = UB) /\
  (forall z, z <> P_MIN -> z <> P_MAX -> z <> P_OPT -> s_getP RA st z = Ok 0%R).
Proof. intros m W H2 t Ht th fuel prev mn mx st H E.
  exact (getP_agree (h_best RA t m) hn_quality mn mx st (C30_hier_real m W H2 t Ht th fuel prev mn mx st H E)). Qed.
Print Assumptions C38_hier.

Theorem C38_spatio : forall m, well_built m -> forall (t : list (utm (quality RA))) n, 1 <= n <= 65535 -> vlen t = m_hsize m -> Forall (fun u => utm_shape u n) t ->
  forall (th : R) fuel prev (mn mx : R) st, (mn < mx)%R -> d_search RA false fuel t m prev th mn mx = Ok st ->
  s_getP RA st P_MIN = Ok 0%R /\
  (exists r, s_getP RA st P_MAX = Ok r /\ In r (ps_list st) /\ forall p, In p (ps_list st) -> (p <= r)%R) /\
  (forall p q, In (p, q) (ps_qual st) -> (dist2 (gain q) (loss q) <= IZR RAND_MAX)%R ->
     exists r qr, s_getP RA st P_OPT = Ok r /\ In (r, qr) (ps_qual st) /\
       forall p' q', In (p', q') (ps_qual st) -> (dist2 (gain qr) (loss qr) < dist2 (gain q') (loss q'))%R \/
         (dist2 (gain qr) (loss qr) = dist2 (gain q') (loss q') /\ (p' <= r)%R)) /\
  ((forall p q, In (p, q) (ps_qual st) -> (IZR RAND_MAX < dist2 (gain q) (loss q))%R) -> s_getP RA st P_OPT = UB) /\
  (forall z, z <> P_MIN -> z <> P_MAX -> z <> P_OPT -> s_getP RA st z = Ok 0%R).
Proof. intros m W t n Hn Ht F th fuel prev mn mx st H E.
  exact (getP_agree (d_best RA t m) dn_quality mn mx st (C30_spatio_real m W t n Hn Ht F th fuel prev mn mx st H E)). Qed.
Print Assumptions C38_spatio.

(** Before any search, in any arithmetic: an out-of-range read and an uninitialised value. *)
Theorem C38_unsearched : forall A Pn Tu, s_getP A (ps_empty A : @pstate A Pn Tu) P_MIN = Ok (p_zero A) /\
  s_getP A (ps_empty A : @pstate A Pn Tu) P_MAX = UB /\ s_getP A (ps_empty A : @pstate A Pn Tu) P_OPT = UB.
Proof. intros A Pn Tu. destruct (getP_unsearched A Pn Tu) as (H1 & H2 & _ & H3). auto. Qed.
Print Assumptions C38_unsearched.

(** ** C39: computeAUC is 1 minus the area of the trapezoids under the listed (gain, loss) points; 1 for a single point. *)
Theorem C39_ordered : forall (t : utm (quality RA)) n, 0 <= n <= 65535 -> utm_shape t n ->
  forall (th : R) fuel prev (mn mx : R) st, (mn < mx)%R -> o_search RA false fuel t prev th mn mx = Ok st ->
  s_auc RA st = Ok (1 - trapezoids (map (fun pq => (gain (snd pq), loss (snd pq))) (ps_qual st)))%R /\
  (forall p, ps_list st = [p] -> s_auc RA st = Ok 1%R).
Proof. intros t n Hn S th fuel prev mn mx st H E.
  destruct (agree_keyed (o_best RA t) on_quality mn mx st (C30_ordered_real t n Hn S th fuel prev mn mx st H E)) as [K N].
  pose proof (auc_spec st K N) as A. split; [exact A|]. intros p Ep. rewrite A. destruct K as [K _]. change (par RA) with R in *. rewrite Ep in K.
  destruct (ps_qual st) as [|[p0 [g l]] [|? ?]]; try discriminate. simpl. f_equal. lra. Qed.
Print Assumptions C39_ordered.

Theorem C39_hier : forall m, well_built m -> 2 <= m_hsize m -> forall (t : list (quality RA)), vlen t = m_hsize m ->
  forall (th : R) fuel prev (mn mx : R) st, (mn < mx)%R -> h_search RA false fuel t m prev th mn mx = Ok st ->
  s_auc RA st = Ok (1 - trapezoids (map (fun pq => (gain (snd pq), loss (snd pq))) (ps_qual st)))%R /\
  (forall p, ps_list st = [p] -> s_auc RA st = Ok 1%R).
Proof. intros m W H2 t Ht th fuel prev mn mx st H E.
  destruct (agree_keyed (h_best RA t m) hn_quality mn mx st (C30_hier_real m W H2 t Ht th fuel prev mn mx st H E)) as [K N].
  pose proof (auc_spec st K N) as A. split; [exact A|]. intros p Ep. rewrite A. destruct K as [K _]. change (par RA) with R in *. rewrite Ep in K.
  destruct (ps_qual st) as [|[p0 [g l]] [|? ?]]; try discriminate. simpl. f_equal. lra. Qed.
Print Assumptions C39_hier.

Theorem C39_spatio : forall m, well_built m -> forall (t : list (utm (quality RA))) n, 1 <= n <= 65535 -> vlen t = m_hsize m -> Forall (fun u => utm_shape u n) t ->
  forall (th : R) fuel prev (mn mx : R) st, (mn < mx)%R -> d_search RA false fuel t m prev th mn mx = Ok st ->
  s_auc RA st = Ok (1 - trapezoids (map (fun pq => (gain (snd pq), loss (snd pq))) (ps_qual st)))%R /\
  (forall p, ps_list st = [p] -> s_auc RA st = Ok 1%R).
Proof. intros m W t n Hn Ht F th fuel prev mn mx st H E.
  destruct (agree_keyed (d_best RA t m) dn_quality mn mx st (C30_spatio_real m W t n Hn Ht F th fuel prev mn mx st H E)) as [K N].
  pose proof (auc_spec st K N) as A. split; [exact A|]. intros p Ep. rewrite A. destruct K as [K _]. change (par RA) with R in *. rewrite Ep in K.
  destruct (ps_qual st) as [|[p0 [g l]] [|? ?]]; try discriminate. simpl. f_equal. lra. Qed.
Print Assumptions C39_spatio.

(** On an empty list, in any arithmetic. *)
Theorem C39_unsearched : forall A Pn Tu, s_auc A (ps_empty A : @pstate A Pn Tu) = UB.
Proof. reflexivity. Qed.

(** From points with non-decreasing gain, all coordinates in [0,1], the area is in [0,1]. *)
Theorem C39_area : forall g0 l0 l, StronglySorted Rle (g0 :: map fst l) ->
  Forall (fun gl => (0 <= fst gl <= 1 /\ 0 <= snd gl <= 1)%R) ((g0, l0) :: l) ->
  (0 <= 1 - trapezoids ((g0, l0) :: l) <= 1)%R.
Proof. intros g0 l0 l S F. pose proof (trap_range l g0 l0 (conj S F)). inversion F as [|? ? F1 _]; subst. cbn [fst snd] in F1. lra. Qed.
Print Assumptions C39_area.

(** End to end: data, computeQualities(), normalize(), computeBestPartitions() within [0,1], computeAUC(): in [0,1]; and
    getP(P_OPT) is a listed parameter. *)
Theorem C39_ordered_data : forall (v : ovalues RA) rows o o' t (th : R) fuel prev (mn mx : R) st,
  odata_ok v rows -> Forall nonneg rows -> 1 <= ov_osize v ->
  ogain rows 0 (ov_osize v - 1) <> 0%R -> oloss rows 0 (ov_osize v - 1) <> 0%R ->
  oq_compute RA (oq_ofValues RA v) = Ok o -> oq_normalize RA o = Ok o' -> oq_table o' = Some t ->
  (0 <= mn)%R -> (mn < mx)%R -> (mx <= 1)%R -> o_search RA false fuel t prev th mn mx = Ok st ->
  (exists a, s_auc RA st = Ok a /\ (0 <= a <= 1)%R) /\ (exists r q, s_getP RA st P_OPT = Ok r /\ In (r, q) (ps_qual st)).
Proof.
  intros v rows o o' t th fuel prev mn mx st D NN Hn G0 L0 E En Et H0 H1 H3 Es.
  assert (B : 0 <= ov_osize v <= 65535) by apply D.
  pose proof (proj1 (o_best_unit v rows o o' t D NN Hn G0 L0 E En Et)) as S.
  apply (auc_agree (o_best RA t) on_quality mn mx st); auto.
  - exact (C30_ordered_real t _ B S th fuel prev mn mx st H1 Es).
  - exact (proj2 (o_best_unit v rows o o' t D NN Hn G0 L0 E En Et)).
  - intros p1 p2 x1 x2 K1 K2 K3 E1 E2. exact (proj1 (C27_ordered t _ p1 p2 x1 x2 B S K1 K2 K3 E1 E2)).
Qed.
Print Assumptions C39_ordered_data.

Theorem C39_hier_data : forall (v : hvalues RA) comps o o' t (th : R) fuel prev (mn mx : R) st,
  hdata_ok v comps -> Forall nonneg comps -> m_root (hv_meta v) = m_hsize (hv_meta v) - 1 ->
  hgain (hv_meta v) comps (m_root (hv_meta v)) <> 0%R -> hloss (hv_meta v) comps (m_root (hv_meta v)) <> 0%R ->
  hq_compute RA (hq_ofValues RA v) = Ok o -> hq_normalize RA o = Ok o' -> hq_table o' = Some t ->
  (0 <= mn)%R -> (mn < mx)%R -> (mx <= 1)%R -> h_search RA false fuel t (hv_meta v) prev th mn mx = Ok st ->
  (exists a, s_auc RA st = Ok a /\ (0 <= a <= 1)%R) /\ (exists r q, s_getP RA st P_OPT = Ok r /\ In (r, q) (ps_qual st)).
Proof.
  intros v comps o o' t th fuel prev mn mx st D NN Er G0 L0 E En Et H0 H1 H3 Es. pose proof D as (_ & W & H2 & _).
  pose proof (proj1 (h_best_unit v comps o o' t D NN Er G0 L0 E En Et)) as Ht.
  apply (auc_agree (h_best RA t (hv_meta v)) hn_quality mn mx st); auto.
  - exact (C30_hier_real _ W H2 t Ht th fuel prev mn mx st H1 Es).
  - exact (proj2 (h_best_unit v comps o o' t D NN Er G0 L0 E En Et)).
  - intros p1 p2 x1 x2 K1 K2 K3 E1 E2. exact (proj1 (C27_hier _ W H2 t p1 p2 x1 x2 Ht K1 K2 K3 E1 E2)).
Qed.
Print Assumptions C39_hier_data.

Theorem C39_spatio_data : forall (v : dvalues RA) comps o o' t (th : R) fuel prev (mn mx : R) st,
  ddata_ok v comps -> Forall (Forall nonneg) comps -> m_root (dv_meta v) = m_hsize (dv_meta v) - 1 ->
  dgain (dv_meta v) comps (m_root (dv_meta v)) 0 (dv_osize v - 1) <> 0%R -> dloss (dv_meta v) comps (m_root (dv_meta v)) 0 (dv_osize v - 1) <> 0%R ->
  dq_compute RA (dq_ofValues RA v) = Ok o -> dq_normalize RA o = Ok o' -> dq_table o' = Some t ->
  (0 <= mn)%R -> (mn < mx)%R -> (mx <= 1)%R -> d_search RA false fuel t (dv_meta v) prev th mn mx = Ok st ->
  (exists a, s_auc RA st = Ok a /\ (0 <= a <= 1)%R) /\ (exists r q, s_getP RA st P_OPT = Ok r /\ In (r, q) (ps_qual st)).
Proof.
  intros v comps o o' t th fuel prev mn mx st D NN Er G0 L0 E En Et H0 H1 H3 Es. pose proof D as (_ & Hn & W & H2 & _).
  destruct (d_best_unit v comps o o' t D NN Er G0 L0 E En Et) as (Ht & F & _).
  apply (auc_agree (d_best RA t (dv_meta v)) dn_quality mn mx st); auto.
  - exact (C30_spatio_real _ W t _ Hn Ht F th fuel prev mn mx st H1 Es).
  - exact (proj2 (proj2 (d_best_unit v comps o o' t D NN Er G0 L0 E En Et))).
  - intros p1 p2 x1 x2 K1 K2 K3 E1 E2. exact (proj1 (C27_spatio _ W t _ p1 p2 x1 x2 Hn Ht F K1 K2 K3 E1 E2)).
Qed.
Print Assumptions C39_spatio_data.
