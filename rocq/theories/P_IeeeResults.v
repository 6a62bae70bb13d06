(** * Properties C30, C31, C37 and C54 in the code's own arithmetic: long double qualities and float parameters.

    For every table of numbers (NaN and infinities included), every threshold of at least 2^-24 and every range min < max of
    floats in [0,1]: the search ends (C34), and its results satisfy the four properties. *)
From Coq Require Import Reals Lra Lia Sorting.Sorted.
From Flocq Require Import Core BinarySingleNaN.
From Verif Require Import Base BaseFacts Arith Quality Utm UtmProofs Hierarchy SpecTree SpecParts HierarchyFacts Partitions Partitioners
  Search SpecSearch SearchFacts SearchProofs SearchInst SearchGet SearchMeasure Ieee SpecIeee IeeeFacts P_Search P_Ieee.

Theorem C30_ordered_ieee : forall lg (t : utm (quality (IA lg))) n, 0 <= n <= 65535 -> utm_shape t n ->
  forall (th mn mx : f32), thr32 th -> unit32 mn -> unit32 mx -> (B2R mn < B2R mx)%R ->
  forall fuel prev st, o_search (IA lg) false fuel t prev th mn mx = Ok st ->
  results_agree (IA lg) (o_best (IA lg) t) on_quality mn mx (ps_list st) (ps_parts st) (ps_qual st).
Proof. intros lg t n Hn Sh th mn mx T Un Ux L fuel prev st E. exact (C30_ordered (IA lg) t n Hn Sh unit32 th (ieee_bisectable lg th T) fuel prev mn mx st Un Ux (plt_IA lg _ _ Un Ux L) E). Qed.
Print Assumptions C30_ordered_ieee.

Theorem C31_ordered_ieee : forall lg (t : utm (quality (IA lg))) n, 0 <= n <= 65535 -> utm_shape t n ->
  forall (th mn mx : f32), thr32 th -> unit32 mn -> unit32 mx -> (B2R mn < B2R mx)%R ->
  forall fuel prev st, o_search (IA lg) false fuel t prev th mn mx = Ok st ->
  forall p q x y, neighbours (ps_parts st) (p, x) (q, y) -> on_eqb (IA lg) x y = false.
Proof. intros lg t n Hn Sh th mn mx T Un Ux L fuel prev st E. exact (C31_ordered (IA lg) t n Hn Sh unit32 th (ieee_bisectable lg th T) fuel prev mn mx st Un Ux (plt_IA lg _ _ Un Ux L) E). Qed.
Print Assumptions C31_ordered_ieee.

Theorem C37_ordered_ieee : forall lg (t : utm (quality (IA lg))) n, 0 <= n <= 65535 -> utm_shape t n ->
  forall (th mn mx : f32), thr32 th -> unit32 mn -> unit32 mx -> (B2R mn < B2R mx)%R ->
  forall fuel prev st, o_search (IA lg) false fuel t prev th mn mx = Ok st ->
  ps_tuples st = concat (map (fun px => map (fun y => (fst px, (op_start y, op_end y, gain (op_quality y), loss (op_quality y)))) (on_parts (snd px))) (ps_parts st)).
Proof. intros lg t n Hn Sh th mn mx T Un Ux L fuel prev st E. exact (C37_ordered (IA lg) t n Hn Sh unit32 th (ieee_bisectable lg th T) fuel prev mn mx st Un Ux (plt_IA lg _ _ Un Ux L) E). Qed.
Print Assumptions C37_ordered_ieee.

Theorem C54_ordered_ieee : forall lg (t : utm (quality (IA lg))) n, 0 <= n <= 65535 -> utm_shape t n ->
  forall (th mn mx : f32), thr32 th -> unit32 mn -> unit32 mx -> (B2R mn < B2R mx)%R ->
  forall fuel prev st, o_search (IA lg) false fuel t prev th mn mx = Ok st ->
  exists l r, bisect (IA lg) (o_best (IA lg) t) (on_eqb (IA lg)) th mn mx l /\ changes (IA lg) (o_best (IA lg) t) (on_eqb (IA lg)) mn (l ++ [mx]) r /\ ps_list st = mn :: r.
Proof. intros lg t n Hn Sh th mn mx T Un Ux L fuel prev st E. exact (C54_ordered (IA lg) t n Hn Sh unit32 th (ieee_bisectable lg th T) fuel prev mn mx st Un Ux (plt_IA lg _ _ Un Ux L) E). Qed.
Print Assumptions C54_ordered_ieee.

Theorem C30_hier_ieee : forall m, well_built m -> 2 <= m_hsize m -> forall lg (t : list (quality (IA lg))), vlen t = m_hsize m ->
  forall (th mn mx : f32), thr32 th -> unit32 mn -> unit32 mx -> (B2R mn < B2R mx)%R ->
  forall fuel prev st, h_search (IA lg) false fuel t m prev th mn mx = Ok st ->
  results_agree (IA lg) (h_best (IA lg) t m) hn_quality mn mx (ps_list st) (ps_parts st) (ps_qual st).
Proof. intros m W H2 lg t Ht th mn mx T Un Ux L fuel prev st E. exact (C30_hier m W H2 (IA lg) t Ht unit32 th (ieee_bisectable lg th T) fuel prev mn mx st Un Ux (plt_IA lg _ _ Un Ux L) E). Qed.
Print Assumptions C30_hier_ieee.

Theorem C31_hier_ieee : forall m, well_built m -> 2 <= m_hsize m -> forall lg (t : list (quality (IA lg))), vlen t = m_hsize m ->
  forall (th mn mx : f32), thr32 th -> unit32 mn -> unit32 mx -> (B2R mn < B2R mx)%R ->
  forall fuel prev st, h_search (IA lg) false fuel t m prev th mn mx = Ok st ->
  forall p q x y, neighbours (ps_parts st) (p, x) (q, y) -> hn_eqb (IA lg) x y = false.
Proof. intros m W H2 lg t Ht th mn mx T Un Ux L fuel prev st E. exact (C31_hier m W H2 (IA lg) t Ht unit32 th (ieee_bisectable lg th T) fuel prev mn mx st Un Ux (plt_IA lg _ _ Un Ux L) E). Qed.
Print Assumptions C31_hier_ieee.

Theorem C37_hier_ieee : forall m, well_built m -> 2 <= m_hsize m -> forall lg (t : list (quality (IA lg))), vlen t = m_hsize m ->
  forall (th mn mx : f32), thr32 th -> unit32 mn -> unit32 mx -> (B2R mn < B2R mx)%R ->
  forall fuel prev st, h_search (IA lg) false fuel t m prev th mn mx = Ok st ->
  ps_tuples st = concat (map (fun px => map (fun y => (fst px, (hp_h y, hp_size y, gain (hp_quality y), loss (hp_quality y)))) (hn_parts (snd px))) (ps_parts st)).
Proof. intros m W H2 lg t Ht th mn mx T Un Ux L fuel prev st E. exact (C37_hier m W H2 (IA lg) t Ht unit32 th (ieee_bisectable lg th T) fuel prev mn mx st Un Ux (plt_IA lg _ _ Un Ux L) E). Qed.
Print Assumptions C37_hier_ieee.

Theorem C54_hier_ieee : forall m, well_built m -> 2 <= m_hsize m -> forall lg (t : list (quality (IA lg))), vlen t = m_hsize m ->
  forall (th mn mx : f32), thr32 th -> unit32 mn -> unit32 mx -> (B2R mn < B2R mx)%R ->
  forall fuel prev st, h_search (IA lg) false fuel t m prev th mn mx = Ok st ->
  exists l r, bisect (IA lg) (h_best (IA lg) t m) (hn_eqb (IA lg)) th mn mx l /\ changes (IA lg) (h_best (IA lg) t m) (hn_eqb (IA lg)) mn (l ++ [mx]) r /\ ps_list st = mn :: r.
Proof. intros m W H2 lg t Ht th mn mx T Un Ux L fuel prev st E. exact (C54_hier m W H2 (IA lg) t Ht unit32 th (ieee_bisectable lg th T) fuel prev mn mx st Un Ux (plt_IA lg _ _ Un Ux L) E). Qed.
Print Assumptions C54_hier_ieee.

Theorem C30_spatio_ieee : forall m, well_built m -> forall lg (t : list (utm (quality (IA lg)))) n, 1 <= n <= 65535 -> vlen t = m_hsize m -> Forall (fun u => utm_shape u n) t ->
  forall (th mn mx : f32), thr32 th -> unit32 mn -> unit32 mx -> (B2R mn < B2R mx)%R ->
  forall fuel prev st, d_search (IA lg) false fuel t m prev th mn mx = Ok st ->
  results_agree (IA lg) (d_best (IA lg) t m) dn_quality mn mx (ps_list st) (ps_parts st) (ps_qual st).
Proof. intros m W lg t n Hn Ht F th mn mx T Un Ux L fuel prev st E. exact (C30_spatio m W (IA lg) t n Hn Ht F unit32 th (ieee_bisectable lg th T) fuel prev mn mx st Un Ux (plt_IA lg _ _ Un Ux L) E). Qed.
Print Assumptions C30_spatio_ieee.

Theorem C31_spatio_ieee : forall m, well_built m -> forall lg (t : list (utm (quality (IA lg)))) n, 1 <= n <= 65535 -> vlen t = m_hsize m -> Forall (fun u => utm_shape u n) t ->
  forall (th mn mx : f32), thr32 th -> unit32 mn -> unit32 mx -> (B2R mn < B2R mx)%R ->
  forall fuel prev st, d_search (IA lg) false fuel t m prev th mn mx = Ok st ->
  forall p q x y, neighbours (ps_parts st) (p, x) (q, y) -> dn_eqb (IA lg) x y = false.
Proof. intros m W lg t n Hn Ht F th mn mx T Un Ux L fuel prev st E. exact (C31_spatio m W (IA lg) t n Hn Ht F unit32 th (ieee_bisectable lg th T) fuel prev mn mx st Un Ux (plt_IA lg _ _ Un Ux L) E). Qed.
Print Assumptions C31_spatio_ieee.

Theorem C37_spatio_ieee : forall m, well_built m -> forall lg (t : list (utm (quality (IA lg)))) n, 1 <= n <= 65535 -> vlen t = m_hsize m -> Forall (fun u => utm_shape u n) t ->
  forall (th mn mx : f32), thr32 th -> unit32 mn -> unit32 mx -> (B2R mn < B2R mx)%R ->
  forall fuel prev st, d_search (IA lg) false fuel t m prev th mn mx = Ok st ->
  ps_tuples st = concat (map (fun px => map (fun y => (fst px, (dp_h y, dp_size y, dp_start y, dp_end y, gain (dp_quality y), loss (dp_quality y)))) (dn_parts (snd px))) (ps_parts st)).
Proof. intros m W lg t n Hn Ht F th mn mx T Un Ux L fuel prev st E. exact (C37_spatio m W (IA lg) t n Hn Ht F unit32 th (ieee_bisectable lg th T) fuel prev mn mx st Un Ux (plt_IA lg _ _ Un Ux L) E). Qed.
Print Assumptions C37_spatio_ieee.

Theorem C54_spatio_ieee : forall m, well_built m -> forall lg (t : list (utm (quality (IA lg)))) n, 1 <= n <= 65535 -> vlen t = m_hsize m -> Forall (fun u => utm_shape u n) t ->
  forall (th mn mx : f32), thr32 th -> unit32 mn -> unit32 mx -> (B2R mn < B2R mx)%R ->
  forall fuel prev st, d_search (IA lg) false fuel t m prev th mn mx = Ok st ->
  exists l r, bisect (IA lg) (d_best (IA lg) t m) (dn_eqb (IA lg)) th mn mx l /\ changes (IA lg) (d_best (IA lg) t m) (dn_eqb (IA lg)) mn (l ++ [mx]) r /\ ps_list st = mn :: r.
Proof. intros m W lg t n Hn Ht F th mn mx T Un Ux L fuel prev st E. exact (C54_spatio m W (IA lg) t n Hn Ht F unit32 th (ieee_bisectable lg th T) fuel prev mn mx st Un Ux (plt_IA lg _ _ Un Ux L) E). Qed.
Print Assumptions C54_spatio_ieee.

(** The hypotheses are met: threshold 1/4 on [0,1], the table [otab24] of P_Ieee.v. *)
Definition quarter32 : f32 := binary_normalize 24 128 prec32 emax32 mode_NE 1 (-2) false.
Lemma quarter32_R : B2R quarter32 = (1 / 4)%R.
Proof. unfold B2R, quarter32. cbn. unfold F2R. cbn. lra. Qed.
Example C30_ieee_nonvacuous : forall lg, thr32 quarter32 /\ unit32 (int32 0) /\ unit32 (int32 1) /\ (B2R (int32 0) < B2R (int32 1))%R /\
  exists fuel st, o_search (IA lg) false fuel (otab24 lg) (ps_empty (IA lg)) quarter32 (int32 0) (int32 1) = Ok st.
Proof.
  intro lg. destruct one32_R as [R1 F1]. assert (R0 : B2R (int32 0) = 0%R) by reflexivity.
  assert (T : thr32 quarter32). { split; [reflexivity|]. rewrite quarter32_R. change (1 / 4)%R with (1 * / 4)%R. replace (1 * / 4)%R with (bpow radix2 (-2)) by (cbn; lra). apply bpow_le. lia. }
  assert (U0 : unit32 (int32 0)) by (split; [reflexivity|rewrite R0; lra]). assert (U1 : unit32 (int32 1)) by (split; [exact F1|rewrite R1; lra]).
  assert (L : (B2R (int32 0) < B2R (int32 1))%R) by (rewrite R0, R1; lra). repeat (split; [assumption|]).
  destruct (C34_ordered lg (otab24 lg) 2 ltac:(lia) (proj1 (C34_ordered_diverges lg)) quarter32 (int32 0) (int32 1) T U0 U1 L) as [fuel K]. exists fuel. apply K.
Qed.
