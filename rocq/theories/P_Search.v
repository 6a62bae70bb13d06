(** * Properties C30 to C38 and C52: the parameter search of the three partitioners.

    [o_search A strict fuel t prev th mn mx] is OPartitioner::computeBestPartitions(th, mn, mx) on the table [t], from the
    state [prev] of the object; [fuel] bounds the recursion of the bisection; [strict] says whether using an iterator
    invalidated by vector::erase is undefined behaviour (as the C++ rules say) or denotes the same index (as it does with
    pointer-like iterators). [h_search], [d_search] likewise.
    [ps_list], [ps_parts], [ps_tuples], [ps_qual] are getPList(), getPartitions(), getPartitionsTuples(), getQualityList(). *)
From Coq Require Import Reals Lra Lia Sorting.Sorted.
From Verif Require Import Base BaseFacts Arith Quality Utm UtmProofs Hierarchy SpecTree SpecParts HierarchyFacts Partitions Partitioners
  Search SpecSearch SearchFacts SearchProofs SearchReal SearchInst SearchGet.

(** ** C30: the result lists agree. Any arithmetic whose parameters can be bisected. *)
Theorem C30_ordered : forall A (t : utm (quality A)) n, 0 <= n <= 65535 -> utm_shape t n ->
  forall D th, bisectable A D th -> forall fuel prev mn mx st, D mn -> D mx -> plt A mn mx ->
  o_search A false fuel t prev th mn mx = Ok st ->
  results_agree A (o_best A t) on_quality mn mx (ps_list st) (ps_parts st) (ps_qual st).
Proof. intros A t n Hn S D th B fuel prev mn mx st. exact (search_agree A D th B (o_best A t) on_param (on_eqb A) on_quality (o_tuples A) (fun p _ => (o_ok A t n Hn S) p) fuel prev mn mx st). Qed.
Print Assumptions C30_ordered.

Theorem C30_ordered_real : forall (t : utm (quality RA)) n, 0 <= n <= 65535 -> utm_shape t n ->
  forall (th : R) fuel prev (mn mx : R) st, (mn < mx)%R -> o_search RA false fuel t prev th mn mx = Ok st ->
  results_agree RA (o_best RA t) on_quality mn mx (ps_list st) (ps_parts st) (ps_qual st).
Proof. intros t n Hn S th fuel prev mn mx st H. exact (C30_ordered RA t n Hn S (fun _ => True) th (real_bisectable th) fuel prev mn mx st I I (proj2 (plt_RA mn mx) H)). Qed.
Print Assumptions C30_ordered_real.

Theorem C30_hier : forall m, well_built m -> 2 <= m_hsize m -> forall A (t : list (quality A)), vlen t = m_hsize m ->
  forall D th, bisectable A D th -> forall fuel prev mn mx st, D mn -> D mx -> plt A mn mx ->
  h_search A false fuel t m prev th mn mx = Ok st ->
  results_agree A (h_best A t m) hn_quality mn mx (ps_list st) (ps_parts st) (ps_qual st).
Proof. intros m W H2 A t Ht D th B fuel prev mn mx st. exact (search_agree A D th B (h_best A t m) hn_param (hn_eqb A) hn_quality (h_tuples A) (fun p _ => (h_ok m W H2 A t Ht) p) fuel prev mn mx st). Qed.
Print Assumptions C30_hier.

Theorem C30_hier_real : forall m, well_built m -> 2 <= m_hsize m -> forall (t : list (quality RA)), vlen t = m_hsize m ->
  forall (th : R) fuel prev (mn mx : R) st, (mn < mx)%R -> h_search RA false fuel t m prev th mn mx = Ok st ->
  results_agree RA (h_best RA t m) hn_quality mn mx (ps_list st) (ps_parts st) (ps_qual st).
Proof. intros m W H2 t Ht th fuel prev mn mx st H. exact (C30_hier m W H2 RA t Ht (fun _ => True) th (real_bisectable th) fuel prev mn mx st I I (proj2 (plt_RA mn mx) H)). Qed.
Print Assumptions C30_hier_real.

Theorem C30_spatio : forall m, well_built m -> forall A (t : list (utm (quality A))) n, 1 <= n <= 65535 -> vlen t = m_hsize m -> Forall (fun u => utm_shape u n) t ->
  forall D th, bisectable A D th -> forall fuel prev mn mx st, D mn -> D mx -> plt A mn mx ->
  d_search A false fuel t m prev th mn mx = Ok st ->
  results_agree A (d_best A t m) dn_quality mn mx (ps_list st) (ps_parts st) (ps_qual st).
Proof. intros m W A t n Hn Ht F D th B fuel prev mn mx st. exact (search_agree A D th B (d_best A t m) dn_param (dn_eqb A) dn_quality (d_tuples A) (fun p _ => (d_ok m W A t n Hn Ht F) p) fuel prev mn mx st). Qed.
Print Assumptions C30_spatio.

Theorem C30_spatio_real : forall m, well_built m -> forall (t : list (utm (quality RA))) n, 1 <= n <= 65535 -> vlen t = m_hsize m -> Forall (fun u => utm_shape u n) t ->
  forall (th : R) fuel prev (mn mx : R) st, (mn < mx)%R -> d_search RA false fuel t m prev th mn mx = Ok st ->
  results_agree RA (d_best RA t m) dn_quality mn mx (ps_list st) (ps_parts st) (ps_qual st).
Proof. intros m W t n Hn Ht F th fuel prev mn mx st H. exact (C30_spatio m W RA t n Hn Ht F (fun _ => True) th (real_bisectable th) fuel prev mn mx st I I (proj2 (plt_RA mn mx) H)). Qed.
Print Assumptions C30_spatio_real.

(** ** C31: consecutive results differ. *)
Theorem C31_ordered : forall A (t : utm (quality A)) n, 0 <= n <= 65535 -> utm_shape t n ->
  forall D th, bisectable A D th -> forall fuel prev mn mx st, D mn -> D mx -> plt A mn mx ->
  o_search A false fuel t prev th mn mx = Ok st ->
  forall p q x y, neighbours (ps_parts st) (p, x) (q, y) -> on_eqb A x y = false.
Proof. intros A t n Hn S D th B fuel prev mn mx st.
  exact (search_differ A D th B (o_best A t) on_param (on_eqb A) on_quality (o_tuples A) (fun p _ => (o_ok A t n Hn S) p)
    (fun _ => True) (fun _ _ _ _ => I) (fun x y _ _ => on_eqb_sym A x y) (fun x y z _ _ _ => on_eqb_trans A x y z) fuel prev mn mx st). Qed.
Print Assumptions C31_ordered.

Theorem C31_hier : forall m, well_built m -> 2 <= m_hsize m -> forall A (t : list (quality A)), vlen t = m_hsize m ->
  forall D th, bisectable A D th -> forall fuel prev mn mx st, D mn -> D mx -> plt A mn mx ->
  h_search A false fuel t m prev th mn mx = Ok st ->
  forall p q x y, neighbours (ps_parts st) (p, x) (q, y) -> hn_eqb A x y = false.
Proof. intros m W H2 A t Ht D th B fuel prev mn mx st.
  exact (search_differ A D th B (h_best A t m) hn_param (hn_eqb A) hn_quality (h_tuples A) (fun p _ => (h_ok m W H2 A t Ht) p)
    (fun _ => True) (fun _ _ _ _ => I) (fun x y _ _ => hn_eqb_sym A x y) (fun x y z _ _ _ => hn_eqb_trans A x y z) fuel prev mn mx st). Qed.
Print Assumptions C31_hier.

Theorem C31_spatio : forall m, well_built m -> forall A (t : list (utm (quality A))) n, 1 <= n <= 65535 -> vlen t = m_hsize m -> Forall (fun u => utm_shape u n) t ->
  forall D th, bisectable A D th -> forall fuel prev mn mx st, D mn -> D mx -> plt A mn mx ->
  d_search A false fuel t m prev th mn mx = Ok st ->
  forall p q x y, neighbours (ps_parts st) (p, x) (q, y) -> dn_eqb A x y = false.
Proof. intros m W A t n Hn Ht F D th B fuel prev mn mx st.
  exact (search_differ A D th B (d_best A t m) dn_param (dn_eqb A) dn_quality (d_tuples A) (fun p _ => (d_ok m W A t n Hn Ht F) p)
    nodup (fun p x _ => d_nodup m W A t n Hn Ht F p x) (dn_eqb_sym A) (dn_eqb_trans A) fuel prev mn mx st). Qed.
Print Assumptions C31_spatio.

(** ** C32: resolution, in exact arithmetic. [q] is the largest listed parameter not above [p], and [p] is more than the
    threshold below every larger listed parameter. *)
Theorem C32_ordered : forall (t : utm (quality RA)) n, 0 <= n <= 65535 -> utm_shape t n ->
  forall (th : R) fuel prev (mn mx : R) st, (0 <= mn)%R -> (mn < mx)%R -> (mx <= 1)%R -> o_search RA false fuel t prev th mn mx = Ok st ->
  forall (p q : R) x y, (mn <= p <= mx)%R -> In q (ps_list st) -> (q <= p)%R ->
  (forall q', In q' (ps_list st) -> (q' <= p)%R -> (q' <= q)%R) ->
  (forall q', In q' (ps_list st) -> (p < q')%R -> (p < q' - th)%R) ->
  o_best RA t p = Ok x -> In (q, y) (ps_parts st) -> on_eqb RA x y = true.
Proof. intros t n Hn S th fuel prev mn mx st H0 H1 H3 E p q x y [Hp1 Hp2] Iq Lq Mx Fa Ex Iy.
  destruct (C30_ordered_real t n Hn S th fuel prev mn mx st H1 E) as (_ & _ & _ & _ & _ & K & _).
  eapply (search_resolution (o_best RA t) on_param (on_eqb RA) on_quality (o_tuples RA) (o_ok RA t n Hn S) (fun _ => True) (fun _ _ _ => I)
    (fun x y z _ _ _ => on_eqb_trans RA x y z) (fun x y _ _ => on_eqb_sym RA x y) in01 (o_between_R t n Hn S) (fun x _ => on_eqb_refl RA x) th mn mx fuel prev st H1); eauto.
  intros r Hr1 Hr2; split; lra. Qed.
Print Assumptions C32_ordered.

Theorem C32_hier : forall m, well_built m -> 2 <= m_hsize m -> forall (t : list (quality RA)), vlen t = m_hsize m ->
  forall (th : R) fuel prev (mn mx : R) st, (0 <= mn)%R -> (mn < mx)%R -> (mx <= 1)%R -> h_search RA false fuel t m prev th mn mx = Ok st ->
  forall (p q : R) x y, (mn <= p <= mx)%R -> In q (ps_list st) -> (q <= p)%R ->
  (forall q', In q' (ps_list st) -> (q' <= p)%R -> (q' <= q)%R) ->
  (forall q', In q' (ps_list st) -> (p < q')%R -> (p < q' - th)%R) ->
  h_best RA t m p = Ok x -> In (q, y) (ps_parts st) -> hn_eqb RA x y = true.
Proof. intros m W H2 t Ht th fuel prev mn mx st H0 H1 H3 E p q x y [Hp1 Hp2] Iq Lq Mx Fa Ex Iy.
  destruct (C30_hier_real m W H2 t Ht th fuel prev mn mx st H1 E) as (_ & _ & _ & _ & _ & K & _).
  eapply (search_resolution (h_best RA t m) hn_param (hn_eqb RA) hn_quality (h_tuples RA) (h_ok m W H2 RA t Ht) (fun _ => True) (fun _ _ _ => I)
    (fun x y z _ _ _ => hn_eqb_trans RA x y z) (fun x y _ _ => hn_eqb_sym RA x y) in01 (h_between_R m W H2 t Ht) (fun x _ => hn_eqb_refl RA x) th mn mx fuel prev st H1); eauto.
  intros r Hr1 Hr2; split; lra. Qed.
Print Assumptions C32_hier.

Theorem C32_spatio : forall m, well_built m -> forall (t : list (utm (quality RA))) n, 1 <= n <= 65535 -> vlen t = m_hsize m -> Forall (fun u => utm_shape u n) t ->
  forall (th : R) fuel prev (mn mx : R) st, (0 <= mn)%R -> (mn < mx)%R -> (mx <= 1)%R -> d_search RA false fuel t m prev th mn mx = Ok st ->
  forall (p q : R) x y, (mn <= p <= mx)%R -> In q (ps_list st) -> (q <= p)%R ->
  (forall q', In q' (ps_list st) -> (q' <= p)%R -> (q' <= q)%R) ->
  (forall q', In q' (ps_list st) -> (p < q')%R -> (p < q' - th)%R) ->
  d_best RA t m p = Ok x -> In (q, y) (ps_parts st) -> dn_eqb RA x y = true.
Proof. intros m W t n Hn Ht F th fuel prev mn mx st H0 H1 H3 E p q x y [Hp1 Hp2] Iq Lq Mx Fa Ex Iy.
  destruct (C30_spatio_real m W t n Hn Ht F th fuel prev mn mx st H1 E) as (_ & _ & _ & _ & _ & K & _).
  eapply (search_resolution (d_best RA t m) dn_param (dn_eqb RA) dn_quality (d_tuples RA) (d_ok m W RA t n Hn Ht F) nodup (d_nodup m W RA t n Hn Ht F)
    (dn_eqb_trans RA) (dn_eqb_sym RA) in01 (d_between_R m W t n Hn Ht F) (dn_eqb_refl RA) th mn mx fuel prev st H1); eauto.
  intros r Hr1 Hr2; split; lra. Qed.
Print Assumptions C32_spatio.

(** ** C33: termination in exact arithmetic with depth n+1 when (max-min)/threshold <= 2^n; no termination with a threshold
    <= 0 and different partitions at the ends. *)
Theorem C33_ordered : forall (t : utm (quality RA)) n, 0 <= n <= 65535 -> utm_shape t n ->
  forall (th mn mx : R) k prev, (mn < mx)%R -> (mx - mn <= th * 2 ^ k)%R -> exists st, o_search RA false (S k) t prev th mn mx = Ok st.
Proof. intros t n Hn S th mn mx k prev. exact (search_terminates (o_best RA t) on_param (on_eqb RA) on_quality (o_tuples RA) (o_ok RA t n Hn S) th mn mx k prev). Qed.
Print Assumptions C33_ordered.

Theorem C33_ordered_diverges : forall (t : utm (quality RA)) n, 0 <= n <= 65535 -> utm_shape t n ->
  forall (th mn mx : R) x y, (th <= 0)%R -> (mn < mx)%R -> o_best RA t mn = Ok x -> o_best RA t mx = Ok y -> on_eqb RA x y = false ->
  forall strict fuel prev, o_search RA strict fuel t prev th mn mx = OutOfFuel.
Proof. intros t n Hn S th mn mx x y H1 H3 Ex Ey E strict fuel prev.
  exact (search_diverges (o_best RA t) on_param (on_eqb RA) on_quality (o_tuples RA) (o_ok RA t n Hn S) (fun _ => True) (fun _ _ _ => I) (fun x y z _ _ _ => on_eqb_trans RA x y z) th mn mx fuel prev x y strict H1 H3 Ex Ey E). Qed.
Print Assumptions C33_ordered_diverges.

Theorem C33_hier : forall m, well_built m -> 2 <= m_hsize m -> forall (t : list (quality RA)), vlen t = m_hsize m ->
  forall (th mn mx : R) k prev, (mn < mx)%R -> (mx - mn <= th * 2 ^ k)%R -> exists st, h_search RA false (S k) t m prev th mn mx = Ok st.
Proof. intros m W H2 t Ht th mn mx k prev. exact (search_terminates (h_best RA t m) hn_param (hn_eqb RA) hn_quality (h_tuples RA) (h_ok m W H2 RA t Ht) th mn mx k prev). Qed.
Print Assumptions C33_hier.

Theorem C33_hier_diverges : forall m, well_built m -> 2 <= m_hsize m -> forall (t : list (quality RA)), vlen t = m_hsize m ->
  forall (th mn mx : R) x y, (th <= 0)%R -> (mn < mx)%R -> h_best RA t m mn = Ok x -> h_best RA t m mx = Ok y -> hn_eqb RA x y = false ->
  forall strict fuel prev, h_search RA strict fuel t m prev th mn mx = OutOfFuel.
Proof. intros m W H2 t Ht th mn mx x y H1 H3 Ex Ey E strict fuel prev.
  exact (search_diverges (h_best RA t m) hn_param (hn_eqb RA) hn_quality (h_tuples RA) (h_ok m W H2 RA t Ht) (fun _ => True) (fun _ _ _ => I) (fun x y z _ _ _ => hn_eqb_trans RA x y z) th mn mx fuel prev x y strict H1 H3 Ex Ey E). Qed.
Print Assumptions C33_hier_diverges.

Theorem C33_spatio : forall m, well_built m -> forall (t : list (utm (quality RA))) n, 1 <= n <= 65535 -> vlen t = m_hsize m -> Forall (fun u => utm_shape u n) t ->
  forall (th mn mx : R) k prev, (mn < mx)%R -> (mx - mn <= th * 2 ^ k)%R -> exists st, d_search RA false (S k) t m prev th mn mx = Ok st.
Proof. intros m W t n Hn Ht F th mn mx k prev. exact (search_terminates (d_best RA t m) dn_param (dn_eqb RA) dn_quality (d_tuples RA) (d_ok m W RA t n Hn Ht F) th mn mx k prev). Qed.
Print Assumptions C33_spatio.

Theorem C33_spatio_diverges : forall m, well_built m -> forall (t : list (utm (quality RA))) n, 1 <= n <= 65535 -> vlen t = m_hsize m -> Forall (fun u => utm_shape u n) t ->
  forall (th mn mx : R) x y, (th <= 0)%R -> (mn < mx)%R -> d_best RA t m mn = Ok x -> d_best RA t m mx = Ok y -> dn_eqb RA x y = false ->
  forall strict fuel prev, d_search RA strict fuel t m prev th mn mx = OutOfFuel.
Proof. intros m W t n Hn Ht F th mn mx x y H1 H3 Ex Ey E strict fuel prev.
  exact (search_diverges (d_best RA t m) dn_param (dn_eqb RA) dn_quality (d_tuples RA) (d_ok m W RA t n Hn Ht F) nodup (d_nodup m W RA t n Hn Ht F) (dn_eqb_trans RA) th mn mx fuel prev x y strict H1 H3 Ex Ey E). Qed.
Print Assumptions C33_spatio_diverges.

(** ** C35: min = max. *)
Theorem C35_ordered : forall A (t : utm (quality A)) n, 0 <= n <= 65535 -> utm_shape t n ->
  forall fuel prev th p, p_ltb A p p = false -> exists st, o_search A false (S fuel) t prev th p p = Ok st /\
    ps_list st = [p] /\ ps_parts st = [] /\ ps_tuples st = [] /\ ps_qual st = [] /\ s_getP A st P_OPT = UB.
Proof. intros A t n Hn S fuel prev th p Hp. destruct (o_ok A t n Hn S p) as (x & E & _).
  destruct (search_degenerate A _ _ (o_best A t) on_param (on_eqb A) on_quality (o_tuples A) fuel prev th p x Hp E (on_eqb_refl A x)) as [K _].
  eexists. split; [exact K|]. repeat split. Qed.
Print Assumptions C35_ordered.

Theorem C35_hier : forall m, well_built m -> 2 <= m_hsize m -> forall A (t : list (quality A)), vlen t = m_hsize m ->
  forall fuel prev th p, p_ltb A p p = false -> exists st, h_search A false (S fuel) t m prev th p p = Ok st /\
    ps_list st = [p] /\ ps_parts st = [] /\ ps_tuples st = [] /\ ps_qual st = [] /\ s_getP A st P_OPT = UB.
Proof. intros m W H2 A t Ht fuel prev th p Hp. destruct (h_ok m W H2 A t Ht p) as (x & E & _).
  destruct (search_degenerate A _ _ (h_best A t m) hn_param (hn_eqb A) hn_quality (h_tuples A) fuel prev th p x Hp E (hn_eqb_refl A x)) as [K _].
  eexists. split; [exact K|]. repeat split. Qed.
Print Assumptions C35_hier.

Theorem C35_spatio : forall m, well_built m -> forall A (t : list (utm (quality A))) n, 1 <= n <= 65535 -> vlen t = m_hsize m -> Forall (fun u => utm_shape u n) t ->
  forall fuel prev th p, p_ltb A p p = false -> exists st, d_search A false (S fuel) t m prev th p p = Ok st /\
    ps_list st = [p] /\ ps_parts st = [] /\ ps_tuples st = [] /\ ps_qual st = [] /\ s_getP A st P_OPT = UB.
Proof. intros m W A t n Hn Ht F fuel prev th p Hp. destruct (d_ok m W A t n Hn Ht F p) as (x & E & _).
  destruct (search_degenerate A _ _ (d_best A t m) dn_param (dn_eqb A) dn_quality (d_tuples A) fuel prev th p x Hp E (dn_eqb_refl A x (d_nodup m W A t n Hn Ht F p x E))) as [K _].
  eexists. split; [exact K|]. repeat split. Qed.
Print Assumptions C35_spatio.

(** ** C36: nothing of an earlier state survives; after any history of searches the state is that of the last one alone. *)
Theorem C36_ordered : forall A (t : utm (quality A)) strict fuel,
  (forall prev th mn mx, o_search A strict fuel t prev th mn mx = o_search A strict fuel t (ps_empty A) th mn mx) /\
  (forall calls th mn mx st0 st1,
     mfold (fun c st => let '(th, mn, mx) := c in o_search A strict fuel t st th mn mx) calls st0 = Ok st1 ->
     mfold (fun c st => let '(th, mn, mx) := c in o_search A strict fuel t st th mn mx) (calls ++ [(th, mn, mx)]) st0 =
     o_search A strict fuel t (ps_empty A) th mn mx).
Proof. intros A t strict fuel. split; [reflexivity|]. intros calls th mn mx st0 st1 E. rewrite mfold_app, E. cbn [mfold bind].
  change (o_search A strict fuel t st1 th mn mx) with (o_search A strict fuel t (ps_empty A) th mn mx).
  destruct (o_search A strict fuel t (ps_empty A) th mn mx); reflexivity. Qed.
Print Assumptions C36_ordered.

Theorem C36_hier : forall A (t : list (quality A)) (m : meta) strict fuel,
  (forall prev th mn mx, h_search A strict fuel t m prev th mn mx = h_search A strict fuel t m (ps_empty A) th mn mx) /\
  (forall calls th mn mx st0 st1,
     mfold (fun c st => let '(th, mn, mx) := c in h_search A strict fuel t m st th mn mx) calls st0 = Ok st1 ->
     mfold (fun c st => let '(th, mn, mx) := c in h_search A strict fuel t m st th mn mx) (calls ++ [(th, mn, mx)]) st0 =
     h_search A strict fuel t m (ps_empty A) th mn mx).
Proof. intros A t m strict fuel. split; [reflexivity|]. intros calls th mn mx st0 st1 E. rewrite mfold_app, E. cbn [mfold bind].
  change (h_search A strict fuel t m st1 th mn mx) with (h_search A strict fuel t m (ps_empty A) th mn mx).
  destruct (h_search A strict fuel t m (ps_empty A) th mn mx); reflexivity. Qed.
Print Assumptions C36_hier.

Theorem C36_spatio : forall A (t : list (utm (quality A))) (m : meta) strict fuel,
  (forall prev th mn mx, d_search A strict fuel t m prev th mn mx = d_search A strict fuel t m (ps_empty A) th mn mx) /\
  (forall calls th mn mx st0 st1,
     mfold (fun c st => let '(th, mn, mx) := c in d_search A strict fuel t m st th mn mx) calls st0 = Ok st1 ->
     mfold (fun c st => let '(th, mn, mx) := c in d_search A strict fuel t m st th mn mx) (calls ++ [(th, mn, mx)]) st0 =
     d_search A strict fuel t m (ps_empty A) th mn mx).
Proof. intros A t m strict fuel. split; [reflexivity|]. intros calls th mn mx st0 st1 E. rewrite mfold_app, E. cbn [mfold bind].
  change (d_search A strict fuel t m st1 th mn mx) with (d_search A strict fuel t m (ps_empty A) th mn mx).
  destruct (d_search A strict fuel t m (ps_empty A) th mn mx); reflexivity. Qed.
Print Assumptions C36_spatio.

(** ** C37: the tuples. *)
Theorem C37_ordered : forall A (t : utm (quality A)) n, 0 <= n <= 65535 -> utm_shape t n ->
  forall D th, bisectable A D th -> forall fuel prev mn mx st, D mn -> D mx -> plt A mn mx ->
  o_search A false fuel t prev th mn mx = Ok st ->
  ps_tuples st = concat (map (fun px => map (fun y => (fst px, (op_start y, op_end y, gain (op_quality y), loss (op_quality y)))) (on_parts (snd px))) (ps_parts st)).
Proof. intros A t n Hn S D th B fuel prev mn mx st H1 H3 H4 E.
  rewrite (search_tuples A D th B (o_best A t) on_param (on_eqb A) on_quality (o_tuples A) (fun p _ => (o_ok A t n Hn S) p) fuel prev mn mx st H1 H3 H4 E).
  f_equal. apply map_ext. intros [p x]. apply map_map. Qed.
Print Assumptions C37_ordered.

Theorem C37_hier : forall m, well_built m -> 2 <= m_hsize m -> forall A (t : list (quality A)), vlen t = m_hsize m ->
  forall D th, bisectable A D th -> forall fuel prev mn mx st, D mn -> D mx -> plt A mn mx ->
  h_search A false fuel t m prev th mn mx = Ok st ->
  ps_tuples st = concat (map (fun px => map (fun y => (fst px, (hp_h y, hp_size y, gain (hp_quality y), loss (hp_quality y)))) (hn_parts (snd px))) (ps_parts st)).
Proof. intros m W H2 A t Ht D th B fuel prev mn mx st H1 H3 H4 E.
  rewrite (search_tuples A D th B (h_best A t m) hn_param (hn_eqb A) hn_quality (h_tuples A) (fun p _ => (h_ok m W H2 A t Ht) p) fuel prev mn mx st H1 H3 H4 E).
  f_equal. apply map_ext. intros [p x]. apply map_map. Qed.
Print Assumptions C37_hier.

Theorem C37_spatio : forall m, well_built m -> forall A (t : list (utm (quality A))) n, 1 <= n <= 65535 -> vlen t = m_hsize m -> Forall (fun u => utm_shape u n) t ->
  forall D th, bisectable A D th -> forall fuel prev mn mx st, D mn -> D mx -> plt A mn mx ->
  d_search A false fuel t m prev th mn mx = Ok st ->
  ps_tuples st = concat (map (fun px => map (fun y => (fst px, (dp_h y, dp_size y, dp_start y, dp_end y, gain (dp_quality y), loss (dp_quality y)))) (dn_parts (snd px))) (ps_parts st)).
Proof. intros m W A t n Hn Ht F D th B fuel prev mn mx st H1 H3 H4 E.
  rewrite (search_tuples A D th B (d_best A t m) dn_param (dn_eqb A) dn_quality (d_tuples A) (fun p _ => (d_ok m W A t n Hn Ht F) p) fuel prev mn mx st H1 H3 H4 E).
  f_equal. apply map_ext. intros [p x]. apply map_map. Qed.
Print Assumptions C37_spatio.

(** ** C52: by the C++ rules the run has undefined behaviour exactly when two neighbouring evaluated parameters have equal
    partitions ([l] are the parameters evaluated between the ends). *)
Theorem C52_ordered : forall A (t : utm (quality A)) n, 0 <= n <= 65535 -> utm_shape t n ->
  forall D th, bisectable A D th -> forall mn mx l, D mn -> D mx -> plt A mn mx -> bisect A (o_best A t) (on_eqb A) th mn mx l ->
  exists fuel, forall prev,
    ((exists p q x y, neighbours (mn :: l ++ [mx]) p q /\ o_best A t p = Ok x /\ o_best A t q = Ok y /\ on_eqb A y x = true) ->
       o_search A true fuel t prev th mn mx = UB) /\
    ((forall p q x y, neighbours (mn :: l ++ [mx]) p q -> o_best A t p = Ok x -> o_best A t q = Ok y -> on_eqb A y x = false) ->
       exists st, o_search A true fuel t prev th mn mx = Ok st /\ ps_list st = mn :: l ++ [mx] /\ o_search A false fuel t prev th mn mx = Ok st).
Proof. intros A t n Hn S D th B mn mx l. exact (search_strict A D th B (o_best A t) on_param (on_eqb A) on_quality (o_tuples A) (fun p _ => (o_ok A t n Hn S) p) mn mx l). Qed.
Print Assumptions C52_ordered.

Theorem C52_hier : forall m, well_built m -> 2 <= m_hsize m -> forall A (t : list (quality A)), vlen t = m_hsize m ->
  forall D th, bisectable A D th -> forall mn mx l, D mn -> D mx -> plt A mn mx -> bisect A (h_best A t m) (hn_eqb A) th mn mx l ->
  exists fuel, forall prev,
    ((exists p q x y, neighbours (mn :: l ++ [mx]) p q /\ h_best A t m p = Ok x /\ h_best A t m q = Ok y /\ hn_eqb A y x = true) ->
       h_search A true fuel t m prev th mn mx = UB) /\
    ((forall p q x y, neighbours (mn :: l ++ [mx]) p q -> h_best A t m p = Ok x -> h_best A t m q = Ok y -> hn_eqb A y x = false) ->
       exists st, h_search A true fuel t m prev th mn mx = Ok st /\ ps_list st = mn :: l ++ [mx] /\ h_search A false fuel t m prev th mn mx = Ok st).
Proof. intros m W H2 A t Ht D th B mn mx l. exact (search_strict A D th B (h_best A t m) hn_param (hn_eqb A) hn_quality (h_tuples A) (fun p _ => (h_ok m W H2 A t Ht) p) mn mx l). Qed.
Print Assumptions C52_hier.

Theorem C52_spatio : forall m, well_built m -> forall A (t : list (utm (quality A))) n, 1 <= n <= 65535 -> vlen t = m_hsize m -> Forall (fun u => utm_shape u n) t ->
  forall D th, bisectable A D th -> forall mn mx l, D mn -> D mx -> plt A mn mx -> bisect A (d_best A t m) (dn_eqb A) th mn mx l ->
  exists fuel, forall prev,
    ((exists p q x y, neighbours (mn :: l ++ [mx]) p q /\ d_best A t m p = Ok x /\ d_best A t m q = Ok y /\ dn_eqb A y x = true) ->
       d_search A true fuel t m prev th mn mx = UB) /\
    ((forall p q x y, neighbours (mn :: l ++ [mx]) p q -> d_best A t m p = Ok x -> d_best A t m q = Ok y -> dn_eqb A y x = false) ->
       exists st, d_search A true fuel t m prev th mn mx = Ok st /\ ps_list st = mn :: l ++ [mx] /\ d_search A false fuel t m prev th mn mx = Ok st).
Proof. intros m W A t n Hn Ht F D th B mn mx l. exact (search_strict A D th B (d_best A t m) dn_param (dn_eqb A) dn_quality (d_tuples A) (fun p _ => (d_ok m W A t n Hn Ht F) p) mn mx l). Qed.
Print Assumptions C52_spatio.

(** ** C53: the search ends exactly when the bisection is finite. *)
Theorem C53_ordered : forall A (t : utm (quality A)) n, 0 <= n <= 65535 -> utm_shape t n ->
  forall D th, bisectable A D th -> forall mn mx, D mn -> D mx -> plt A mn mx ->
  ((exists l, bisect A (o_best A t) (on_eqb A) th mn mx l) <-> (exists fuel, forall prev, exists st, o_search A false fuel t prev th mn mx = Ok st)).
Proof. intros A t n Hn S D th B mn mx Hmn Hmx Hlt. split.
  - intros [l Hl]. exact (search_total A D th B (o_best A t) on_param (on_eqb A) on_quality (o_tuples A) (fun p _ => (o_ok A t n Hn S) p) mn mx l Hmn Hmx Hlt Hl).
  - intros [fuel K]. destruct (K (ps_empty A)) as [st E]. exact (search_bisect A D th B (o_best A t) on_param (on_eqb A) on_quality (o_tuples A) (fun p _ => (o_ok A t n Hn S) p) false fuel _ mn mx st Hmn Hmx Hlt E). Qed.
Print Assumptions C53_ordered.

Theorem C53_hier : forall m, well_built m -> 2 <= m_hsize m -> forall A (t : list (quality A)), vlen t = m_hsize m ->
  forall D th, bisectable A D th -> forall mn mx, D mn -> D mx -> plt A mn mx ->
  ((exists l, bisect A (h_best A t m) (hn_eqb A) th mn mx l) <-> (exists fuel, forall prev, exists st, h_search A false fuel t m prev th mn mx = Ok st)).
Proof. intros m W H2 A t Ht D th B mn mx Hmn Hmx Hlt. split.
  - intros [l Hl]. exact (search_total A D th B (h_best A t m) hn_param (hn_eqb A) hn_quality (h_tuples A) (fun p _ => (h_ok m W H2 A t Ht) p) mn mx l Hmn Hmx Hlt Hl).
  - intros [fuel K]. destruct (K (ps_empty A)) as [st E]. exact (search_bisect A D th B (h_best A t m) hn_param (hn_eqb A) hn_quality (h_tuples A) (fun p _ => (h_ok m W H2 A t Ht) p) false fuel _ mn mx st Hmn Hmx Hlt E). Qed.
Print Assumptions C53_hier.

Theorem C53_spatio : forall m, well_built m -> forall A (t : list (utm (quality A))) n, 1 <= n <= 65535 -> vlen t = m_hsize m -> Forall (fun u => utm_shape u n) t ->
  forall D th, bisectable A D th -> forall mn mx, D mn -> D mx -> plt A mn mx ->
  ((exists l, bisect A (d_best A t m) (dn_eqb A) th mn mx l) <-> (exists fuel, forall prev, exists st, d_search A false fuel t m prev th mn mx = Ok st)).
Proof. intros m W A t n Hn Ht F D th B mn mx Hmn Hmx Hlt. split.
  - intros [l Hl]. exact (search_total A D th B (d_best A t m) dn_param (dn_eqb A) dn_quality (d_tuples A) (fun p _ => (d_ok m W A t n Hn Ht F) p) mn mx l Hmn Hmx Hlt Hl).
  - intros [fuel K]. destruct (K (ps_empty A)) as [st E]. exact (search_bisect A D th B (d_best A t m) dn_param (dn_eqb A) dn_quality (d_tuples A) (fun p _ => (d_ok m W A t n Hn Ht F) p) false fuel _ mn mx st Hmn Hmx Hlt E). Qed.
Print Assumptions C53_spatio.

(** ** C54: exactly which parameters are listed: min, and those evaluated parameters whose partition differs from the one of the
    evaluated parameter just before. *)
Theorem C54_ordered : forall A (t : utm (quality A)) n, 0 <= n <= 65535 -> utm_shape t n ->
  forall D th, bisectable A D th -> forall fuel prev mn mx st, D mn -> D mx -> plt A mn mx ->
  o_search A false fuel t prev th mn mx = Ok st ->
  exists l r, bisect A (o_best A t) (on_eqb A) th mn mx l /\
    changes A (o_best A t) (on_eqb A) mn (l ++ [mx]) r /\ ps_list st = mn :: r.
Proof. intros A t n Hn S D th B fuel prev mn mx st. exact (search_exact A D th B (o_best A t) on_param (on_eqb A) on_quality (o_tuples A) (fun p _ => (o_ok A t n Hn S) p) fuel prev mn mx st). Qed.
Print Assumptions C54_ordered.

Theorem C54_hier : forall m, well_built m -> 2 <= m_hsize m -> forall A (t : list (quality A)), vlen t = m_hsize m ->
  forall D th, bisectable A D th -> forall fuel prev mn mx st, D mn -> D mx -> plt A mn mx ->
  h_search A false fuel t m prev th mn mx = Ok st ->
  exists l r, bisect A (h_best A t m) (hn_eqb A) th mn mx l /\
    changes A (h_best A t m) (hn_eqb A) mn (l ++ [mx]) r /\ ps_list st = mn :: r.
Proof. intros m W H2 A t Ht D th B fuel prev mn mx st. exact (search_exact A D th B (h_best A t m) hn_param (hn_eqb A) hn_quality (h_tuples A) (fun p _ => (h_ok m W H2 A t Ht) p) fuel prev mn mx st). Qed.
Print Assumptions C54_hier.

Theorem C54_spatio : forall m, well_built m -> forall A (t : list (utm (quality A))) n, 1 <= n <= 65535 -> vlen t = m_hsize m -> Forall (fun u => utm_shape u n) t ->
  forall D th, bisectable A D th -> forall fuel prev mn mx st, D mn -> D mx -> plt A mn mx ->
  d_search A false fuel t m prev th mn mx = Ok st ->
  exists l r, bisect A (d_best A t m) (dn_eqb A) th mn mx l /\
    changes A (d_best A t m) (dn_eqb A) mn (l ++ [mx]) r /\ ps_list st = mn :: r.
Proof. intros m W A t n Hn Ht F D th B fuel prev mn mx st. exact (search_exact A D th B (d_best A t m) dn_param (dn_eqb A) dn_quality (d_tuples A) (fun p _ => (d_ok m W A t n Hn Ht F) p) fuel prev mn mx st). Qed.
Print Assumptions C54_spatio.
