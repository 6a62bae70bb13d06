(** * Property C93: how much work the parameter search does.

    [o_searchc A strict fuel t prev th mn mx] (Cost.v) is OPartitioner::computeBestPartitions(th, mn, mx) with a counter: it
    returns the new state of the object and the number of calls of computeBestPartition. [h_searchc], [d_searchc] likewise. *)
From Coq Require Import Reals Lra Lia Sorting.Sorted.
From Flocq Require Import Core BinarySingleNaN.
From Verif Require Import OReal.
From Verif Require Import Base BaseFacts Arith Quality Utm UtmProofs Hierarchy SpecTree SpecParts HierarchyFacts Partitions Partitioners
  Search SpecSearch SearchFacts SearchProofs SearchReal SearchInst SearchGet P_Ordered P_Search P_SearchEx SearchMeasure Ieee SpecIeee IeeeFacts P_Ieee SpecOverlap P_Nested Cost CostFacts.

(** ** Counting changes nothing: without its counter, the counted search is the search of C30 to C39. *)
Theorem C93_same_ordered : forall A (t : utm (quality A)) strict fuel prev th mn mx,
  (let* r := o_searchc A strict fuel t prev th mn mx in Ok (fst r)) = o_search A strict fuel t prev th mn mx.
Proof. intros. apply searchc_search. Qed.
Print Assumptions C93_same_ordered.

Theorem C93_same_hier : forall A (t : list (quality A)) m strict fuel prev th mn mx,
  (let* r := h_searchc A strict fuel t m prev th mn mx in Ok (fst r)) = h_search A strict fuel t m prev th mn mx.
Proof. intros. apply searchc_search. Qed.
Print Assumptions C93_same_hier.

Theorem C93_same_spatio : forall A (t : list (utm (quality A))) m strict fuel prev th mn mx,
  (let* r := d_searchc A strict fuel t m prev th mn mx in Ok (fst r)) = d_search A strict fuel t m prev th mn mx.
Proof. intros. apply searchc_search. Qed.
Print Assumptions C93_same_spatio.

(** ** The calls are the two ends and every bisection point ([bisect], SpecSearch.v), each once. Any arithmetic whose parameters
    can be bisected. *)
Theorem C93_exact_ordered : forall A (t : utm (quality A)) n, 0 <= n <= 65535 -> utm_shape t n ->
  forall D th, bisectable A D th -> forall fuel prev mn mx st c, D mn -> D mx -> plt A mn mx ->
  o_searchc A false fuel t prev th mn mx = Ok (st, c) ->
  exists l, bisect A (o_best A t) (on_eqb A) th mn mx l /\ c = 2 + vlen l.
Proof. intros A t n Hn Sh D th B fuel prev mn mx st c. exact (search_exact A D th B (o_best A t) on_param (on_eqb A) on_quality (o_tuples A) (fun p _ => o_ok A t n Hn Sh p) fuel prev mn mx st c). Qed.
Print Assumptions C93_exact_ordered.

Theorem C93_exact_hier : forall m, well_built m -> 2 <= m_hsize m -> forall A (t : list (quality A)), vlen t = m_hsize m ->
  forall D th, bisectable A D th -> forall fuel prev mn mx st c, D mn -> D mx -> plt A mn mx ->
  h_searchc A false fuel t m prev th mn mx = Ok (st, c) ->
  exists l, bisect A (h_best A t m) (hn_eqb A) th mn mx l /\ c = 2 + vlen l.
Proof. intros m W H2 A t Ht D th B fuel prev mn mx st c. exact (search_exact A D th B (h_best A t m) hn_param (hn_eqb A) hn_quality (h_tuples A) (fun p _ => h_ok m W H2 A t Ht p) fuel prev mn mx st c). Qed.
Print Assumptions C93_exact_hier.

Theorem C93_exact_spatio : forall m, well_built m -> forall A (t : list (utm (quality A))) n, 1 <= n <= 65535 -> vlen t = m_hsize m -> Forall (fun u => utm_shape u n) t ->
  forall D th, bisectable A D th -> forall fuel prev mn mx st c, D mn -> D mx -> plt A mn mx ->
  d_searchc A false fuel t m prev th mn mx = Ok (st, c) ->
  exists l, bisect A (d_best A t m) (dn_eqb A) th mn mx l /\ c = 2 + vlen l.
Proof. intros m W A t n Hn Ht F D th B fuel prev mn mx st c. exact (search_exact A D th B (d_best A t m) dn_param (dn_eqb A) dn_quality (d_tuples A) (fun p _ => d_ok m W A t n Hn Ht F p) fuel prev mn mx st c). Qed.
Print Assumptions C93_exact_spatio.

(** ** The calls against the number K of listed parameters: at least K, and at most 2 + k (K - 1) when recursion depth k + 1 is
    enough. *)
Theorem C93_ordered : forall A (t : utm (quality A)) n, 0 <= n <= 65535 -> utm_shape t n ->
  forall D th, bisectable A D th -> forall fuel k prev mn mx st c, D mn -> D mx -> plt A mn mx ->
  o_searchc A false fuel t prev th mn mx = Ok (st, c) ->
  (exists st', o_search A false (S k) t prev th mn mx = Ok st') ->
  vlen (ps_list st) <= c <= 2 + Z.of_nat k * (vlen (ps_list st) - 1).
Proof. intros A t n Hn Sh D th B fuel k prev mn mx st c.
  exact (search_calls A D th B (o_best A t) on_param (on_eqb A) on_quality (o_tuples A) (fun p _ => o_ok A t n Hn Sh p)
    (fun _ => True) (fun _ _ _ _ => I) (fun x y _ _ => on_eqb_sym A x y) (fun x y z _ _ _ => on_eqb_trans A x y z) fuel k prev mn mx st c). Qed.
Print Assumptions C93_ordered.

Theorem C93_hier : forall m, well_built m -> 2 <= m_hsize m -> forall A (t : list (quality A)), vlen t = m_hsize m ->
  forall D th, bisectable A D th -> forall fuel k prev mn mx st c, D mn -> D mx -> plt A mn mx ->
  h_searchc A false fuel t m prev th mn mx = Ok (st, c) ->
  (exists st', h_search A false (S k) t m prev th mn mx = Ok st') ->
  vlen (ps_list st) <= c <= 2 + Z.of_nat k * (vlen (ps_list st) - 1).
Proof. intros m W H2 A t Ht D th B fuel k prev mn mx st c.
  exact (search_calls A D th B (h_best A t m) hn_param (hn_eqb A) hn_quality (h_tuples A) (fun p _ => h_ok m W H2 A t Ht p)
    (fun _ => True) (fun _ _ _ _ => I) (fun x y _ _ => hn_eqb_sym A x y) (fun x y z _ _ _ => hn_eqb_trans A x y z) fuel k prev mn mx st c). Qed.
Print Assumptions C93_hier.

Theorem C93_spatio : forall m, well_built m -> forall A (t : list (utm (quality A))) n, 1 <= n <= 65535 -> vlen t = m_hsize m -> Forall (fun u => utm_shape u n) t ->
  forall D th, bisectable A D th -> forall fuel k prev mn mx st c, D mn -> D mx -> plt A mn mx ->
  d_searchc A false fuel t m prev th mn mx = Ok (st, c) ->
  (exists st', d_search A false (S k) t m prev th mn mx = Ok st') ->
  vlen (ps_list st) <= c <= 2 + Z.of_nat k * (vlen (ps_list st) - 1).
Proof. intros m W A t n Hn Ht F D th B fuel k prev mn mx st c.
  exact (search_calls A D th B (d_best A t m) dn_param (dn_eqb A) dn_quality (d_tuples A) (fun p _ => d_ok m W A t n Hn Ht F p)
    nodup (fun p x _ => d_nodup m W A t n Hn Ht F p x) (dn_eqb_sym A) (dn_eqb_trans A) fuel k prev mn mx st c). Qed.
Print Assumptions C93_spatio.

(** ** In exact arithmetic: with (max - min) / threshold <= 2^k the search makes at most 2 + k (K - 1) calls. *)
Theorem C93_ordered_real : forall (t : utm (quality RA)) n, 0 <= n <= 65535 -> utm_shape t n ->
  forall (th mn mx : R) k prev, (mn < mx)%R -> (mx - mn <= th * 2 ^ k)%R ->
  exists st c, o_searchc RA false (S k) t prev th mn mx = Ok (st, c) /\ vlen (ps_list st) <= c <= 2 + Z.of_nat k * (vlen (ps_list st) - 1).
Proof. intros t n Hn Sh th mn mx k prev H1 H3. destruct (C33_ordered t n Hn Sh th mn mx k prev H1 H3) as [st E].
  pose proof (C93_same_ordered RA t false (S k) prev th mn mx) as Sm. rewrite E in Sm. apply bind_ok in Sm. destruct Sm as ([st' c] & E1 & E2). injection E2 as ->. cbn [fst] in *.
  exists st, c. split; [exact E1|]. exact (C93_ordered RA t n Hn Sh (fun _ => True) th (real_bisectable th) (S k) k prev mn mx st c I I (proj2 (plt_RA mn mx) H1) E1 (ex_intro _ st E)). Qed.
Print Assumptions C93_ordered_real.

Theorem C93_hier_real : forall m, well_built m -> 2 <= m_hsize m -> forall (t : list (quality RA)), vlen t = m_hsize m ->
  forall (th mn mx : R) k prev, (mn < mx)%R -> (mx - mn <= th * 2 ^ k)%R ->
  exists st c, h_searchc RA false (S k) t m prev th mn mx = Ok (st, c) /\ vlen (ps_list st) <= c <= 2 + Z.of_nat k * (vlen (ps_list st) - 1).
Proof. intros m W H2 t Ht th mn mx k prev H1 H3. destruct (C33_hier m W H2 t Ht th mn mx k prev H1 H3) as [st E].
  pose proof (C93_same_hier RA t m false (S k) prev th mn mx) as Sm. rewrite E in Sm. apply bind_ok in Sm. destruct Sm as ([st' c] & E1 & E2). injection E2 as ->. cbn [fst] in *.
  exists st, c. split; [exact E1|]. exact (C93_hier m W H2 RA t Ht (fun _ => True) th (real_bisectable th) (S k) k prev mn mx st c I I (proj2 (plt_RA mn mx) H1) E1 (ex_intro _ st E)). Qed.
Print Assumptions C93_hier_real.

Theorem C93_spatio_real : forall m, well_built m -> forall (t : list (utm (quality RA))) n, 1 <= n <= 65535 -> vlen t = m_hsize m -> Forall (fun u => utm_shape u n) t ->
  forall (th mn mx : R) k prev, (mn < mx)%R -> (mx - mn <= th * 2 ^ k)%R ->
  exists st c, d_searchc RA false (S k) t m prev th mn mx = Ok (st, c) /\ vlen (ps_list st) <= c <= 2 + Z.of_nat k * (vlen (ps_list st) - 1).
Proof. intros m W t n Hn Ht F th mn mx k prev H1 H3. destruct (C33_spatio m W t n Hn Ht F th mn mx k prev H1 H3) as [st E].
  pose proof (C93_same_spatio RA t m false (S k) prev th mn mx) as Sm. rewrite E in Sm. apply bind_ok in Sm. destruct Sm as ([st' c] & E1 & E2). injection E2 as ->. cbn [fst] in *.
  exists st, c. split; [exact E1|]. exact (C93_spatio m W RA t n Hn Ht F (fun _ => True) th (real_bisectable th) (S k) k prev mn mx st c I I (proj2 (plt_RA mn mx) H1) E1 (ex_intro _ st E)). Qed.
Print Assumptions C93_spatio_real.

(** ** In the machine's floating point ([IA lg], Ieee.v), with the depth of C34 (k = 10 for threshold 0.001 on [0,1]). *)
Theorem C93_ordered_ieee : forall lg (t : utm (quality (IA lg))) n, 0 <= n <= 65535 -> utm_shape t n ->
  forall (th mn mx : f32) k prev, thr32 th -> unit32 mn -> unit32 mx -> (B2R mn < B2R mx)%R ->
  (B2R mx - B2R mn - bpow radix2 (-23) <= (B2R th - bpow radix2 (-23)) * 2 ^ k)%R ->
  exists st c, o_searchc (IA lg) false (S k) t prev th mn mx = Ok (st, c) /\ vlen (ps_list st) <= c <= 2 + Z.of_nat k * (vlen (ps_list st) - 1).
Proof. intros lg t n Hn Sh th mn mx k prev T Un Ux L H. destruct (C34_ordered_depth lg t n Hn Sh th mn mx k prev T Un Ux L H) as [st E].
  pose proof (C93_same_ordered (IA lg) t false (S k) prev th mn mx) as Sm. rewrite E in Sm. apply bind_ok in Sm. destruct Sm as ([st' c] & E1 & E2). injection E2 as ->. cbn [fst] in *.
  exists st, c. split; [exact E1|]. exact (C93_ordered (IA lg) t n Hn Sh unit32 th (ieee_bisectable lg th T) (S k) k prev mn mx st c Un Ux (plt_IA lg _ _ Un Ux L) E1 (ex_intro _ st E)). Qed.
Print Assumptions C93_ordered_ieee.

Theorem C93_hier_ieee : forall m, well_built m -> 2 <= m_hsize m -> forall lg (t : list (quality (IA lg))), vlen t = m_hsize m ->
  forall (th mn mx : f32) k prev, thr32 th -> unit32 mn -> unit32 mx -> (B2R mn < B2R mx)%R ->
  (B2R mx - B2R mn - bpow radix2 (-23) <= (B2R th - bpow radix2 (-23)) * 2 ^ k)%R ->
  exists st c, h_searchc (IA lg) false (S k) t m prev th mn mx = Ok (st, c) /\ vlen (ps_list st) <= c <= 2 + Z.of_nat k * (vlen (ps_list st) - 1).
Proof. intros m W H2 lg t Ht th mn mx k prev T Un Ux L H. destruct (C34_hier_depth m W H2 lg t Ht th mn mx k prev T Un Ux L H) as [st E].
  pose proof (C93_same_hier (IA lg) t m false (S k) prev th mn mx) as Sm. rewrite E in Sm. apply bind_ok in Sm. destruct Sm as ([st' c] & E1 & E2). injection E2 as ->. cbn [fst] in *.
  exists st, c. split; [exact E1|]. exact (C93_hier m W H2 (IA lg) t Ht unit32 th (ieee_bisectable lg th T) (S k) k prev mn mx st c Un Ux (plt_IA lg _ _ Un Ux L) E1 (ex_intro _ st E)). Qed.
Print Assumptions C93_hier_ieee.

Theorem C93_spatio_ieee : forall m, well_built m -> forall lg (t : list (utm (quality (IA lg)))) n, 1 <= n <= 65535 -> vlen t = m_hsize m -> Forall (fun u => utm_shape u n) t ->
  forall (th mn mx : f32) k prev, thr32 th -> unit32 mn -> unit32 mx -> (B2R mn < B2R mx)%R ->
  (B2R mx - B2R mn - bpow radix2 (-23) <= (B2R th - bpow radix2 (-23)) * 2 ^ k)%R ->
  exists st c, d_searchc (IA lg) false (S k) t m prev th mn mx = Ok (st, c) /\ vlen (ps_list st) <= c <= 2 + Z.of_nat k * (vlen (ps_list st) - 1).
Proof. intros m W lg t n Hn Ht F th mn mx k prev T Un Ux L H. destruct (C34_spatio_depth m W lg t n Hn Ht F th mn mx k prev T Un Ux L H) as [st E].
  pose proof (C93_same_spatio (IA lg) t m false (S k) prev th mn mx) as Sm. rewrite E in Sm. apply bind_ok in Sm. destruct Sm as ([st' c] & E1 & E2). injection E2 as ->. cbn [fst] in *.
  exists st, c. split; [exact E1|]. exact (C93_spatio m W (IA lg) t n Hn Ht F unit32 th (ieee_bisectable lg th T) (S k) k prev mn mx st c Un Ux (plt_IA lg _ _ Un Ux L) E1 (ex_intro _ st E)). Qed.
Print Assumptions C93_spatio_ieee.

(** ** Together with C90: on a hierarchy with i inner nodes, 2 + k i calls. *)
Theorem C93_hier_nodes : forall m, well_built m -> 2 <= m_hsize m -> forall (t : list (quality RA)), vlen t = m_hsize m -> superadditive (P := Rpar) t m ->
  forall (th mn mx : R) k prev, (0 <= mn < mx)%R -> (mx <= 1)%R -> (mx - mn <= th * 2 ^ k)%R ->
  exists st c, h_searchc RA false (S k) t m prev th mn mx = Ok (st, c) /\ c <= 2 + Z.of_nat k * (m_hsize m - m_leaves m).
Proof.
  intros m W H2 t Ht Su th mn mx k prev H1 H3 H4. destruct (C93_hier_real m W H2 t Ht th mn mx k prev (proj2 H1) H4) as (st & c & E & _ & H). exists st, c. split; [exact E|].
  assert (E' : h_search RA false (S k) t m prev th mn mx = Ok st) by (rewrite <- C93_same_hier, E; reflexivity).
  pose proof (C90_count m t W H2 Ht Su th (S k) prev mn mx st H1 H3 E'). nia.
Qed.
Print Assumptions C93_hier_nodes.

(** ** The concrete search of P_SearchEx.v: threshold 1/4 on [0,1], four calls (0, 1, 1/2, 1/4), two listed parameters. *)
Example C93_ex : exists st, o_searchc RA false 3 ex_table (ps_empty RA) (1/4)%R 0%R 1%R = Ok (st, 4) /\ vlen (ps_list st) = 2.
Proof.
  destruct ex_search as (st & E & El). pose proof (C93_same_ordered RA ex_table false 3 (ps_empty RA) (1/4)%R 0%R 1%R) as Sm. rewrite E in Sm. apply bind_ok in Sm. destruct Sm as ([st' c] & E1 & E2). injection E2 as ->. cbn [fst] in *.
  exists st. split; [|rewrite El; reflexivity].
  destruct (C93_exact_ordered RA ex_table 2 ltac:(lia) ex_table_shape (fun _ => True) (1/4)%R (real_bisectable (1/4)%R) 3 (ps_empty RA) 0%R 1%R st c I I ltac:(apply plt_RA; lra) E1) as (l & Bi & ->).
  rewrite (bisect_det RA _ _ _ _ _ _ Bi _ ex_bisect) in E1. exact E1.
Qed.
