(** * Property C94: the range given to the parameter search the wrong way round.

    [o_search A strict fuel t prev th mn mx] is OPartitioner::computeBestPartitions(th, mn, mx), see P_Search.v; here the second
    bound [mx] is below the first one [mn]. *)
From Coq Require Import Reals Lra Lia.
From Flocq Require Import Core BinarySingleNaN.
From Verif Require Import OReal.
From Verif Require Import Base BaseFacts Arith Quality Utm UtmProofs Hierarchy SpecTree SpecParts HierarchyFacts Partitions Partitioners
  Search SpecSearch SearchFacts SearchProofs SearchReal SearchInst SearchGet SearchMeasure Ieee SpecIeee IeeeFacts P_Ordered P_Hier P_Spatio P_Search P_SearchEx P_Ieee.

(** The two ends are all that is listed: parameters in the order given, everything else in increasing order of the parameter;
    only the first end when the partitions of the two ends are equal. *)
Definition ends_only (A : arith) {Pn Tu : Type} (best : par A -> res Pn) (eqb : Pn -> Pn -> bool) (quality_of : Pn -> quality A) (tuples_of : Pn -> list Tu)
  (mn mx : par A) (st : pstate A (Pn := Pn) (Tu := Tu)) : Prop :=
  exists x y, best mn = Ok x /\ best mx = Ok y /\
  if eqb y x then ps_list st = [mn] /\ ps_parts st = [(mn, x)] /\ ps_tuples st = map (pair mn) (tuples_of x) /\ ps_qual st = [(mn, quality_of x)]
  else ps_list st = [mn; mx] /\ ps_parts st = [(mx, y); (mn, x)] /\
       ps_tuples st = map (pair mx) (tuples_of y) ++ map (pair mn) (tuples_of x) /\ ps_qual st = [(mx, quality_of y); (mn, quality_of x)].

Lemma search_reversed : forall A Pn Tu (best : par A -> res Pn) pn_param eqb pn_quality (pn_tuples : Pn -> list Tu) fuel prev th mn mx x y,
  p_ltb A mn mn = false -> p_ltb A mx mx = false -> p_ltb A mx mn = true -> p_ltb A mn mx = false -> p_ltb A th (p_sub A mx mn) = false ->
  best mn = Ok x -> best mx = Ok y -> pn_param x = mn -> pn_param y = mx ->
  exists st, s_computeBestPartitions A best pn_param eqb pn_quality pn_tuples false (S fuel) prev th mn mx = Ok st /\ ends_only A best eqb pn_quality pn_tuples mn mx st.
Proof.
  intros A Pn Tu best pn_param eqb pn_quality pn_tuples fuel prev th mn mx x y H1 H2 H3 H4 H5 Ex Ey Px Py.
  unfold s_computeBestPartitions, cleared. rewrite Ex, Ey. cbn [bind app fmap_set s_add]. unfold s_wide. rewrite Px, Py, H5. rewrite Bool.andb_false_r. cbn [bind app fmap_set].
  rewrite H3. unfold s_dedup. cbn [fst]. replace (vlen [mn; mx]) with 2 by reflexivity. rewrite for_down_step by lia. change (2 - 1) with 1.
  unfold s_dedup1 at 1. change (vget [mn; mx] 1) with (Ok mx). change (vget [mn; mx] (1 - 1)) with (Ok mn). cbn [bind]. unfold fmap_at. cbn [fmap_get].
  rewrite ?H1, ?H2, ?H3, ?H4. cbn [bind]. unfold ends_only.
  destruct (eqb y x) eqn:E; cbn [bind]; rewrite for_down_empty by lia; cbn [bind]; eexists; (split; [reflexivity|]); exists x, y; rewrite E; repeat (split; [assumption|]);
    cbn [ps_list ps_parts ps_tuples ps_qual fmap_erase]; rewrite ?H1, ?H2, ?H3, ?H4; rewrite tuples_spec; unfold s_quals; cbn [fold_left fmap_set flat_map fst snd app]; rewrite ?H1, ?H2, ?H3, ?H4, ?app_nil_r; repeat split; reflexivity.
Qed.

(** ** Any arithmetic: the second bound is below the first, and the (negative) width is not above the threshold. *)
Theorem C94_ordered : forall A (t : utm (quality A)) n, 0 <= n <= 65535 -> utm_shape t n ->
  forall fuel prev th mn mx, p_ltb A mn mn = false -> p_ltb A mx mx = false -> p_ltb A mx mn = true -> p_ltb A mn mx = false -> p_ltb A th (p_sub A mx mn) = false ->
  exists st, o_search A false (S fuel) t prev th mn mx = Ok st /\ ends_only A (o_best A t) (on_eqb A) on_quality (o_tuples A) mn mx st.
Proof. intros A t n Hn Sh fuel prev th mn mx H1 Hx H3 H4 H5. destruct (o_ok A t n Hn Sh mn) as (x & Ex & Px). destruct (o_ok A t n Hn Sh mx) as (y & Ey & Py).
  exact (search_reversed A _ _ (o_best A t) on_param (on_eqb A) on_quality (o_tuples A) fuel prev th mn mx x y H1 Hx H3 H4 H5 Ex Ey Px Py). Qed.
Print Assumptions C94_ordered.

Theorem C94_hier : forall m, well_built m -> 2 <= m_hsize m -> forall A (t : list (quality A)), vlen t = m_hsize m ->
  forall fuel prev th mn mx, p_ltb A mn mn = false -> p_ltb A mx mx = false -> p_ltb A mx mn = true -> p_ltb A mn mx = false -> p_ltb A th (p_sub A mx mn) = false ->
  exists st, h_search A false (S fuel) t m prev th mn mx = Ok st /\ ends_only A (h_best A t m) (hn_eqb A) hn_quality (h_tuples A) mn mx st.
Proof. intros m W H2 A t Ht fuel prev th mn mx H1 Hx H3 H4 H5. destruct (h_ok m W H2 A t Ht mn) as (x & Ex & Px). destruct (h_ok m W H2 A t Ht mx) as (y & Ey & Py).
  exact (search_reversed A _ _ (h_best A t m) hn_param (hn_eqb A) hn_quality (h_tuples A) fuel prev th mn mx x y H1 Hx H3 H4 H5 Ex Ey Px Py). Qed.
Print Assumptions C94_hier.

Theorem C94_spatio : forall m, well_built m -> forall A (t : list (utm (quality A))) n, 1 <= n <= 65535 -> vlen t = m_hsize m -> Forall (fun u => utm_shape u n) t ->
  forall fuel prev th mn mx, p_ltb A mn mn = false -> p_ltb A mx mx = false -> p_ltb A mx mn = true -> p_ltb A mn mx = false -> p_ltb A th (p_sub A mx mn) = false ->
  exists st, d_search A false (S fuel) t m prev th mn mx = Ok st /\ ends_only A (d_best A t m) (dn_eqb A) dn_quality (d_tuples A) mn mx st.
Proof. intros m W A t n Hn Ht F fuel prev th mn mx H1 Hx H3 H4 H5. destruct (d_ok m W A t n Hn Ht F mn) as (x & Ex & Px). destruct (d_ok m W A t n Hn Ht F mx) as (y & Ey & Py).
  exact (search_reversed A _ _ (d_best A t m) dn_param (dn_eqb A) dn_quality (d_tuples A) fuel prev th mn mx x y H1 Hx H3 H4 H5 Ex Ey Px Py). Qed.
Print Assumptions C94_spatio.

(** ** Exact arithmetic, threshold >= 0. getP(P_MAX) returns the smaller of the two parameters, and the area under the curve is
    1 plus, not 1 minus, the area: at least 1 when the losses are not negative. *)
Lemma ltb_RA : forall x y : R, p_ltb RA x y = true <-> (x < y)%R.
Proof. intros x y. apply (plt_RA x y). Qed.
Lemma ltb_RA_false : forall x y : R, (y <= x)%R -> p_ltb RA x y = false.
Proof. intros x y H. destruct (p_ltb RA x y) eqn:E; [|reflexivity]. apply ltb_RA in E. exfalso. change (par RA) with R in *. lra. Qed.

Lemma reversed_auc : forall Pn Tu (best : R -> res Pn) eqb pn_quality (pn_tuples : Pn -> list Tu) (mn mx : R) st x y, (mx < mn)%R -> best mn = Ok x -> best mx = Ok y -> eqb y x = false ->
  ends_only RA best eqb pn_quality pn_tuples mn mx st ->
  ps_list st = [mn; mx] /\ s_getP RA st P_MAX = Ok mx /\
  s_auc RA st = Ok (1 + (gain (pn_quality x) - gain (pn_quality y)) * (loss (pn_quality x) + loss (pn_quality y)) / 2)%R.
Proof.
  intros Pn Tu best eqb pn_quality pn_tuples mn mx st x y Hlt Ex Ey E (x' & y' & Ex' & Ey' & H). rewrite Ex in Ex'. injection Ex' as <-. rewrite Ey in Ey'. injection Ey' as <-. rewrite E in H.
  destruct H as (El & _ & _ & Eq). split; [exact El|].
  assert (N1 : p_ltb RA mn mn = false) by (apply ltb_RA_false; lra). assert (N2 : p_ltb RA mx mx = false) by (apply ltb_RA_false; lra). assert (N3 : p_ltb RA mx mn = true) by (apply ltb_RA; exact Hlt). assert (N4 : p_ltb RA mn mx = false) by (apply ltb_RA_false; lra).
  split; [unfold s_getP; cbn [Z.eqb P_MAX P_MIN]; rewrite El; reflexivity|].
  unfold s_auc. rewrite El, Eq. match goal with |- context [for_up 0 ?b _ _] => change b with 1 end. rewrite for_up_cons by lia. match goal with |- context [vget ?l (0 + 1)] => change (vget l (0 + 1)) with (Ok mx); change (vget l 0) with (Ok mn) end. cbn [bind].
  unfold fmap_at. cbn [fmap_get]. rewrite N1, N2, N3, N4. cbn [bind]. rewrite for_up_empty by lia. cbn [bind]. f_equal. cbn. lra.
Qed.

Theorem C94_ordered_real : forall (t : utm (quality RA)) n, 0 <= n <= 65535 -> utm_shape t n ->
  forall (th mn mx : R) fuel prev, (0 <= th)%R -> (0 <= mx < mn)%R -> (mn <= 1)%R ->
  exists st x y, o_search RA false (S fuel) t prev th mn mx = Ok st /\ ends_only RA (o_best RA t) (on_eqb RA) on_quality (o_tuples RA) mn mx st /\
  o_best RA t mn = Ok x /\ o_best RA t mx = Ok y /\
  (on_eqb RA y x = false -> ps_list st = [mn; mx] /\ s_getP RA st P_MAX = Ok mx /\
     exists auc, s_auc RA st = Ok auc /\ auc = (1 + (gain (on_quality x) - gain (on_quality y)) * (loss (on_quality x) + loss (on_quality y)) / 2)%R /\
       ((0 <= loss (on_quality x))%R -> (0 <= loss (on_quality y))%R -> (1 <= auc)%R)).
Proof.
  intros t n Hn Sh th mn mx fuel prev Hth [H0 H1] H3. destruct (o_ok RA t n Hn Sh mn) as (x & Ex & _). destruct (o_ok RA t n Hn Sh mx) as (y & Ey & _).
  destruct (C94_ordered RA t n Hn Sh fuel prev th mn mx) as (st & E & En); try (apply ltb_RA_false; cbn; lra); [apply ltb_RA; lra|].
  exists st, x, y. split; [exact E|]. split; [exact En|]. split; [exact Ex|]. split; [exact Ey|]. intro Ne.
  destruct (reversed_auc _ _ _ _ _ _ _ _ _ _ _ H1 Ex Ey Ne En) as (K1 & K2 & K3). split; [exact K1|]. split; [exact K2|]. eexists. split; [exact K3|]. split; [reflexivity|]. intros L1 L2.
  destruct (C27_ordered t n mx mn y x Hn Sh H0 H1 H3 Ey Ex) as [G _]. change (num RA) with R in *. nra.
Qed.
Print Assumptions C94_ordered_real.

Theorem C94_hier_real : forall m, well_built m -> 2 <= m_hsize m -> forall (t : list (quality RA)), vlen t = m_hsize m ->
  forall (th mn mx : R) fuel prev, (0 <= th)%R -> (0 <= mx < mn)%R -> (mn <= 1)%R ->
  exists st x y, h_search RA false (S fuel) t m prev th mn mx = Ok st /\ ends_only RA (h_best RA t m) (hn_eqb RA) hn_quality (h_tuples RA) mn mx st /\
  h_best RA t m mn = Ok x /\ h_best RA t m mx = Ok y /\
  (hn_eqb RA y x = false -> ps_list st = [mn; mx] /\ s_getP RA st P_MAX = Ok mx /\
     exists auc, s_auc RA st = Ok auc /\ auc = (1 + (gain (hn_quality x) - gain (hn_quality y)) * (loss (hn_quality x) + loss (hn_quality y)) / 2)%R /\
       ((0 <= loss (hn_quality x))%R -> (0 <= loss (hn_quality y))%R -> (1 <= auc)%R)).
Proof.
  intros m W H2 t Ht th mn mx fuel prev Hth [H0 H1] H3. destruct (h_ok m W H2 RA t Ht mn) as (x & Ex & _). destruct (h_ok m W H2 RA t Ht mx) as (y & Ey & _).
  destruct (C94_hier m W H2 RA t Ht fuel prev th mn mx) as (st & E & En); try (apply ltb_RA_false; cbn; lra); [apply ltb_RA; lra|].
  exists st, x, y. split; [exact E|]. split; [exact En|]. split; [exact Ex|]. split; [exact Ey|]. intro Ne.
  destruct (reversed_auc _ _ _ _ _ _ _ _ _ _ _ H1 Ex Ey Ne En) as (K1 & K2 & K3). split; [exact K1|]. split; [exact K2|]. eexists. split; [exact K3|]. split; [reflexivity|]. intros L1 L2.
  destruct (C27_hier m W H2 t mx mn y x Ht H0 H1 H3 Ey Ex) as [G _]. change (num RA) with R in *. nra.
Qed.
Print Assumptions C94_hier_real.

Theorem C94_spatio_real : forall m, well_built m -> forall (t : list (utm (quality RA))) n, 1 <= n <= 65535 -> vlen t = m_hsize m -> Forall (fun u => utm_shape u n) t ->
  forall (th mn mx : R) fuel prev, (0 <= th)%R -> (0 <= mx < mn)%R -> (mn <= 1)%R ->
  exists st x y, d_search RA false (S fuel) t m prev th mn mx = Ok st /\ ends_only RA (d_best RA t m) (dn_eqb RA) dn_quality (d_tuples RA) mn mx st /\
  d_best RA t m mn = Ok x /\ d_best RA t m mx = Ok y /\
  (dn_eqb RA y x = false -> ps_list st = [mn; mx] /\ s_getP RA st P_MAX = Ok mx /\
     exists auc, s_auc RA st = Ok auc /\ auc = (1 + (gain (dn_quality x) - gain (dn_quality y)) * (loss (dn_quality x) + loss (dn_quality y)) / 2)%R /\
       ((0 <= loss (dn_quality x))%R -> (0 <= loss (dn_quality y))%R -> (1 <= auc)%R)).
Proof.
  intros m W t n Hn Ht F th mn mx fuel prev Hth [H0 H1] H3. destruct (d_ok m W RA t n Hn Ht F mn) as (x & Ex & _). destruct (d_ok m W RA t n Hn Ht F mx) as (y & Ey & _).
  destruct (C94_spatio m W RA t n Hn Ht F fuel prev th mn mx) as (st & E & En); try (apply ltb_RA_false; cbn; lra); [apply ltb_RA; lra|].
  exists st, x, y. split; [exact E|]. split; [exact En|]. split; [exact Ex|]. split; [exact Ey|]. intro Ne.
  destruct (reversed_auc _ _ _ _ _ _ _ _ _ _ _ H1 Ex Ey Ne En) as (K1 & K2 & K3). split; [exact K1|]. split; [exact K2|]. eexists. split; [exact K3|]. split; [reflexivity|]. intros L1 L2.
  destruct (C27_spatio m W t n mx mn y x Hn Ht F H0 H1 H3 Ey Ex) as [G _]. change (num RA) with R in *. nra.
Qed.
Print Assumptions C94_spatio_real.

(** ** The machine's float parameters: any two different floats of [0,1] in the wrong order, any finite threshold >= 0. *)
Lemma ltb32_false : forall a b : f32, is_finite a = true -> is_finite b = true -> (B2R b <= B2R a)%R -> Bltb a b = false.
Proof. intros a b Fa Fb H. destruct (Bltb a b) eqn:E; [|reflexivity]. apply ltb32 in E; auto. lra. Qed.
Lemma reversed_floats : forall th mn mx : f32, is_finite th = true -> (0 <= B2R th)%R -> unit32 mn -> unit32 mx -> (B2R mx < B2R mn)%R ->
  Bltb mn mn = false /\ Bltb mx mx = false /\ Bltb mx mn = true /\ Bltb mn mx = false /\ Bltb th (Bminus mode_NE mx mn) = false.
Proof.
  intros th mn mx Fth Hth Un Ux L. pose proof Un as [Fn _]. pose proof Ux as [Fx _]. repeat split; try (apply ltb32_false; auto; lra); [apply ltb32; auto|].
  destruct (minus32 mn mx Un Ux) as [Ed Fd]. apply ltb32_false; auto. rewrite Ed.
  assert (rnd32 (B2R mx - B2R mn) <= rnd32 0)%R by (apply rnd_le; lra). rewrite (round_0 radix2) in H by apply valid_rnd_N. lra.
Qed.

Theorem C94_ordered_ieee : forall lg (t : utm (quality (IA lg))) n, 0 <= n <= 65535 -> utm_shape t n ->
  forall (th mn mx : f32) fuel prev, is_finite th = true -> (0 <= B2R th)%R -> unit32 mn -> unit32 mx -> (B2R mx < B2R mn)%R ->
  exists st, o_search (IA lg) false (S fuel) t prev th mn mx = Ok st /\ ends_only (IA lg) (o_best (IA lg) t) (on_eqb (IA lg)) on_quality (o_tuples (IA lg)) mn mx st.
Proof. intros lg t n Hn Sh th mn mx fuel prev Fth Hth Un Ux L. destruct (reversed_floats th mn mx Fth Hth Un Ux L) as (N1 & N2 & N3 & N4 & N5). exact (C94_ordered (IA lg) t n Hn Sh fuel prev th mn mx N1 N2 N3 N4 N5). Qed.
Print Assumptions C94_ordered_ieee.

Theorem C94_hier_ieee : forall m, well_built m -> 2 <= m_hsize m -> forall lg (t : list (quality (IA lg))), vlen t = m_hsize m ->
  forall (th mn mx : f32) fuel prev, is_finite th = true -> (0 <= B2R th)%R -> unit32 mn -> unit32 mx -> (B2R mx < B2R mn)%R ->
  exists st, h_search (IA lg) false (S fuel) t m prev th mn mx = Ok st /\ ends_only (IA lg) (h_best (IA lg) t m) (hn_eqb (IA lg)) hn_quality (h_tuples (IA lg)) mn mx st.
Proof. intros m W H2 lg t Ht th mn mx fuel prev Fth Hth Un Ux L. destruct (reversed_floats th mn mx Fth Hth Un Ux L) as (N1 & N2 & N3 & N4 & N5). exact (C94_hier m W H2 (IA lg) t Ht fuel prev th mn mx N1 N2 N3 N4 N5). Qed.
Print Assumptions C94_hier_ieee.

Theorem C94_spatio_ieee : forall m, well_built m -> forall lg (t : list (utm (quality (IA lg)))) n, 1 <= n <= 65535 -> vlen t = m_hsize m -> Forall (fun u => utm_shape u n) t ->
  forall (th mn mx : f32) fuel prev, is_finite th = true -> (0 <= B2R th)%R -> unit32 mn -> unit32 mx -> (B2R mx < B2R mn)%R ->
  exists st, d_search (IA lg) false (S fuel) t m prev th mn mx = Ok st /\ ends_only (IA lg) (d_best (IA lg) t m) (dn_eqb (IA lg)) dn_quality (d_tuples (IA lg)) mn mx st.
Proof. intros m W lg t n Hn Ht F th mn mx fuel prev Fth Hth Un Ux L. destruct (reversed_floats th mn mx Fth Hth Un Ux L) as (N1 & N2 & N3 & N4 & N5). exact (C94_spatio m W (IA lg) t n Hn Ht F fuel prev th mn mx N1 N2 N3 N4 N5). Qed.
Print Assumptions C94_spatio_ieee.

(** ** Non-vacuity: [ex_table] (P_Ordered.v) with the range 1..0: the list is [1; 0], the area is above 1. *)
Example C94_ex : exists st, o_search RA false 1 ex_table (ps_empty RA) (1/4)%R 1%R 0%R = Ok st /\ ps_list st = [1%R; 0%R] /\ s_getP RA st P_MAX = Ok 0%R.
Proof.
  destruct (C94_ordered_real ex_table 2 ltac:(lia) ex_table_shape (1/4)%R 1%R 0%R 0%nat (ps_empty RA) ltac:(lra) ltac:(lra) ltac:(lra)) as (st & x & y & E & _ & Ex & Ey & H).
  exists st. split; [exact E|]. destruct H as (H1 & H2 & _); [|split; assumption]. apply (ex_eqb_diff 0 1 y x Ey Ex); lra.
Qed.
