(** * Property C83: POpt and AUC as the R functions return them, in the code's own arithmetic.

    [rr_quals r] are the rows (p, gain, loss) of the data frame Qualities, with the doubles that R shows; [sane_row] says that gain and loss
    are finite and between -1 and 2; [summary_ok] (SpecAuc.v) says what POpt and AUC are in terms of these rows. *)
From Coq Require Import Lia Sorting.Sorted Reals Lra.
From Flocq Require Import Core BinarySingleNaN.
From Verif Require Import Base BaseFacts Arith Quality Utm UtmFacts UtmProofs Hierarchy SpecTree TreeFacts HierarchyFacts HierarchyProofs SpecParts SpecInfo Values Qualities Partitions Partitioners
  OProofs HProofs DProofs SpecData SpecValues Search SpecSearch SearchFacts SearchProofs SearchInst P_Search RApi SpecR RFacts P_RApi P_RCurve P_RBest SpecBest Ieee SpecIeee IeeeFacts SpecNear SpecNum P_RDefined
  SpecNorm SpecRNum RNumFacts SpecAuc AucNum LogRef P_RNum P_RNumEx.

(** ** Whatever the data, when the rows shown are sane. *)
Theorem C83_ordered : forall lg (th : f32) (micro : rarray (IA lg)) d0 d1 d2 fuel r, thr32 th -> r_cube micro d0 d1 d2 -> d2 <= 65535 ->
  r_oaggregate (IA lg) as_double false fuel micro th = Ok r -> Forall sane_row (rr_quals r) -> summary_ok (rr_quals r) (rr_popt r) (rr_auc r).
Proof.
  intros lg th micro d0 d1 d2 fuel r Ht C Hn Er Sa. pose proof C as (_ & H0 & H1 & H2 & _).
  destruct (C61_ieee_parameters lg th Ht) as (Irr & B & D0 & D1 & L01).
  destruct (o_setup (IA lg) micro d0 d1 d2 C Hn) as (m & ta & t & q0 & Em & Sh & Ho & Ec & En & St0 & St & Gq & Er0).
  rewrite Er0 in Er. apply bind_ok in Er. destruct Er as (st & Es & Ef).
  pose proof (C30_ordered (IA lg) t d2 ltac:(lia) St unit32 th B fuel _ _ _ st D0 D1 L01 Es) as Ag.
  pose proof (search_tuples (IA lg) unit32 th B (o_best (IA lg) t) on_param (on_eqb (IA lg)) on_quality (o_tuples (IA lg)) (fun p _ => o_ok (IA lg) t d2 ltac:(lia) St p) fuel _ _ _ st D0 D1 L01 Es) as Tu.
  destruct (frames_prf (IA lg) (o_best (IA lg) t) on_quality (o_tuples (IA lg)) (o_row (IA lg) as_double) as_double Irr _ _ st r eq_refl Ag Tu Ef) as (_ & Kl & Eo & Ea & Eq & _).
  pose proof Ag as (So & _ & _ & _ & Kq & _). apply (frame_auc lg st); auto. apply (listed_unit lg _ _ _ _ _ _ _ Ag).
Qed.
Print Assumptions C83_ordered.

Theorem C83_hier : forall lg (th : f32) (micro : rarray (IA lg)) h root d0 d1 d2 fuel r, thr32 th -> r_cube micro d0 d1 d2 -> r_tree h d0 root ->
  r_haggregate (IA lg) as_double false fuel micro h th = Ok r -> Forall sane_row (rr_quals r) -> summary_ok (rr_quals r) (rr_popt r) (rr_auc r).
Proof.
  intros lg th micro h root d0 d1 d2 fuel r Ht C Tr Er Sa.
  destruct (C61_ieee_parameters lg th Ht) as (Irr & B & D0 & D1 & L01).
  destruct (h_setup (IA lg) micro d0 d1 d2 h _ C Tr) as (m & v & ta & t & q0 & Em & Ev & Sh & W & El & Ep & Ero & Ehs & Ec & En & Lt0 & Lt & Gq & Er0).
  pose proof Tr as (_ & _ & Hh). assert (Hz : 2 <= m_hsize (hv_meta v)) by lia. assert (Lt' : vlen t = m_hsize (hv_meta v)) by lia.
  rewrite Er0 in Er. apply bind_ok in Er. destruct Er as (st & Es & Ef).
  pose proof (C30_hier _ W Hz (IA lg) t Lt' unit32 th B fuel _ _ _ st D0 D1 L01 Es) as Ag.
  pose proof (search_tuples (IA lg) unit32 th B (h_best (IA lg) t (hv_meta v)) hn_param (hn_eqb (IA lg)) hn_quality (h_tuples (IA lg)) (fun p _ => h_ok _ W Hz (IA lg) t Lt' p) fuel _ _ _ st D0 D1 L01 Es) as Tu.
  destruct (frames_prf (IA lg) (h_best (IA lg) t (hv_meta v)) hn_quality (h_tuples (IA lg)) (h_row (IA lg) as_double) as_double Irr _ _ st r eq_refl Ag Tu Ef) as (_ & Kl & Eo & Ea & Eq & _).
  pose proof Ag as (So & _ & _ & _ & Kq & _). apply (frame_auc lg st); auto. apply (listed_unit lg _ _ _ _ _ _ _ Ag).
Qed.
Print Assumptions C83_hier.

Theorem C83_spatio : forall lg (th : f32) (micro : rarray (IA lg)) h root d0 d1 d2 fuel r, thr32 th -> r_cube micro d0 d1 d2 -> d2 <= 65535 -> r_tree h d0 root ->
  r_daggregate (IA lg) as_double false fuel micro h th = Ok r -> Forall sane_row (rr_quals r) -> summary_ok (rr_quals r) (rr_popt r) (rr_auc r).
Proof.
  intros lg th micro h root d0 d1 d2 fuel r Ht C Hn Tr Er Sa. pose proof C as (_ & H0 & H1 & H2 & _).
  destruct (C61_ieee_parameters lg th Ht) as (Irr & B & D0 & D1 & L01).
  destruct (d_setup (IA lg) micro d0 d1 d2 h _ C Hn Tr) as (m & v & ta & t & q0 & Em & Ev & Sh & Eos & W & El & Ep & Ero & Ehs & Ec & En & (Lt0 & Ft0) & (Lt & Ft) & Gq & Er0).
  pose proof Tr as (_ & _ & Hh). assert (Hz : 2 <= m_hsize (dv_meta v)) by lia. assert (Lt' : vlen t = m_hsize (dv_meta v)) by lia. assert (Hn' : 1 <= d2 <= 65535) by lia.
  rewrite Er0 in Er. apply bind_ok in Er. destruct Er as (st & Es & Ef).
  pose proof (C30_spatio _ W (IA lg) t d2 Hn' Lt' Ft unit32 th B fuel _ _ _ st D0 D1 L01 Es) as Ag.
  pose proof (search_tuples (IA lg) unit32 th B (d_best (IA lg) t (dv_meta v)) dn_param (dn_eqb (IA lg)) dn_quality (d_tuples (IA lg)) (fun p _ => d_ok _ W (IA lg) t d2 Hn' Lt' Ft p) fuel _ _ _ st D0 D1 L01 Es) as Tu.
  destruct (frames_prf (IA lg) (d_best (IA lg) t (dv_meta v)) dn_quality (d_tuples (IA lg)) (d_row (IA lg) as_double) as_double Irr _ _ st r eq_refl Ag Tu Ef) as (_ & Kl & Eo & Ea & Eq & _).
  pose proof Ag as (So & _ & _ & _ & Kq & _). apply (frame_auc lg st); auto. apply (listed_unit lg _ _ _ _ _ _ _ Ag).
Qed.
Print Assumptions C83_spatio.

(** ** With data as in C82 (and an error bound of at most 1) every row is sane, so this holds of every result. *)
Lemma sane_of : forall p e1 e2 g l G L, (e1 <= 1)%R -> (e2 <= 1)%R -> within e1 g G -> within e2 l L -> (0 <= G <= 1)%R -> (0 <= L <= 1)%R -> sane_row (p, (g, l)).
Proof.
  intros p e1 e2 g l G L H1 H2 (Fg & Bg) (Fl & Bl) HG HL. apply Rabs_le_inv in Bg, Bl. unfold sane_row. split; [exact Fg|]. split; [exact Fl|]. split; lra.
Qed.

Theorem C83_ordered_data : forall lg E d (th : f32) (micro : rarray (IA lg)) d0 d1 d2, 32 <= E <= 8000 -> (0 <= d <= / 1024)%R -> log_accurate E d lg -> thr32 th ->
  r_cube micro d0 d1 d2 -> d2 <= 65535 -> d0 * d1 <= 2147483647 -> Forall (datum E) (ra_data micro) ->
  let ex := exact_array micro in let t0 := interval total ex d0 d1 1 d2 in let g0 := interval gain_of ex d0 d1 1 d2 in let l0 := interval loss_of ex d0 d1 1 d2 in
  (t0 <= bpow radix2 (E - 1))%R -> well_above E (d2 + d0 * d1) d t0 g0 -> well_above E (d2 + d0 * d1) d t0 l0 ->
  (ntot_err E d2 (d0 * d1) d t0 g0 + rd_err <= 1)%R -> (ntot_err E d2 (d0 * d1) d t0 l0 + rd_err <= 1)%R ->
  (exists fuel r, r_oaggregate (IA lg) as_double false fuel micro th = Ok r) /\
  forall fuel r, r_oaggregate (IA lg) as_double false fuel micro th = Ok r -> Forall sane_row (rr_quals r) /\ summary_ok (rr_quals r) (rr_popt r) (rr_auc r).
Proof.
  intros lg E d th micro d0 d1 d2 HE Hd HL Ht C Hn Hs Hdat ex t0 g0 l0 Htot HG HO HeG HeL.
  destruct (C82_ordered lg E d th micro d0 d1 d2 HE Hd HL Ht C Hn Hs Hdat Htot HG HO) as (Ex & K). split; [exact Ex|]. intros fuel r Er.
  assert (Sa : Forall sane_row (rr_quals r)).
  { apply Forall_forall. intros [p [g l]] I. destruct (K fuel r p g l Er I) as (_ & _ & _ & K1 & K2 & K3 & K4 & _). exact (sane_of _ _ _ _ _ _ _ HeG HeL K1 K2 K3 K4). }
  split; [exact Sa|]. apply (C83_ordered lg th micro d0 d1 d2 fuel r); auto.
Qed.
Print Assumptions C83_ordered_data.

Theorem C83_hier_data : forall lg E d (th : f32) (micro : rarray (IA lg)) h d0 d1 d2, 32 <= E <= 8000 -> (0 <= d <= / 1024)%R -> log_accurate E d lg -> thr32 th ->
  r_cube micro d0 d1 d2 -> r_tree h d0 (vlen h - 1) -> d0 <= 2147483647 -> d1 * d2 <= 2147483647 -> Forall (datum E) (ra_data micro) ->
  let ex := exact_array micro in let root := vlen h in
  let t0 := subtree total ex d0 d1 d2 h root in let g0 := subtree gain_of ex d0 d1 d2 h root in let l0 := subtree loss_of ex d0 d1 d2 h root in
  (t0 <= bpow radix2 (E - 1))%R -> well_above E (d0 + d1 * d2) d t0 g0 -> well_above E (d0 + d1 * d2) d t0 l0 ->
  (ntot_err E d0 (d1 * d2) d t0 g0 + rd_err <= 1)%R -> (ntot_err E d0 (d1 * d2) d t0 l0 + rd_err <= 1)%R ->
  (exists fuel r, r_haggregate (IA lg) as_double false fuel micro h th = Ok r) /\
  forall fuel r, r_haggregate (IA lg) as_double false fuel micro h th = Ok r -> Forall sane_row (rr_quals r) /\ summary_ok (rr_quals r) (rr_popt r) (rr_auc r).
Proof.
  intros lg E d th micro h d0 d1 d2 HE Hd HL Ht C Tr Hs0 Hs Hdat ex root t0 g0 l0 Htot HG HO HeG HeL.
  destruct (C82_hier lg E d th micro h d0 d1 d2 HE Hd HL Ht C Tr Hs0 Hs Hdat Htot HG HO) as (Ex & K). split; [exact Ex|]. intros fuel r Er.
  assert (Sa : Forall sane_row (rr_quals r)).
  { apply Forall_forall. intros [p [g l]] I. destruct (K fuel r p g l Er I) as (_ & _ & _ & K1 & K2 & K3 & K4 & _). exact (sane_of _ _ _ _ _ _ _ HeG HeL K1 K2 K3 K4). }
  split; [exact Sa|]. apply (C83_hier lg th micro h (vlen h - 1) d0 d1 d2 fuel r); auto.
Qed.
Print Assumptions C83_hier_data.

Theorem C83_spatio_data : forall lg E d (th : f32) (micro : rarray (IA lg)) h d0 d1 d2, 32 <= E <= 8000 -> (0 <= d <= / 1024)%R -> log_accurate E d lg -> thr32 th ->
  r_cube micro d0 d1 d2 -> d2 <= 65535 -> r_tree h d0 (vlen h - 1) -> d0 * d2 <= 2147483647 -> d1 <= 2147483647 -> Forall (datum E) (ra_data micro) ->
  let ex := exact_array micro in let root := vlen h in
  let t0 := rectangle total ex d0 d1 h root 1 d2 in let g0 := rectangle gain_of ex d0 d1 h root 1 d2 in let l0 := rectangle loss_of ex d0 d1 h root 1 d2 in
  (t0 <= bpow radix2 (E - 1))%R -> well_above E (d0 * d2 + d1) d t0 g0 -> well_above E (d0 * d2 + d1) d t0 l0 ->
  (ntot_err E (d0 * d2) d1 d t0 g0 + rd_err <= 1)%R -> (ntot_err E (d0 * d2) d1 d t0 l0 + rd_err <= 1)%R ->
  (exists fuel r, r_daggregate (IA lg) as_double false fuel micro h th = Ok r) /\
  forall fuel r, r_daggregate (IA lg) as_double false fuel micro h th = Ok r -> Forall sane_row (rr_quals r) /\ summary_ok (rr_quals r) (rr_popt r) (rr_auc r).
Proof.
  intros lg E d th micro h d0 d1 d2 HE Hd HL Ht C Hn Tr Hs0 Hs Hdat ex root t0 g0 l0 Htot HG HO HeG HeL.
  destruct (C82_spatio lg E d th micro h d0 d1 d2 HE Hd HL Ht C Hn Tr Hs0 Hs Hdat Htot HG HO) as (Ex & K). split; [exact Ex|]. intros fuel r Er.
  assert (Sa : Forall sane_row (rr_quals r)).
  { apply Forall_forall. intros [p [g l]] I. destruct (K fuel r p g l Er I) as (_ & _ & _ & K1 & K2 & K3 & K4 & _). exact (sane_of _ _ _ _ _ _ _ HeG HeL K1 K2 K3 K4). }
  split; [exact Sa|]. apply (C83_spatio lg th micro h (vlen h - 1) d0 d1 d2 fuel r); auto.
Qed.
Print Assumptions C83_spatio_data.

(** ** A case that meets all hypotheses (besides those shown by C82_nonvacuous): the error bounds of the example of C82 are far below 1. *)
Lemma ex_small : forall n k t g, 0 <= n <= 100 -> 0 <= k <= 100 -> (0 <= t <= 100)%R -> (1 <= g)%R -> (ntot_err 64 n k (bpow radix2 (-64)) t g + rd_err <= 1)%R.
Proof.
  intros n k t g Hn Hk Ht Hg. unfold ntot_err, norm_err, rd_err, num_err. 
  assert (K1 : (0 <= IZR (n + k) <= 200)%R) by (split; apply IZR_le; lia). assert (K2 : (0 <= IZR (n * n) <= 10000)%R) by (split; apply IZR_le; nia).
  assert (H64 : (0 < bpow radix2 (-64) <= / 1073741824)%R) by (split; [apply bpow_gt_0|change (/ 1073741824)%R with (bpow radix2 (-30)); apply bpow_le; lia]).
  assert (H56 : (0 < bpow radix2 (-56) <= / 1073741824)%R) by (split; [apply bpow_gt_0|change (/ 1073741824)%R with (bpow radix2 (-30)); apply bpow_le; lia]).
  assert (H59 : (0 < bpow radix2 (-59) <= / 1073741824)%R) by (split; [apply bpow_gt_0|change (/ 1073741824)%R with (bpow radix2 (-30)); apply bpow_le; lia]).
  assert (H49 : (0 < bpow radix2 (-49) <= / 1073741824)%R) by (split; [apply bpow_gt_0|change (/ 1073741824)%R with (bpow radix2 (-30)); apply bpow_le; lia]).
  assert (Q1 : (0 <= IZR (n + k) * bpow radix2 (-56) <= 200 * / 1073741824)%R) by (split; [apply Rmult_le_pos; lra|apply Rmult_le_compat; lra]).
  assert (Q2 : (IZR (n * n) * bpow radix2 (-59) <= 10000 * / 1073741824)%R) by (apply Rmult_le_compat; lra).
  assert (Q3 : (0 <= t / g <= 100)%R).
  { assert (Pi : (0 < / g <= 1)%R) by (split; [apply Rinv_0_lt_compat; lra|rewrite <- Rinv_1; apply Rinv_le; lra]).
    split; [apply Rmult_le_pos; lra|]. unfold Rdiv. replace 100%R with (100 * 1)%R by ring. apply Rmult_le_compat; lra. }
  set (b := (IZR (n + k) * bpow radix2 (-56))%R) in *.
  assert (Q4 : (6 * (64 * (75 * bpow radix2 (-64) + b)) * (t / g) <= 6 * (64 * (75 * / 1073741824 + 200 * / 1073741824)) * 100)%R).
  { apply Rmult_le_compat; lra. }
  lra.
Qed.

Example C83_nonvacuous : let d := bpow radix2 (-64) in let ex := exact_array exr_micro in
  ((ntot_err 64 4 (4 * 1) d (interval total ex 4 1 1 4) (interval gain_of ex 4 1 1 4) + rd_err <= 1)%R /\
   (ntot_err 64 4 (4 * 1) d (interval total ex 4 1 1 4) (interval loss_of ex 4 1 1 4) + rd_err <= 1)%R) /\
  ((ntot_err 64 4 (1 * 4) d (subtree total ex 4 1 4 exr_h 7) (subtree gain_of ex 4 1 4 exr_h 7) + rd_err <= 1)%R /\
   (ntot_err 64 4 (1 * 4) d (subtree total ex 4 1 4 exr_h 7) (subtree loss_of ex 4 1 4 exr_h 7) + rd_err <= 1)%R) /\
  ((ntot_err 64 (4 * 4) 1 d (rectangle total ex 4 1 exr_h 7 1 4) (rectangle gain_of ex 4 1 exr_h 7 1 4) + rd_err <= 1)%R /\
   (ntot_err 64 (4 * 4) 1 d (rectangle total ex 4 1 exr_h 7 1 4) (rectangle loss_of ex 4 1 exr_h 7 1 4) + rd_err <= 1)%R) /\
  exists fuel r, r_oaggregate (IA rounded_log) as_double false fuel exr_micro th8 = Ok r /\ summary_ok (rr_quals r) (rr_popt r) (rr_auc r).
Proof.
  cbv zeta.
  assert (E3 : ((ntot_err 64 4 (4 * 1) (bpow radix2 (-64)) (interval total (exact_array exr_micro) 4 1 1 4) (interval gain_of (exact_array exr_micro) 4 1 1 4) + rd_err <= 1)%R /\
   (ntot_err 64 4 (4 * 1) (bpow radix2 (-64)) (interval total (exact_array exr_micro) 4 1 1 4) (interval loss_of (exact_array exr_micro) 4 1 1 4) + rd_err <= 1)%R)).
  { rewrite exr_exact. destruct exr_ov as (-> & -> & ->). split; apply ex_small; lia || lra. }
  split; [exact E3|]. split; [|split].
  - rewrite exr_exact. destruct exr_hv as (-> & -> & ->). split; apply ex_small; lia || lra.
  - rewrite exr_exact. destruct exr_dv as (-> & -> & ->). split; apply ex_small; lia || lra.
  - destruct C82_nonvacuous as (H1 & H2 & H3 & _ & H4 & (H5 & H6 & H7) & _).
    assert (Hd : (0 <= bpow radix2 (-64) <= / 1024)%R) by (split; [apply bpow_ge_0|change (/ 1024)%R with (bpow radix2 (-10)); apply bpow_le; lia]).
    destruct (C83_ordered_data rounded_log 64 (bpow radix2 (-64)) th8 exr_micro 4 1 4 ltac:(lia) Hd H1 H2 H3 ltac:(lia) ltac:(lia) H4 H5 H6 H7 (proj1 E3) (proj2 E3)) as ((fuel & r & Er) & K').
    exists fuel, r. split; [exact Er|]. apply (K' fuel r Er).
Qed.
