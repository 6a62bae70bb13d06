(** * Property C103: normalize() only moves the slider. With G and L the gain and the loss of the whole, the best partition of
    the normalised table at p has the same parts as the best partition of the table as computed at p L / (p L + (1 - p) G).
    Exact arithmetic. *)
From Coq Require Import Reals Lra Lia List.
From Verif Require Import Base BaseFacts Arith Quality Utm UtmFacts UtmProofs Hierarchy HierarchyFacts HierarchyProofs SpecTree SpecParts SpecInfo SpecData SpecShape SpecResample Values Qualities Partitions Partitioners
  TreeFacts TreePath CoverFacts InfoFacts HFacts OFacts DFacts OProofs HProofs DProofs OInfo HQual DQual DReal LexR ODataProofs HDataProofs DDataProofs P_Hier P_OrderedData P_HierData P_Spatio P_SpatioData P_RNum P_Resample Sim.

(** Gains, losses and values multiplied by positive factors. *)
Definition twarp (c d lam : R) (t : tradeoff RA) : tradeoff RA := @mkT RA (@mkQ RA (c * gain (t_quality t))%R (d * loss (t_quality t))%R) (lam * t_value t)%R.

Lemma twarp_hom : forall c d lam, (0 < c)%R -> (0 < d)%R -> (0 < lam)%R -> thom RA RA (twarp c d lam).
Proof.
  intros c d lam Hc Hd Hl. change RA with (RP Rpar). constructor.
  - intros [[g l] v] [[g' l'] v']. unfold twarp, t_add, q_add. cbn. f_equal; [f_equal|]; ring.
  - unfold twarp, t_zero, q_zero. cbn. f_equal; [f_equal|]; ring.
  - intros [[g l] v] [[g' l'] v']. unfold twarp, t_gtb. cbn. rewrite !Rltb_scale, !Reqb_scale by auto. auto.
  - intros [[g l] v] [[g' l'] v']. unfold twarp, t_ltb, t_gtb, t_eqb. cbn. rewrite !Rltb_scale, !Reqb_scale by auto. auto.
Qed.

Lemma warp_pos : forall G L p, (0 < G)%R -> (0 < L)%R -> (0 <= p <= 1)%R -> (0 < p * L + (1 - p) * G)%R.
Proof. intros G L p HG HL Hp. destruct (Rle_lt_or_eq_dec 0 p (proj1 Hp)) as [H|<-]; [|lra]. assert (0 < p * L)%R by (apply Rmult_lt_0_compat; lra). assert (0 <= (1 - p) * G)%R by (apply Rmult_le_pos; lra). lra. Qed.

Lemma twarp_set : forall G L p p'' g l, (0 < G)%R -> (0 < L)%R -> (0 <= p <= 1)%R -> p'' = (p * L / (p * L + (1 - p) * G))%R ->
  twarp (/ G) (/ L) ((p * L + (1 - p) * G) / (G * L)) (t_set RA (@mkQ RA g l) p'') = t_set RA (@mkQ RA (/ G * g)%R (/ L * l)%R) p.
Proof.
  intros G L p p'' g l HG HL Hp ->. pose proof (warp_pos G L p HG HL Hp) as H. unfold twarp, t_set, pic. cbn. f_equal. field. repeat split; lra.
Qed.

Lemma warp_hom : forall G L p, (0 < G)%R -> (0 < L)%R -> (0 <= p <= 1)%R -> thom RA RA (twarp (/ G) (/ L) ((p * L + (1 - p) * G) / (G * L))).
Proof.
  intros G L p HG HL Hp. apply twarp_hom; [apply Rinv_0_lt_compat; lra|apply Rinv_0_lt_compat; lra|]. apply Rdiv_lt_0_compat; [apply warp_pos; auto|apply Rmult_lt_0_compat; lra].
Qed.

(** The moved parameter is a parameter of the same slider: it keeps the ends and the order. *)
Lemma moved : forall G L p, (0 < G)%R -> (0 < L)%R -> (0 <= p <= 1)%R -> (0 <= p * L / (p * L + (1 - p) * G) <= 1)%R.
Proof.
  intros G L p HG HL Hp. pose proof (warp_pos G L p HG HL Hp) as H. assert (0 <= p * L)%R by (apply Rmult_le_pos; lra). assert (0 <= (1 - p) * G)%R by (apply Rmult_le_pos; lra).
  split; [apply Rmult_le_pos; [lra|left; apply Rinv_0_lt_compat; lra]|]. apply (Rmult_le_reg_r (p * L + (1 - p) * G)); [lra|]. unfold Rdiv. rewrite Rmult_assoc, Rinv_l; lra.
Qed.

Theorem C103_ordered : forall (v : ovalues RA) rows t tn, odata_ok (P := Rpar) v rows -> 1 <= ov_osize v -> o_table RA v = Ok (Some t) -> o_ntable RA v = Ok (Some tn) ->
  let G := ogain rows 0 (ov_osize v - 1) in let L := oloss rows 0 (ov_osize v - 1) in (0 < G)%R -> (0 < L)%R ->
  forall (p p'' : R) x xn, (0 <= p <= 1)%R -> p'' = (p * L / (p * L + (1 - p) * G))%R -> o_best RA t p'' = Ok x -> o_best RA tn p = Ok xn ->
  (0 <= p'' <= 1)%R /\ map (fun q => (op_start q, op_end q)) (on_parts xn) = map (fun q => (op_start q, op_end q)) (on_parts x) /\
  (* and its gain and loss are those of that partition over G and L *)
  gain (on_quality xn) = (gain (on_quality x) / G)%R /\ loss (on_quality xn) = (loss (on_quality x) / L)%R.
Proof.
  intros v rows t tn D H1 Et Etn G L HG HL p p'' x xn Hp Ep Ex Exn. split; [rewrite Ep; apply moved; auto|].
  pose proof (o_ntable_data _ _ _ D H1 Etn) as U'. fold G L in U'. pose proof (otable_repr Rpar t _ rows (D_n Rpar v rows D) (o_table_data _ _ _ D Et)) as U.
  assert (Q : ocoords xn = ocoords x); [|split; [exact Q|]; destruct (o_total Rpar tn _ _ _ p xn (D_n Rpar v rows D) U' Exn) as (_ & Q1 & Q2); destruct (o_total Rpar t _ _ _ p'' x (D_n Rpar v rows D) U Ex) as (_ & Q3 & Q4);
    change RA with (RP Rpar) in *; rewrite Q1, Q2, Q3, Q4, Q, !Rsum_scal; unfold Rdiv; split; apply Rmult_comm].
  refine (o_sim RA RA _ (warp_hom G L p HG HL Hp) p'' p _ _ _ _ t tn x xn U U' Ex Exn). intros i j _ _. apply (twarp_set G L p p'' _ _ HG HL Hp Ep).
Qed.
Print Assumptions C103_ordered.

Theorem C103_hier : forall (v : hvalues RA) comps m t tn, hdata_ok (P := Rpar) v comps -> h_table RA (Ok v) = Ok (Some t, m) -> h_ntable RA (Ok v) = Ok (Some tn, m) -> m_root m = m_hsize m - 1 ->
  let G := hgain m comps (m_root m) in let L := hloss m comps (m_root m) in (0 < G)%R -> (0 < L)%R ->
  forall (p p'' : R) x xn, (0 <= p <= 1)%R -> p'' = (p * L / (p * L + (1 - p) * G))%R -> h_best RA t m p'' = Ok x -> h_best RA tn m p = Ok xn ->
  (0 <= p'' <= 1)%R /\ map (fun y => (hp_h y, hp_size y)) (hn_parts xn) = map (fun y => (hp_h y, hp_size y)) (hn_parts x) /\
  gain (hn_quality xn) = (gain (hn_quality x) / G)%R /\ loss (hn_quality xn) = (loss (hn_quality x) / L)%R.
Proof.
  intros v comps m t tn D Et Etn R1 G L HG HL p p'' x xn Hp Ep Ex Exn. split; [rewrite Ep; apply moved; auto|].
  change RA with (RP Rpar) in *. destruct (h_compute_prf Rpar v comps D) as (t1 & E1 & T). unfold h_table in Et. unfold h_ntable in Etn. cbn [bind] in Et, Etn. rewrite E1 in Et, Etn. cbn [bind hq_table hq_meta] in Et, Etn.
  injection Et as -> Em. destruct D as (_ & W & H2 & _). rewrite Em in *. pose proof (root_node _ W) as Hr. pose proof (htable_repr Rpar m t comps T) as U.
  destruct (C16_hier_root_last (RP Rpar) (Some v) t _ _ W R1 (proj1 T) (proj2 T _ Hr)) as (t2 & E2 & L2 & K). rewrite E2 in Etn. cbn [bind hq_table hq_meta] in Etn. injection Etn as ->.
  assert (U' : vrepr tn (m_hsize m) (fun h => @mkQ RA (/ G * hgain m comps h)%R (/ L * hloss m comps h)%R)).
  { split; [exact L2|]. intros h Hh. rewrite (K h _ Hh (proj2 T h Hh)). cbn [gain loss]. f_equal. change (n_div (RP Rpar)) with Rdiv. unfold Rdiv. f_equal; change (num (RP Rpar)) with R; apply Rmult_comm. }
  assert (Q : hcoords xn = hcoords x).
  2: { split; [exact Q|]. assert (Q' : map hp_h (hn_parts xn) = map hp_h (hn_parts x)) by (apply (f_equal (map fst)) in Q; unfold hcoords in Q; rewrite !map_map in Q; exact Q).
    destruct (h_total Rpar m W H2 tn _ _ p xn U' Exn) as (_ & Q1 & Q2). destruct (h_total Rpar m W H2 t _ _ p'' x U Ex) as (_ & Q3 & Q4).
    rewrite Q1, Q2, Q3, Q4, Q', !Rsum_scal. unfold Rdiv. split; apply Rmult_comm. }
  refine (h_sim RA RA _ (warp_hom G L p HG HL Hp) p'' p m W H2 _ _ _ t tn x xn U U' Ex Exn). intros h _. apply (twarp_set G L p p'' _ _ HG HL Hp Ep).
Qed.
Print Assumptions C103_hier.

Theorem C103_spatio : forall (v : dvalues RA) comps m t tn, ddata_ok (P := Rpar) v comps -> d_table RA (Ok v) = Ok (Some t, m) -> d_ntable RA (Ok v) = Ok (Some tn, m) -> m_root m = m_hsize m - 1 ->
  let G := dgain m comps (m_root m) 0 (dv_osize v - 1) in let L := dloss m comps (m_root m) 0 (dv_osize v - 1) in (0 < G)%R -> (0 < L)%R ->
  forall (p p'' : R) x xn, (0 <= p <= 1)%R -> p'' = (p * L / (p * L + (1 - p) * G))%R -> d_best RA t m p'' = Ok x -> d_best RA tn m p = Ok xn ->
  (0 <= p'' <= 1)%R /\ map (fun y => (rect y, dp_size y)) (dn_parts xn) = map (fun y => (rect y, dp_size y)) (dn_parts x) /\
  gain (dn_quality xn) = (gain (dn_quality x) / G)%R /\ loss (dn_quality xn) = (loss (dn_quality x) / L)%R.
Proof.
  intros v comps m t tn D Et Etn R1 G L HG HL p p'' x xn Hp Ep Ex Exn. split; [rewrite Ep; apply moved; auto|].
  change RA with (RP Rpar) in *. destruct (d_compute_prf Rpar v comps D) as (t1 & E1 & T). unfold d_table in Et. unfold d_ntable in Etn. cbn [bind] in Et, Etn. rewrite E1 in Et, Etn. cbn [bind dq_table dq_meta] in Et, Etn.
  injection Et as -> Em. pose proof D as (_ & Hn & W & _). rewrite Em in *. pose proof (root_node _ W) as Hr. pose proof (dtable_repr Rpar _ _ Hn t comps T) as U. pose proof T as (S0 & F0 & _).
  destruct (C17_spatio_root_last (RP Rpar) v t m _ W R1 Hn S0 F0 (mrepr_get _ _ _ _ _ _ 0 (dv_osize v - 1) U Hr ltac:(lia) ltac:(lia))) as (t2 & E2 & L2 & F2 & K). rewrite E2 in Etn. cbn [bind dq_table dq_meta] in Etn. injection Etn as ->.
  assert (U' : mrepr tn (m_hsize m) (dv_osize v) (fun h i j => @mkQ RA (/ G * dgain m comps h i j)%R (/ L * dloss m comps h i j)%R)).
  { eapply mrepr_ext; [apply (shape_mrepr _ tn _ _ (q_zero (RP Rpar))); auto; lia|]. intros h i j Hh Hi Hj. cbv beta.
    rewrite (K h i j _ Hh Hi Hj (mrepr_get _ _ _ _ _ _ _ _ U Hh Hi Hj)). cbn [gain loss]. change (n_div (RP Rpar)) with Rdiv. unfold Rdiv. f_equal; change (num (RP Rpar)) with R; apply Rmult_comm. }
  assert (Q : map (fun y => (rect y, dp_size y)) (dn_parts xn) = map (fun y => (rect y, dp_size y)) (dn_parts x)).
  2: { split; [exact Q|]. assert (Q' : map rect (dn_parts xn) = map rect (dn_parts x)) by (apply (f_equal (map fst)) in Q; rewrite !map_map in Q; exact Q).
    destruct (d_total Rpar m W _ Hn _ _ tn p xn U' Exn) as (_ & Q1 & Q2). destruct (d_total Rpar m W _ Hn _ _ t p'' x U Ex) as (_ & Q3 & Q4).
    assert (Sc : forall (c : R) (f : Z -> Z -> Z -> R) l, Rsum (un3 (fun h i j => (c * f h i j)%R)) l = (c * Rsum (un3 f) l)%R) by (intros c f l; rewrite <- Rsum_scal; apply Rsum_ext; intros [[h i] j] _; reflexivity).
    rewrite Q1, Q2, Q3, Q4, Q', !Sc. unfold Rdiv. split; apply Rmult_comm. }
  refine (d_sim RA RA _ (warp_hom G L p HG HL Hp) p'' p m W (dv_osize v) _ _ Hn _ t tn x xn U U' Ex Exn). intros h i j _ _ _. apply (twarp_set G L p p'' _ _ HG HL Hp Ep).
Qed.
Print Assumptions C103_spatio.

(** Every parameter of the table as computed is met: normalize() makes no partition unreachable. *)
Theorem C103_onto : forall G L q : R, (0 < G)%R -> (0 < L)%R -> (0 <= q <= 1)%R -> exists p, (0 <= p <= 1)%R /\ q = (p * L / (p * L + (1 - p) * G))%R.
Proof.
  intros G L q HG HL Hq. exists (q * G / (q * G + (1 - q) * L))%R. pose proof (moved L G q HL HG Hq) as M. split; [exact M|].
  pose proof (warp_pos L G q HL HG Hq) as H. set (d := (q * G + (1 - q) * L)%R) in *. assert (E : (1 - q * G / d = (1 - q) * L / d)%R) by (unfold d in *; field; lra).
  rewrite E. replace (q * G / d * L + (1 - q) * L / d * G)%R with (G * L / d)%R by (field; lra). field. repeat split; lra.
Qed.
(** And the slider keeps its direction. *)
Theorem C103_increasing : forall G L p1 p2 : R, (0 < G)%R -> (0 < L)%R -> (0 <= p1)%R -> (p1 < p2)%R -> (p2 <= 1)%R ->
  (p1 * L / (p1 * L + (1 - p1) * G) < p2 * L / (p2 * L + (1 - p2) * G))%R.
Proof.
  intros G L p1 p2 HG HL H1 H H2. pose proof (warp_pos G L p1 HG HL ltac:(lra)) as D1. pose proof (warp_pos G L p2 HG HL ltac:(lra)) as D2.
  set (d1 := (p1 * L + (1 - p1) * G)%R) in *. set (d2 := (p2 * L + (1 - p2) * G)%R) in *.
  apply (Rmult_lt_reg_r (d1 * d2)); [apply Rmult_lt_0_compat; lra|]. replace (p1 * L / d1 * (d1 * d2))%R with (p1 * L * d2)%R by (field; lra). replace (p2 * L / d2 * (d1 * d2))%R with (p2 * L * d1)%R by (field; lra).
  assert (0 < (p2 - p1) * (G * L))%R by (apply Rmult_lt_0_compat; [lra|apply Rmult_lt_0_compat; lra]). unfold d1, d2. lra.
Qed.
Print Assumptions C103_onto.
Print Assumptions C103_increasing.
