(** * Qualities of the returned partitions lie in [0,1] for normalised non-negative data; selection over a search result. *)
From Coq Require Import Reals Lra Lia Sorting.Sorted.
From Verif Require Import Base BaseFacts Arith Quality Utm UtmFacts UtmProofs Hierarchy SpecTree SpecParts SpecInfo SpecData HierarchyFacts
  Values Qualities Partitions Partitioners CoverFacts InfoFacts OInfo DataFacts NormFacts OReal OProofs ODataProofs
  HQual HReal HProofs HDataProofs DQual DReal DProofs DDataProofs
  Search SpecSearch SearchFacts SearchProofs SearchReal SearchInst SearchGet P_HierData P_SpatioData.

Lemma o_best_unit : forall (v : ovalues RA) rows o o' t, odata_ok v rows -> Forall nonneg rows -> 1 <= ov_osize v ->
  ogain rows 0 (ov_osize v - 1) <> 0%R -> oloss rows 0 (ov_osize v - 1) <> 0%R ->
  oq_compute RA (oq_ofValues RA v) = Ok o -> oq_normalize RA o = Ok o' -> oq_table o' = Some t ->
  utm_shape t (ov_osize v) /\ (forall p x, o_best RA t p = Ok x -> (0 <= gain (on_quality x) <= 1)%R /\ (0 <= loss (on_quality x) <= 1)%R).
Proof.
  intros v rows o o' t D NN Hn G0 L0 E En Et. change RA with (RP Rpar) in *. destruct (o_compute_data Rpar v rows D) as (t1 & E' & T1).
  rewrite E in E'. inversion E'; subst o. destruct (o_normalized Rpar v rows t1 D Hn T1) as (t2 & E2 & T2).
  rewrite En in E2. inversion E2; subst o'. cbn in Et. inversion Et; subst t2. split; [apply T2|]. intros p x Ex.
  pose proof (D_n Rpar v rows D) as B. pose proof (D_len Rpar v rows D) as HL.
  assert (U : urepr t (ov_osize v) (fun i j => @mkQ (RP Rpar) (ogain rows i j / ogain rows 0 (ov_osize v - 1))%R (oloss rows i j / oloss rows 0 (ov_osize v - 1))%R)).
  { destruct T2 as [S H]. destruct (shape_repr _ t _ B S (q_zero (RP Rpar))) as [f R'].
    eapply urepr_ext; [exact R'|]. intros i j Hi Hj. pose proof (urepr_get _ _ _ _ i j R' Hi Hj) as K. rewrite H in K by auto. congruence. }
  destruct (o_total Rpar t _ (fun i j => ogain rows i j / ogain rows 0 (ov_osize v - 1))%R (fun i j => oloss rows i j / oloss rows 0 (ov_osize v - 1))%R p x B U Ex) as (Tl & EG & EL).
  rewrite EG, EL, (Rsum_div _ (fun ab => ogain rows (fst ab) (snd ab))), (Rsum_div _ (fun ab => oloss rows (fst ab) (snd ab))).
  destruct (o_whole Rpar v rows D NN _ Tl) as [W1 W2].
  split; apply ratio_range; auto; split; auto; apply Rsum_nonneg; intros; [eapply ogain_nonneg|eapply oloss_nonneg]; eauto.
Qed.

Lemma h_best_unit : forall (v : hvalues RA) comps o o' t, hdata_ok v comps -> Forall nonneg comps ->
  m_root (hv_meta v) = m_hsize (hv_meta v) - 1 ->
  hgain (hv_meta v) comps (m_root (hv_meta v)) <> 0%R -> hloss (hv_meta v) comps (m_root (hv_meta v)) <> 0%R ->
  hq_compute RA (hq_ofValues RA v) = Ok o -> hq_normalize RA o = Ok o' -> hq_table o' = Some t ->
  vlen t = m_hsize (hv_meta v) /\ (forall p x, h_best RA t (hv_meta v) p = Ok x -> (0 <= gain (hn_quality x) <= 1)%R /\ (0 <= loss (hn_quality x) <= 1)%R).
Proof.
  intros v comps o o' t D NN Er G0 L0 E En Et. change RA with (RP Rpar) in *. destruct (h_compute_prf Rpar v comps D) as (t1 & E' & T).
  rewrite E in E'. inversion E'; subst o. pose proof (hdata_len Rpar v comps D) as CL. destruct D as (_ & W & H2 & _).
  pose proof (root_node _ W) as Hr.
  destruct (C16_hier_root_last (RP Rpar) (Some v) t1 _ _ W Er (proj1 T) (proj2 T _ Hr)) as (t2 & E2 & L2 & K).
  rewrite En in E2. inversion E2; subst o'. cbn in Et. inversion Et; subst t2. split; auto. intros p x Ex. cbn [gain loss] in K.
  set (m := hv_meta v) in *.
  assert (U : vrepr t (m_hsize m) (fun h => @mkQ (RP Rpar) (hgain m comps h / hgain m comps (m_root m))%R (hloss m comps h / hloss m comps (m_root m))%R)).
  { split; auto. intros h Hh. apply (K h _ Hh (proj2 T h Hh)). }
  destruct (h_total Rpar m W H2 t _ _ p x U Ex) as (C & EG & EL). rewrite EG, EL, (Rsum_div _ (hgain m comps)), (Rsum_div _ (hloss m comps)).
  destruct (h_super m W comps CL NN (m_root m) (map hp_h (hn_parts x))) as [K1 K2].
  { apply node_split_perm; auto. apply node_cover_split; auto. }
  split; apply ratio_range; auto; split; auto; apply Rsum_nonneg; intros; [apply hgain_nonneg|apply hloss_nonneg]; auto.
Qed.

Lemma d_best_unit : forall (v : dvalues RA) comps o o' t, ddata_ok v comps -> Forall (Forall nonneg) comps ->
  m_root (dv_meta v) = m_hsize (dv_meta v) - 1 ->
  dgain (dv_meta v) comps (m_root (dv_meta v)) 0 (dv_osize v - 1) <> 0%R -> dloss (dv_meta v) comps (m_root (dv_meta v)) 0 (dv_osize v - 1) <> 0%R ->
  dq_compute RA (dq_ofValues RA v) = Ok o -> dq_normalize RA o = Ok o' -> dq_table o' = Some t ->
  vlen t = m_hsize (dv_meta v) /\ Forall (fun u => utm_shape u (dv_osize v)) t /\
  (forall p x, d_best RA t (dv_meta v) p = Ok x -> (0 <= gain (dn_quality x) <= 1)%R /\ (0 <= loss (dn_quality x) <= 1)%R).
Proof.
  intros v comps o o' t D NN Er G0 L0 E En Et. change RA with (RP Rpar) in *. destruct (d_compute_prf Rpar v comps D) as (t1 & E' & T1 & T2 & T3).
  rewrite E in E'. inversion E'; subst o. pose proof (ddata_comp Rpar v comps D) as CL. destruct D as (_ & Hn & W & H2 & _).
  pose proof (root_node _ W) as Hr. assert (Tr := T3 (m_root (dv_meta v)) 0 (dv_osize v - 1) Hr ltac:(lia) ltac:(lia)).
  destruct (C17_spatio_root_last (RP Rpar) v t1 _ _ W Er Hn T1 T2 Tr) as (t2 & E2 & L2 & F2 & K).
  rewrite En in E2. inversion E2; subst o'. cbn in Et. inversion Et; subst t2. split; auto. split; auto. intros p x Ex. cbn [gain loss] in K.
  set (m := dv_meta v) in *. set (n := dv_osize v) in *.
  assert (U : mrepr t (m_hsize m) n (fun h i j => @mkQ (RP Rpar) (dgain m comps h i j / dgain m comps (m_root m) 0 (n - 1))%R (dloss m comps h i j / dloss m comps (m_root m) 0 (n - 1))%R)).
  { eapply mrepr_ext; [apply (shape_mrepr _ t _ n (q_zero (RP Rpar))); auto; lia|].
    intros h i j Hh Hi Hj. cbn beta. rewrite (K _ _ _ _ Hh Hi Hj (T3 _ _ _ Hh Hi Hj)). auto. }
  destruct (d_total Rpar m W n Hn _ _ t p x U Ex) as (C & EG & EL).
  assert (X1 : Rsum (un3 (fun h i j => (dgain m comps h i j / dgain m comps (m_root m) 0 (n - 1))%R)) (map rect (dn_parts x)) =
    (Rsum (un3 (dgain m comps)) (map rect (dn_parts x)) / dgain m comps (m_root m) 0 (n - 1))%R).
  { rewrite <- Rsum_div. apply Rsum_ext. intros [[h a] b] _. reflexivity. }
  assert (X2 : Rsum (un3 (fun h i j => (dloss m comps h i j / dloss m comps (m_root m) 0 (n - 1))%R)) (map rect (dn_parts x)) =
    (Rsum (un3 (dloss m comps)) (map rect (dn_parts x)) / dloss m comps (m_root m) 0 (n - 1))%R).
  { rewrite <- Rsum_div. apply Rsum_ext. intros [[h a] b] _. reflexivity. }
  rewrite EG, EL, X1, X2.
  assert (B : forall y a b, In (y, a, b) (map rect (dn_parts x)) -> 0 <= a <= b /\ b < n) by (intros y a b Hy; destruct C as (_ & C & _); apply (C _ _ _ Hy)).
  destruct (d_super m W n comps CL NN (m_root m) 0 (n - 1) (map rect (dn_parts x))) as [K1 K2]; auto; try lia.
  { apply rect_split_perm; auto. apply rect_cover_split; auto. }
  split; apply ratio_range; auto; split; auto; apply Rsum_nonneg; intros [[y a] b] Hy; destruct (B _ _ _ Hy);
    [apply (dgain_nonneg m W n comps CL NN)|apply (dloss_nonneg m W n comps CL NN)]; auto.
Qed.

(** ** Selection *)
Section M.
Context {Pn Tu : Type}.
Notation pstate := (@pstate RA Pn Tu).

Lemma sorted_last : forall (l : list R), StronglySorted Rlt l -> l <> [] ->
  exists r, vget l (vlen l - 1) = Ok r /\ In r l /\ forall p, In p l -> (p <= r)%R.
Proof.
  intros l S N. destruct (exists_last N) as (l' & r & ->). exists r. split; [|split].
  - apply vget_nth. split; [unfold vlen; rewrite app_length; simpl; lia|].
    replace (Z.to_nat (vlen (l' ++ [r]) - 1)) with (length l') by (unfold vlen; rewrite app_length; simpl; lia).
    rewrite nth_error_app2, Nat.sub_diag by lia. auto.
  - apply in_or_app. simpl. auto.
  - intros p Hp. apply in_app_or in Hp. destruct Hp as [Hp|[->|[]]]; [|lra]. clear N.
    induction l' as [|a l' IH]; [destruct Hp|]. inversion S as [|? ? S1 S2]; subst. destruct Hp as [->|Hp]; auto.
    rewrite Forall_forall in S2. left. apply S2. apply in_or_app. simpl. auto.
Qed.

Lemma agree_keyed : forall (best : R -> res Pn) (qual : Pn -> quality RA) mn mx (st : pstate),
  results_agree RA best qual mn mx (ps_list st) (ps_parts st) (ps_qual st) -> keyed st /\ ps_list st <> [].
Proof.
  intros best qual mn mx st (S & H & _ & _ & K & _). split.
  - split; auto. apply SSorted_R. auto.
  - intro N. change (par RA) with R in *. rewrite N in H. discriminate.
Qed.

Lemma sorted_order : forall (l1 : list (R * quality RA)) r q l2 p q', StronglySorted Rlt (map fst (l1 ++ (r, q) :: l2)) ->
  (In (p, q') l1 -> (p < r)%R) /\ (In (p, q') l2 -> (r < p)%R).
Proof.
  intros l1 r q l2 p q' S. rewrite map_app in S. simpl in S. induction l1 as [|a l1 IH]; simpl in S.
  - inversion S as [|? ? S1 S2]; subst. split; [intros []|]. intro H. rewrite Forall_forall in S2. apply S2.
    apply (in_map fst) in H. exact H.
  - inversion S as [|? ? S1 S2]; subst. destruct (IH S1) as [H1 H2]. split; auto. intros [->|H]; auto.
    rewrite Forall_forall in S2. apply S2. simpl. apply in_or_app. simpl. auto.
Qed.

(** getP(P_OPT) on a search result: the closest to (1,0), the largest such parameter. *)
Lemma popt_best : forall st : pstate, keyed st ->
  (forall p q, In (p, q) (ps_qual st) -> (score q <= IZR RAND_MAX)%R ->
     exists r qr, s_getP RA st P_OPT = Ok r /\ In (r, qr) (ps_qual st) /\
       forall p' q', In (p', q') (ps_qual st) -> (score qr < score q')%R \/ (score qr = score q' /\ (p' <= r)%R)) /\
  ((forall p q, In (p, q) (ps_qual st) -> (IZR RAND_MAX < score q)%R) -> s_getP RA st P_OPT = UB).
Proof.
  intros st K. destruct (popt_spec st K) as [H1 H2]. split; auto. intros p q H L.
  destruct (H1 p q H L) as (l1 & r & qr & l2 & E & Eq & F1 & F2). exists r, qr. split; auto.
  change (par RA) with R in *.
  split; [rewrite Eq; apply in_or_app; simpl; auto|]. destruct K as [K S]. change (par RA) with R in *. rewrite <- K, Eq in S.
  intros p' q' H'. rewrite Eq in H'. destruct (sorted_order l1 r qr l2 p' q' S) as [O1 O2].
  apply in_app_or in H'. destruct H' as [H'|[H'|H']].
  - specialize (F1 _ _ H'). specialize (O1 H'). destruct (Rle_lt_or_eq_dec _ _ F1); [left|right; split]; auto. lra.
  - inversion H'; subst. right. split; auto. lra.
  - left. eauto.
Qed.

Lemma getP_agree : forall (best : R -> res Pn) (qual : Pn -> quality RA) mn mx (st : pstate),
  results_agree RA best qual mn mx (ps_list st) (ps_parts st) (ps_qual st) ->
  s_getP RA st P_MIN = Ok 0%R /\
  (exists r, s_getP RA st P_MAX = Ok r /\ In r (ps_list st) /\ forall p, In p (ps_list st) -> (p <= r)%R) /\
  (forall p q, In (p, q) (ps_qual st) -> (score q <= IZR RAND_MAX)%R ->
     exists r qr, s_getP RA st P_OPT = Ok r /\ In (r, qr) (ps_qual st) /\
       forall p' q', In (p', q') (ps_qual st) -> (score qr < score q')%R \/ (score qr = score q' /\ (p' <= r)%R)) /\
  ((forall p q, In (p, q) (ps_qual st) -> (IZR RAND_MAX < score q)%R) -> s_getP RA st P_OPT = UB) /\
  (forall z, z <> P_MIN -> z <> P_MAX -> z <> P_OPT -> s_getP RA st z = Ok 0%R).
Proof.
  intros best qual mn mx st H. destruct (agree_keyed _ _ _ _ _ H) as [K N]. split; auto. split.
  { destruct (sorted_last _ (proj2 K) N) as (r & E & I1 & I2). exists r. split; auto. }
  destruct (popt_best st K) as [H1 H2]. split; auto. split; auto. intros z Z0 Z1 Z2. unfold s_getP.
  apply Z.eqb_neq in Z0, Z1, Z2. rewrite Z0, Z1, Z2. auto.
Qed.

(** The listed qualities form a curve when gain and loss are within [0,1] and gain grows. *)
Lemma curve_of : forall (qs : list (R * quality RA)), StronglySorted Rlt (map fst qs) ->
  (forall p q, In (p, q) qs -> (0 <= gain q <= 1)%R /\ (0 <= loss q <= 1)%R) ->
  (forall p q p' q', In (p, q) qs -> In (p', q') qs -> (p < p')%R -> (gain q <= gain q')%R) -> curve (pts qs).
Proof.
  intros qs S U M. split.
  - induction qs as [|[p q] qs IH]; [constructor|]. inversion S as [|? ? S1 S2]; subst. simpl. constructor.
    + apply IH; auto; intros; [apply (U p0); simpl; auto|apply (M p0 q0 p' q'); simpl; auto].
    + apply Forall_forall. intros g Hg. unfold pts in Hg. rewrite map_map in Hg. apply in_map_iff in Hg. destruct Hg as ([p' q'] & <- & Hq).
      simpl. apply (M p q p' q'); simpl; auto. rewrite Forall_forall in S2. apply S2. apply (in_map fst) in Hq. exact Hq.
  - apply Forall_forall. intros [g l] H. unfold pts in H. apply in_map_iff in H. destruct H as ([p q] & E & H). inversion E; subst. simpl. apply (U p q H).
Qed.

Lemma auc_agree : forall (best : R -> res Pn) (qual : Pn -> quality RA) mn mx (st : pstate),
  (0 <= mn)%R -> (mx <= 1)%R ->
  results_agree RA best qual mn mx (ps_list st) (ps_parts st) (ps_qual st) ->
  (mn < mx)%R ->
  (forall p x, best p = Ok x -> (0 <= gain (qual x) <= 1)%R /\ (0 <= loss (qual x) <= 1)%R) ->
  (forall p1 p2 x1 x2, (0 <= p1)%R -> (p1 < p2)%R -> (p2 <= 1)%R -> best p1 = Ok x1 -> best p2 = Ok x2 -> (gain (qual x1) <= gain (qual x2))%R) ->
  (exists a, s_auc RA st = Ok a /\ (0 <= a <= 1)%R) /\
  (exists r q, s_getP RA st P_OPT = Ok r /\ In (r, q) (ps_qual st)).
Proof.
  intros best qual mn mx st H0 H1 H Hlt U M. destruct (agree_keyed _ _ _ _ _ H) as [K N].
  destruct H as (S & _ & Rg & _ & Kq & _ & Hq). change (par RA) with R in *.
  assert (Uq : forall p q, In (p, q) (ps_qual st) -> (0 <= gain q <= 1)%R /\ (0 <= loss q <= 1)%R).
  { intros p q I. destruct (Hq p q I) as (x & E & ->). apply (U p x E). }
  split.
  - apply auc_range; auto. destruct K as [K S']. change (par RA) with R in *. apply curve_of; auto; [rewrite K; auto|].
    intros p q p' q' I1 I2 L. destruct (Hq p q I1) as (x & E & ->). destruct (Hq p' q' I2) as (x' & E' & ->).
    assert (P1 : In p (ps_list st)) by (rewrite <- K; apply (in_map fst) in I1; exact I1).
    assert (P2 : In p' (ps_list st)) by (rewrite <- K; apply (in_map fst) in I2; exact I2).
    apply (M p p' x x'); auto.
    + destruct (Rg p P1) as [->|[->|[A1 A2]]]; try apply plt_RA in A1; try apply plt_RA in A2; change (par RA) with R in *; lra.
    + destruct (Rg p' P2) as [->|[->|[A1 A2]]]; try apply plt_RA in A1; try apply plt_RA in A2; change (par RA) with R in *; lra.
  - destruct (popt_best st K) as [P _]. destruct (ps_qual st) as [|[p q] l] eqn:E.
    { simpl in Kq. symmetry in Kq. contradiction. }
    destruct (P p q) as (r & qr & E1 & I1 & _); [simpl; auto| |exists r, qr; auto].
    destruct (Uq p q ltac:(simpl; auto)) as [G L]. unfold score, dist2. change (num RA) with R in *.
    apply Rle_trans with 2%R; [nra|]. apply IZR_le. unfold RAND_MAX. lia.
Qed.

End M.
