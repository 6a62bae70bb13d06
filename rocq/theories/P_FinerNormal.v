(** * Property C102 after normalize(): the finer run at p' = p G' / (p G' + (1 - p) G). Exact arithmetic. *)
From Coq Require Import Reals Lra Lia List Permutation.
From Verif Require Import Base BaseFacts Arith Quality Utm UtmFacts UtmProofs Hierarchy HierarchyFacts HierarchyProofs SpecTree SpecParts SpecInfo SpecData SpecShape SpecResample SpecFinerS Values Qualities Partitions Partitioners
  TreeFacts TreePath CoverFacts InfoFacts HFacts DQual LexR OInfo DFacts DSel DReal DProofs DataFacts HDataProofs DDataProofs P_HierData P_Spatio P_SpatioData P_RNum KeepSlices ResampleFacts P_Copies P_CopiesSpatio P_FinerSpatio P_FinerValue.

(** Tables scaled by [a], [b] and [a'], [b']; at [p] and [p'] the weights of gain and of loss are proportional. *)
Lemma fin_value : forall P k m n comps a b a' b' lam (p p' : par (RP P)) t t' x x', (0 < k)%nat -> well_built m -> 1 <= n -> n * Z.of_nat k <= 65535 -> n <= 65535 ->
  Forall (comp_len m n) comps -> Forall (comp_len m (n * Z.of_nat k)) (finer_data k comps) -> Forall (Forall nonneg) comps ->
  mrepr t (m_hsize m) n (fun h i j => @mkQ (RP P) (a * dgain m comps h i j)%R (b * dloss m comps h i j)%R) ->
  mrepr t' (m_hsize m) (n * Z.of_nat k) (fun h i j => @mkQ (RP P) (a' * dgain m (finer_data k comps) h i j)%R (b' * dloss m (finer_data k comps) h i j)%R) ->
  (0 < lam)%R -> (0 <= pp_num P p * a)%R -> (0 <= pp_num P (pp_compl P p) * b)%R ->
  (pp_num P p' * a' = lam * (pp_num P p * a))%R -> (pp_num P (pp_compl P p') * b' = lam * (pp_num P (pp_compl P p) * b))%R ->
  d_best (RP P) t m p = Ok x -> d_best (RP P) t' m p' = Ok x' ->
  (pp_num P p' * gain (dn_quality x') - pp_num P (pp_compl P p') * loss (dn_quality x') =
   lam * (pp_num P p * gain (dn_quality x) - pp_num P (pp_compl P p) * loss (dn_quality x) + pp_num P p * a * (log2 (INR k) * Rsum all_data comps)))%R.
Proof.
  intros P k m n comps a b a' b' lam p p' t t' x x' K0 W Hn0 Hnk Hn1 CL CL' NN U U' Hl Ha Hb Ba Bb Ex Ex'. assert (Hn : 1 <= n <= 65535) by lia. assert (Hn' : 1 <= n * Z.of_nat k <= 65535) by nia.
  pose proof (lt_0_INR k K0) as Kp.
  assert (Sc : forall (c : R) (f : Z -> Z -> Z -> R) l, Rsum (un3 (fun h i j => (c * f h i j)%R)) l = (c * Rsum (un3 f) l)%R).
  { intros c f l. rewrite <- Rsum_scal. apply Rsum_ext. intros [[h i] j] _. reflexivity. }
  pose proof (mrepr_shape P n t _ _ U) as F0.
  pose proof (mrepr_shape P (n * Z.of_nat k) t' _ _ U') as F0'. 
  destruct (d_cover_prf m W (RP P) t _ p Hn (proj1 U) F0) as (x1 & E1 & _ & C & NU & _). rewrite Ex in E1. inversion E1; subst x1.
  destruct (d_cover_prf m W (RP P) t' _ p' Hn' (proj1 U') F0') as (x2 & E2 & _ & C2 & NU2 & _). rewrite Ex' in E2. inversion E2; subst x2.
  destruct (d_total P m W _ Hn _ _ t p x U Ex) as (_ & G & Ls). destruct (d_total P m W _ Hn' _ _ t' p' x' U' Ex') as (_ & G2 & Ls2).
  rewrite Sc in G, Ls, G2, Ls2. remember (map rect (dn_parts x)) as l eqn:El. remember (map rect (dn_parts x')) as l' eqn:El'.
  change (num (RP P)) with R in *. set (V := (pp_num P p * gain (dn_quality x) - pp_num P (pp_compl P p) * loss (dn_quality x))%R). set (all := Rsum all_data comps).
  set (pa := (pp_num P p * a)%R) in *. set (pb := (pp_num P (pp_compl P p) * b)%R) in *.
  assert (EV' : (pp_num P p' * gain (dn_quality x') - pp_num P (pp_compl P p') * loss (dn_quality x') = lam * (pa * Rsum (un3 (dgain m (finer_data k comps))) l' - pb * Rsum (un3 (dloss m (finer_data k comps))) l'))%R).
  { rewrite G2, Ls2. transitivity (pp_num P p' * a' * Rsum (un3 (dgain m (finer_data k comps))) l' - pp_num P (pp_compl P p') * b' * Rsum (un3 (dloss m (finer_data k comps))) l')%R; [ring|]. rewrite Ba, Bb. ring. }
  assert (EV : V = (pa * Rsum (un3 (dgain m comps)) l - pb * Rsum (un3 (dloss m comps)) l)%R) by (unfold V; rewrite G, Ls; unfold pa, pb; ring).
  apply Rle_antisym.
  - rewrite EV'. apply Rmult_le_compat_l; [lra|]. pose proof (rd_value k m n K0 W ltac:(lia) comps _ _ l' Ha Hb CL NN C2) as K.
    rewrite (dall_cover m (n * Z.of_nat k) W ltac:(lia) _ l' CL' C2), (dall_root m (n * Z.of_nat k) W ltac:(lia) _ CL'), (fine_total k m n K0 comps CL) in K. fold all in K.
    assert (Q : (Rsum (fun o => pa * Rsum (un3 (dgain m comps)) (rounded k o l') - pb * Rsum (un3 (dloss m comps)) (rounded k o l')) (zrange 0 (Z.of_nat k)) <= INR k * V)%R).
    { replace (INR k * V)%R with (Rsum (fun _ : Z => V) (zrange 0 (Z.of_nat k))).
      - apply Rsum_le. intros o Io. apply In_zrange in Io. destruct (rd_rect k m n K0 W ltac:(lia) o l' ltac:(lia) C2 NU2) as [C' N'].
        pose proof (d_value_le P m W _ Hn _ _ t p x _ U Ex C' N') as Q. rewrite !Sc in Q. fold V in Q. unfold pa, pb. lra.
      - assert (Gc : forall l0 : list Z, Rsum (fun _ : Z => V) l0 = (INR (length l0) * V)%R).
        { induction l0 as [|z l0 IH]; [rewrite Rsum_nil; cbn [length INR]; lra|]. rewrite Rsum_cons, IH. change (length (z :: l0)) with (S (length l0)). rewrite S_INR. lra. }
        rewrite Gc. f_equal. f_equal. unfold zrange. rewrite map_length, seq_length. lia. }
    apply (Rmult_le_reg_l (INR k)); [exact Kp|]. rewrite Rmult_plus_distr_l. lra.
  - destruct (fs_rect k m n K0 l C NU) as [C' N']. pose proof (d_value_le P m W _ Hn' _ _ t' p' x' _ U' Ex' C' N') as K. rewrite !Sc in K.
    eapply Rle_trans; [|exact K]. right. rewrite !Rsum_map.
    rewrite (Rsum_ext _ (fun r => un3 (dgain m (finer_data k comps)) (finer_rect k r)) (fun r => un3 (dgain m comps) r + log2 (INR k) * un3 (dall m comps) r)%R l)
      by (intros [[h i] j] I; cbn [un3 finer_rect]; unfold finer; cbn [fst snd]; destruct (proj1 (proj2 C) h i j I) as (A1 & A2 & A3); apply (fs_qual k m n K0 W comps CL NN h i j A2 A3)).
    rewrite (Rsum_ext _ (fun r => un3 (dloss m (finer_data k comps)) (finer_rect k r)) (un3 (dloss m comps)) l)
      by (intros [[h i] j] I; cbn [un3 finer_rect]; unfold finer; cbn [fst snd]; destruct (proj1 (proj2 C) h i j I) as (A1 & A2 & A3); apply (fs_qual k m n K0 W comps CL NN h i j A2 A3)).
    rewrite Rsum_plus, Rsum_scal, (dall_cover m n W ltac:(lia) comps l CL C), (dall_root m n W ltac:(lia) comps CL). fold all. rewrite EV.
    transitivity (pp_num P p' * a' * (Rsum (un3 (dgain m comps)) l + log2 (INR k) * all) - pp_num P (pp_compl P p') * b' * Rsum (un3 (dloss m comps)) l)%R; [rewrite Ba, Bb; ring|ring].
Qed.

Theorem C102_normal : forall k (v v' : dvalues RA) comps t t' m (p p' : R) x x', (0 < k)%nat -> ddata_ok (P := Rpar) v comps -> Forall (Forall nonneg) comps ->
  ddata_ok (P := Rpar) v' (finer_data k comps) -> dv_osize v' = dv_osize v * Z.of_nat k -> d_ntable RA (Ok v) = Ok (Some t, m) -> d_ntable RA (Ok v') = Ok (Some t', m) -> m_root m = m_hsize m - 1 ->
  let G := dgain m comps (m_root m) 0 (dv_osize v - 1) in let G' := dgain m (finer_data k comps) (m_root m) 0 (dv_osize v' - 1) in
  (0 < G)%R -> (0 < dloss m comps (m_root m) 0 (dv_osize v - 1))%R -> (0 < p < 1)%R -> p' = (p * G' / (p * G' + (1 - p) * G))%R ->
  d_best RA t m p = Ok x -> d_best RA t' m p' = Ok x' ->
  (p <= p' < 1)%R /\ (p' * gain (dn_quality x') - (1 - p') * loss (dn_quality x') =
    G / (p * G' + (1 - p) * G) * (p * gain (dn_quality x) - (1 - p) * loss (dn_quality x) + p / G * (log2 (INR k) * Rsum all_data comps)))%R.
Proof.
  intros k v v' comps t t' m p p' x x' K0 D NN D' Eo Et Et' Er G G' PG PL Hp Ep Ex Ex'.
  assert (nt : forall (u : dvalues RA) cs tb, ddata_ok (P := Rpar) u cs -> d_ntable RA (Ok u) = Ok (Some tb, m) -> dv_meta u = m /\
    mrepr tb (m_hsize m) (dv_osize u) (fun h i j => @mkQ RA (/ dgain m cs (m_root m) 0 (dv_osize u - 1) * dgain m cs h i j)%R (/ dloss m cs (m_root m) 0 (dv_osize u - 1) * dloss m cs h i j)%R)).
  { intros u cs tb Du E. change RA with (RP Rpar) in *. destruct (d_compute_prf Rpar u cs Du) as (t1 & E1 & T). unfold d_ntable in E. cbn [bind] in E. rewrite E1 in E. cbn [bind] in E.
    pose proof Du as (_ & Hn & W & _). pose proof (root_node _ W) as Hr. pose proof (dtable_repr Rpar _ _ Hn t1 cs T) as U1. pose proof T as (S0 & F0 & _).
    assert (Em : dv_meta u = m).
    { destruct (dq_normalize (RP Rpar) (mkDQ (RP Rpar) (Some u) (Some t1) (dv_meta u))) as [o| |] eqn:En; try discriminate E. cbn [bind] in E. injection E as _ <-.
      destruct (d_normalize_prf (RP Rpar) u t1 (dv_meta u) _ W Hn S0 F0 (mrepr_get _ _ _ _ _ _ 0 (dv_osize u - 1) U1 Hr ltac:(lia) ltac:(lia))) as (t2 & E2 & _). rewrite E2 in En. injection En as <-. reflexivity. }
    split; [exact Em|]. rewrite Em in *.
    destruct (C17_spatio_root_last (RP Rpar) u t1 m _ W Er Hn S0 F0 (mrepr_get _ _ _ _ _ _ 0 (dv_osize u - 1) U1 Hr ltac:(lia) ltac:(lia))) as (t2 & E2 & L2 & F2 & K). rewrite E2 in E. cbn [bind dq_table dq_meta] in E. injection E as <-.
    eapply mrepr_ext; [apply (shape_mrepr _ t2 _ _ (q_zero (RP Rpar))); auto; lia|]. intros h i j Hh Hi Hj. cbv beta.
    rewrite (K h i j _ Hh Hi Hj (mrepr_get _ _ _ _ _ _ _ _ U1 Hh Hi Hj)). cbn [gain loss]. change (n_div (RP Rpar)) with Rdiv. unfold Rdiv. f_equal; change (num (RP Rpar)) with R; apply Rmult_comm. }
  destruct (nt v comps t D Et) as [Em U]. destruct (nt v' _ t' D' Et') as [Em' U']. clear nt Et Et'. pose proof (ddata_comp Rpar v comps D) as CL. pose proof (ddata_comp Rpar v' _ D') as CL'.
  destruct D as (_ & Hn & W & _). destruct D' as (_ & Hn' & _). change RA with (RP Rpar) in *. rewrite Em in *. rewrite Em' in *. fold G in U. fold G' in U'. rewrite Eo in *. set (n := dv_osize v) in *.
  pose proof (fs_qual k m n K0 W comps CL NN (m_root m) 0 (n - 1) ltac:(lia) ltac:(lia)) as [EG EL]. rewrite Z.mul_0_l in EG, EL. replace ((n - 1) * Z.of_nat k + Z.of_nat k - 1) with (n * Z.of_nat k - 1) in EG, EL by lia. fold G in EG. rewrite EL in U'.
  assert (EG' : G' = (G + log2 (INR k) * Rsum all_data comps)%R) by (unfold G'; rewrite Eo; fold n; rewrite <- (dall_root m n W ltac:(lia) comps CL); rewrite EG; reflexivity).
  assert (GG : (G <= G')%R).
  { rewrite EG'. assert (0 <= log2 (INR k) * Rsum all_data comps)%R; [|lra]. apply Rmult_le_pos; [apply (log2_k k K0)|]. apply Rsum_nonneg. intros c Ic. unfold all_data. apply Rsum_nonneg. intros r Ir. apply total_nonneg.
    exact (proj1 (Forall_forall _ _) (proj1 (Forall_forall _ _) NN c Ic) r Ir). }
  assert (P1 : (0 < p * G')%R) by (apply Rmult_lt_0_compat; lra). assert (P2 : (0 < (1 - p) * G)%R) by (apply Rmult_lt_0_compat; lra).
  assert (Ec : (1 - p' = (1 - p) * G / (p * G' + (1 - p) * G))%R) by (rewrite Ep; field; lra).
  assert (Pc : (0 < 1 - p')%R) by (rewrite Ec; apply Rdiv_lt_0_compat; lra).
  split.
  { split; [|lra]. apply (Rmult_le_reg_r (p * G' + (1 - p) * G)); [lra|]. rewrite Ep at 1. unfold Rdiv. rewrite (Rmult_assoc (p * G')), Rinv_l by lra.
    rewrite Rmult_1_r. assert (p * (1 - p) * G <= p * (1 - p) * G')%R by (apply Rmult_le_compat_l; [nra|lra]). nra. }
  set (Lw := dloss m comps (m_root m) 0 (n - 1)) in *.
  pose proof (fin_value Rpar k m n comps (/ G) (/ Lw) (/ G') (/ Lw) (G / (p * G' + (1 - p) * G)) p p' t t' x x' K0 W ltac:(lia) ltac:(lia) ltac:(lia) CL CL' NN U U') as K. cbn [pp_num pp_compl Rpar] in K. change (num (RP Rpar)) with R in K.
  apply K; try assumption.
  - apply Rdiv_lt_0_compat; lra.
  - left. apply Rmult_lt_0_compat; [lra|apply Rinv_0_lt_compat; lra].
  - left. apply Rmult_lt_0_compat; [lra|apply Rinv_0_lt_compat; lra].
  - rewrite Ep. field. repeat split; lra.
  - rewrite Ec. field. repeat split; lra.
Qed.
Print Assumptions C102_normal.
