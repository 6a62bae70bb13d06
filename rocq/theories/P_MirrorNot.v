(** * Property C87, spatiotemporal: running time backwards changes the best partition (example of P_SpatioNot.v). *)
From Coq Require Import Reals Lra Lia Permutation.
From Verif Require Import Base BaseFacts Arith Quality Utm UtmFacts UtmProofs Hierarchy SpecTree SpecParts SpecInfo SpecData SpecShape HierarchyFacts HierarchyProofs
  Values Qualities Partitions Partitioners TreePath HFacts CoverFacts InfoFacts OInfo DataFacts NormFacts DQual DSel DProofs DDataProofs DataCons ODataProofs Sim TreeDec
  P_OrderedData P_HierData P_SpatioData P_SpatioNot.

Definition exm_d : list (list R) := map (@rev R) exn_d.
Definition exm_l : list (Z * Z * Z) := [(2, 0, 0); (0, 1, 1); (1, 1, 1)].

Lemma exm_data : exists v, dv2_of RA exm_d exn_ps = Ok v /\ m_hsize (dv_meta v) = 3 /\
  m_leaves (dv_meta v) = 2 /\ m_parents (dv_meta v) = exn_ps /\ dv_osize v = 2 /\ ddata_ok v [exm_d].
Proof.
  destruct exn_tree as [V U]. destruct (dv2_data Rpar exn_ps 2 ltac:(cbv; discriminate) exm_d V U ltac:(repeat constructor) ltac:(cbv; split; discriminate)) as (v & E & (M1 & M2 & M3) & M4 & D).
  exists v. split; auto. assert (W : well_built (dv_meta v)) by apply D. split; [pose proof (wb_hsize _ W) as Eh; rewrite M2 in Eh; exact Eh|]. auto 10.
Qed.

Section N.
Context (m : meta).
Hypothesis W : well_built m.
Hypothesis EL : m_leaves m = 2.
Hypothesis EP : m_parents m = exn_ps.

Lemma exm_leaf : forall x y, leaf 2 x -> leaf 2 y -> below exn_ps x y -> x = y.
Proof.
  intros u w Hu Hw K. assert (I : In u (leavesof 2 exn_ps w)). { rewrite <- EL, <- EP. apply (lv_In _ W). rewrite EL, EP. auto. }
  rewrite <- EL, <- EP in I. rewrite (lv_leaf _ W) in I by (rewrite EL; auto). cbn in I. intuition.
Qed.
Lemma exm_cover : rect_cover 2 exn_ps 2 exm_l.
Proof.
  split; [repeat constructor; cbn; intuition discriminate|]. split.
  - intros y a b K. cbn in K. repeat (destruct K as [K|K]; [inversion K; subst; split; [split; cbv; congruence|lia]|]). destruct K.
  - intros x o Hx Ho. pose proof (exn_below x Hx) as B2. assert (Hx5 : x = 0 \/ x = 1) by (unfold leaf in Hx; lia).
    assert (Ho2 : o = 0 \/ o = 1) by lia. destruct Ho2 as [->| ->].
    + exists 2, 0, 0. split; [cbn; auto|]. split; auto. split; [lia|].
      intros y' a' b' K; cbn in K; repeat (destruct K as [K|K]; [inversion K; subst; intros Kb Ka; first [lia|reflexivity]|]); destruct K.
    + exists x, 1, 1. split; [destruct Hx5 as [->| ->]; cbn; auto|]. split; [constructor|]. split; [lia|].
      intros y' a' b' K; cbn in K; repeat (destruct K as [K|K]; [inversion K; subst; intros Kb Ka; first [lia|apply exm_leaf in Kb; unfold leaf in *; [subst; reflexivity|lia|lia]]|]); destruct K.
Qed.
Lemma exm_never_up : never_up 2 exn_ps exm_l.
Proof.
  intros x h a b h' a' b' Hx I I' B B' Lt. cbn in I, I'.
  repeat (destruct I as [I|I]; [inversion I; subst; repeat (destruct I' as [I'|I']; [inversion I'; subst; try lia; apply exn_below; unfold leaf; lia|]); destruct I'|]). destruct I.
Qed.
Lemma exm_value : (Rsum (un3 (dgain m [exm_d])) exm_l = 2 /\ Rsum (un3 (dloss m [exm_d])) exm_l = 0)%R.
Proof.
  destruct exn_gains as (G1 & G2 & _). assert (T2 : forall a b, total [a; b] = (a + b)%R) by (intros; unfold total, Rsum; cbn; ring).
  assert (D : exm_d = [[1; 3]; [1; 0]]%R) by reflexivity. rewrite D. unfold exm_l. rewrite !Rsum_cons, !Rsum_nil. cbn [un3]. unfold dgain, dloss, dcells. rewrite EL, EP.
  change (leavesof 2 exn_ps 2) with [0; 1]; change (leavesof 2 exn_ps 0) with [0]; change (leavesof 2 exn_ps 1) with [1].
  unfold Rsum. cbn [map fold_right flat_map]. unfold elt, slice. change (Z.to_nat 0) with 0%nat; change (Z.to_nat 1) with 1%nat; change (Z.to_nat (0 - 0 + 1)) with 1%nat; change (Z.to_nat (1 - 1 + 1)) with 1%nat.
  cbn [nth firstn skipn app]. rewrite G2, !gain_of_single, !loss_of_single. unfold loss_of. rewrite G2, T2. unfold vlen. cbn [length]. change (Z.of_nat 2) with 2. rewrite log2_2. split; lra.
Qed.
End N.

Theorem C87_spatio_refuted : exists (d : list (list R)) ps r v v' t t' p x x', valid_tree (vlen d) ps r /\ uniform_depth (vlen d) ps r /\ (0 < p < 1)%R /\ Forall nonneg d /\
  dv2_of RA d ps = Ok v /\ dv2_of RA (map (@rev R) d) ps = Ok v' /\
  d_table RA (Ok v) = Ok (Some t, dv_meta v) /\ d_table RA (Ok v') = Ok (Some t', dv_meta v') /\
  d_best RA t (dv_meta v) p = Ok x /\ d_best RA t' (dv_meta v') p = Ok x' /\
  (p * gain (dn_quality x) - (1 - p) * loss (dn_quality x) < p * gain (dn_quality x') - (1 - p) * loss (dn_quality x'))%R.
Proof.
  destruct exn_tree as [V U]. destruct exn_data as (v & E & Er & Eh & EL & EP & En & D). destruct exm_data as (v' & E' & Eh' & EL' & EP' & En' & D'). change RA with (RP Rpar) in *.
  pose proof D as (_ & Hn & W & _). pose proof D' as (_ & Hn' & W' & _).
  destruct (d_compute_prf Rpar v _ D) as (t & E0 & T). pose proof T as (S0 & F0 & T0). destruct (d_compute_prf Rpar v' _ D') as (t' & E0' & T'). pose proof T' as (S0' & F0' & _).
  pose proof (dtable_repr Rpar _ _ Hn t _ T) as R. pose proof (dtable_repr Rpar _ _ Hn' t' _ T') as R'.
  destruct (d_cover_prf (dv_meta v) W (RP Rpar) t (dv_osize v) (1 / 8)%R Hn S0 F0) as (x & Ex & _ & C & NU & _).
  destruct (d_cover_prf (dv_meta v') W' (RP Rpar) t' (dv_osize v') (1 / 8)%R Hn' S0' F0') as (x' & Ex' & _).
  destruct (d_total Rpar _ W _ Hn _ _ t _ x R Ex) as (_ & Gx & Lx).
  exists exn_d, exn_ps, 2, v, v', t, t', (1 / 8)%R, x, x'. split; [exact V|]. split; [exact U|]. split; [split; lra|].
  split; [repeat constructor; lra|]. split; [exact E|]. split; [exact E'|]. split; [unfold d_table; cbn [bind]; change RA with (RP Rpar); rewrite E0; reflexivity|].
  split; [unfold d_table; cbn [bind]; change RA with (RP Rpar); rewrite E0'; reflexivity|]. split; [exact Ex|]. split; [exact Ex'|].
  pose proof (exm_cover _ W' EL' EP') as C2. rewrite <- EL', <- EP', <- En' in C2 at 1. pose proof exm_never_up as N2.
  assert (N3 : never_up (m_leaves (dv_meta v')) (m_parents (dv_meta v')) exm_l) by (rewrite EL', EP'; exact N2).
  assert (C3 : rect_cover (m_leaves (dv_meta v')) (m_parents (dv_meta v')) (dv_osize v') exm_l) by (rewrite EL', EP', En'; apply (exm_cover _ W' EL' EP')).
  pose proof (d_value_le Rpar _ W' _ Hn' _ _ t' _ x' exm_l R' Ex' C3 N3) as K. destruct (exm_value _ EL' EP') as [V1 V2].
  rewrite V1, V2 in K.
  pose proof (exn_never_up _ EL EP (map rect (dn_parts x))) as K1. rewrite EL, EP, En in C. rewrite EL, EP in NU. specialize (K1 C NU).
  assert (Ev : forall l, Rsum (un3 (rval (dv_meta v))) l = (1 / 8 * Rsum (un3 (dgain (dv_meta v) [exn_d])) l - (1 - 1 / 8) * Rsum (un3 (dloss (dv_meta v) [exn_d])) l)%R).
  { induction l as [|[[h a] b] l IH]; rewrite ?Rsum_nil, ?Rsum_cons; [lra|]. rewrite IH. cbn [un3]. unfold rval. ring. }
  rewrite Ev in K1. rewrite Gx, Lx. change (pp_num Rpar (1 / 8)%R) with (1 / 8)%R in K. change (pp_num Rpar (pp_compl Rpar (1 / 8)%R)) with (1 - 1 / 8)%R in K.
  change (num (RP Rpar)) with Rdefinitions.R in *. change (par (RP Rpar)) with Rdefinitions.R in *. lra.
Qed.
