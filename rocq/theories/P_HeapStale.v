(** * Property C57, hierarchical and spatiotemporal: take a partition, then normalize() the qualities it came from. The total of
    the partition stays in bits, its parts are now in units of the whole data's gain G and loss L (root last). *)
From Coq Require Import Reals Lra Lia List.
From Verif Require Import Base BaseFacts Arith Quality Utm UtmProofs UtmFacts Hierarchy HierarchyFacts HierarchyProofs SpecTree SpecParts SpecInfo SpecData Values Qualities Partitions Partitioners
  QualInv TradeoffHeap Session SpecHeap TreePath DataFacts CoverFacts HFacts HQual DQual DReal DFacts HProofs DProofs OReal InfoFacts HDataProofs DDataProofs P_Hier P_HierData P_Spatio P_SpatioData HeapFacts HeapFactsD SessionFacts SessionInst P_Heap.

Lemma Rsum_over : forall X (f : X -> R) c l, (Rsum (fun a => f a / c) l = Rsum f l / c)%R.
Proof. intros X f c l. unfold Rsum. induction l; cbn [map fold_right]; [unfold Rdiv; lra|]. rewrite IHl. unfold Rdiv; lra. Qed.

(** What the parts of a log entry point to, given what its keys read in the table. *)
Lemma parts_read : forall P (K : Type) (hp : heap (RP P)) (l : list (K * Z)) (look : K -> res (quality (RP P))) (f g : K -> R),
  (forall k a, In (k, a) l -> exists q, points (RP P) hp a q /\ look k = Ok q) ->
  (forall k, In k (map fst l) -> look k = Ok (@mkQ (RP P) (f k) (g k))) ->
  Forall2 (fun ka q => points (RP P) hp (snd ka) q) l (map (fun ka => @mkQ (RP P) (f (fst ka)) (g (fst ka))) l).
Proof.
  intros P K hp l look f g H1 H2. induction l as [|[k a] l IH]; cbn [map]; constructor.
  - destruct (H1 k a (or_introl eq_refl)) as (q & Hq & Eq). cbn [fst snd]. rewrite (H2 k) in Eq by (left; reflexivity). injection Eq as <-. exact Hq.
  - apply IH; [intros; apply H1; right; auto|intros; apply H2; right; auto].
Qed.

Theorem C57_hier_stale : forall P (v : hvalues (RP P)) comps p, hdata_ok v comps -> let m := hv_meta v in m_root m = m_hsize m - 1 ->
  exists hp tabs k y, hh_run (RP P) v [SCompute; SBest 0 p; SNormalize] = Ok (hp, tabs, [(k, y)]) /\
  exists tot qs, points (RP P) hp (pn_qual y) tot /\ Forall2 (fun ka q => points (RP P) hp (snd ka) q) (pn_parts y) qs /\
  node_cover (m_leaves m) (m_parents m) (map (fun ka => fst (fst ka)) (pn_parts y)) /\
  gain tot = Rsum (fun ka => hgain m comps (fst (fst ka))) (pn_parts y) /\
  loss tot = Rsum (fun ka => hloss m comps (fst (fst ka))) (pn_parts y) /\
  (Rsum (@gain (RP P)) qs = gain tot / hgain m comps (m_root m))%R /\
  (Rsum (@loss (RP P)) qs = loss tot / hloss m comps (m_root m))%R.
Proof.
  intros P v comps p D m Er. pose proof (C57_hier_session (RP P) v [SCompute; SBest 0 p; SNormalize]) as S.
  destruct (h_compute_prf P v comps D) as (t & Ec & Tt). destruct D as (_ & W & H2 & _). fold m in Tt, W, H2, Ec. pose proof (root_node m W) as Hr.
  destruct (h_cover_prf m W H2 (RP P) t p (proj1 Tt)) as (x & Ex & _). destruct (h_total P m W H2 t _ _ p x (htable_repr P m t comps Tt) Ex) as (Cv & TG & TL).
  destruct (C16_hier_root_last (RP P) (Some v) t m _ W Er (proj1 Tt) (proj2 Tt _ Hr)) as (t' & En & Ln & Tn).
  assert (EV : hv_run (RP P) v [SCompute; SBest 0 p; SNormalize] = Ok ([t'], [(0, x)])).
  { unfold hv_run, vs_run. fold m. cbn [mfold vs_step]. rewrite Ec. cbn [bind some_table hq_table mfold vs_step app].
    change (vget [t] 0) with (Ok t). cbn [bind]. rewrite Ex. cbn [bind mfold vs_step app]. change (vget [t] (vlen [t] - 1)) with (Ok t). cbn [bind].
    rewrite En. cbn [bind some_table hq_table]. change (vset [t] (vlen [t] - 1) t') with (Ok [t']). cbn [bind]. auto. }
  rewrite EV in S. destruct (hh_run (RP P) v [SCompute; SBest 0 p; SNormalize]) as [[[hp tabs] log]| |]; simpl in S; try tauto.
  inversion S as [|[k y] e' log1 l1 R0 S1]; subst. inversion S1; subst. clear S S1.
  destruct R0 as (Ek & t0 & Et0 & C1 & C2 & C3 & C4 & C5). cbn [fst snd] in *. subst k.
  change (vget [t'] 0) with (Ok t') in Et0. inversion Et0; subst t0.
  exists hp, tabs, 0, y. split; auto.
  assert (EK : map hp_h (hn_parts x) = map (fun ka : Z * Z * Z => fst (fst ka)) (pn_parts y)) by (apply (f_equal (map fst)) in C3; rewrite !map_map in C3; symmetry; exact C3).
  rewrite EK in Cv, TG, TL. rewrite Rsum_map in TG, TL.
  exists (hn_quality x), (map (fun ka => @mkQ (RP P) (hgain m comps (fst (fst ka)) / hgain m comps (m_root m))%R (hloss m comps (fst (fst ka)) / hloss m comps (m_root m))%R) (pn_parts y)).
  split; [exact C4|]. split.
  { apply (parts_read P _ hp (pn_parts y) (fun k => vget t' (fst k)) (fun k => hgain m comps (fst k) / hgain m comps (m_root m))%R (fun k => hloss m comps (fst k) / hloss m comps (m_root m))%R).
    - exact C5.
    - intros k Ik. assert (Hk : 0 <= fst k < m_hsize m).
      { apply (wb_node_iff m W). apply (proj1 (proj2 Cv)). apply in_map_iff in Ik. destruct Ik as (ka & <- & Ia). apply (in_map (fun ka : Z * Z * Z => fst (fst ka))). exact Ia. }
      rewrite (Tn _ _ Hk (proj2 Tt _ Hk)). reflexivity. }
  split; [exact Cv|]. split; [exact TG|]. split; [exact TL|]. split.
  - rewrite TG, <- Rsum_over, Rsum_map. reflexivity.
  - rewrite TL, <- Rsum_over, Rsum_map. reflexivity.
Qed.
Print Assumptions C57_hier_stale.

Theorem C57_spatio_stale : forall P (v : dvalues (RP P)) comps p, ddata_ok v comps -> let m := dv_meta v in m_root m = m_hsize m - 1 ->
  exists hp tabs k y, dh_run (RP P) v [SCompute; SBest 0 p; SNormalize] = Ok (hp, tabs, [(k, y)]) /\
  exists tot qs, points (RP P) hp (pn_qual y) tot /\ Forall2 (fun ka q => points (RP P) hp (snd ka) q) (pn_parts y) qs /\
  rect_cover (m_leaves m) (m_parents m) (dv_osize v) (map (fun ka => (fst (fst (fst ka)), fst (snd (fst ka)), snd (snd (fst ka)))) (pn_parts y)) /\
  gain tot = Rsum (fun ka => dgain m comps (fst (fst (fst ka))) (fst (snd (fst ka))) (snd (snd (fst ka)))) (pn_parts y) /\
  loss tot = Rsum (fun ka => dloss m comps (fst (fst (fst ka))) (fst (snd (fst ka))) (snd (snd (fst ka)))) (pn_parts y) /\
  (Rsum (@gain (RP P)) qs = gain tot / dgain m comps (m_root m) 0 (dv_osize v - 1))%R /\
  (Rsum (@loss (RP P)) qs = loss tot / dloss m comps (m_root m) 0 (dv_osize v - 1))%R.
Proof.
  intros P v comps p D m Er. destruct (d_compute_prf P v comps D) as (t & Ec & Tt).
  assert (S : rsim (fun s s' => Forall2 (d_reports (RP P) (fst (fst s)) (fst s')) (snd s) (snd s')) (dh_run (RP P) v [SCompute; SBest 0 p; SNormalize]) (dv_run (RP P) v [SCompute; SBest 0 p; SNormalize])).
  { destruct D as (_ & Hn & W & _). eapply rsim_weaken; [apply d_session; [exact W|]|].
    - intros t0 u Et Eu. unfold dq_compute in Ec. cbn [dq_values dq_ofValues dq_meta] in Ec. rewrite Et in Ec. cbn [bind] in Ec. injection Ec as ->.
      pose proof (proj1 (Forall_forall _ _) (proj1 (proj2 Tt)) u (vget_In _ _ _ _ Eu)) as (Es & _). lia.
    - intros s s' H. eapply F2_impl; [|exact H].
      intros e e' (E1 & E2 & E3 & E4 & E5 & t0 & E6 & E7). split; auto. exists t0. split; auto. unfold shows. repeat (split; auto). }
  destruct D as (_ & Hn & W & _). fold m in Tt, W, Ec. pose proof (root_node m W) as Hr. pose proof Tt as (S0 & F0 & _).
  destruct (d_cover_prf m W (RP P) t _ p Hn S0 F0) as (x & Ex & _). pose proof (dtable_repr P _ _ Hn t comps Tt) as U.
  destruct (d_total P m W _ Hn _ _ t p x U Ex) as (Cv & TG & TL).
  destruct (C17_spatio_root_last (RP P) v t m _ W Er Hn S0 F0 (mrepr_get _ _ _ _ _ _ 0 (dv_osize v - 1) U Hr ltac:(lia) ltac:(lia))) as (t' & En & Ln & Fn & Tn).
  assert (EV : dv_run (RP P) v [SCompute; SBest 0 p; SNormalize] = Ok ([t'], [(0, x)])).
  { unfold dv_run, vs_run. fold m. cbn [mfold vs_step]. rewrite Ec. cbn [bind some_table dq_table mfold vs_step app].
    change (vget [t] 0) with (Ok t). cbn [bind]. rewrite Ex. cbn [bind mfold vs_step app]. change (vget [t] (vlen [t] - 1)) with (Ok t). cbn [bind].
    rewrite En. cbn [bind some_table dq_table]. change (vset [t] (vlen [t] - 1) t') with (Ok [t']). cbn [bind]. auto. }
  rewrite EV in S. destruct (dh_run (RP P) v [SCompute; SBest 0 p; SNormalize]) as [[[hp tabs] log]| |]; simpl in S; try tauto.
  inversion S as [|[k y] e' log1 l1 R0 S1]; subst. inversion S1; subst. clear S S1.
  destruct R0 as (Ek & t0 & Et0 & C1 & C2 & C3 & C4 & C5). cbn [fst snd] in *. subst k.
  change (vget [t'] 0) with (Ok t') in Et0. inversion Et0; subst t0.
  exists hp, tabs, 0, y. split; auto.
  set (key := fun ka : Z * Z * (Z * Z) * Z => (fst (fst (fst ka)), fst (snd (fst ka)), snd (snd (fst ka)))) in *.
  assert (EK : map rect (dn_parts x) = map key (pn_parts y)) by (apply (f_equal (map (fun k : Z * Z * (Z * Z) => (fst (fst k), fst (snd k), snd (snd k))))) in C3; rewrite !map_map in C3; symmetry; exact C3).
  rewrite EK in Cv, TG, TL. rewrite Rsum_map in TG, TL.
  exists (dn_quality x), (map (fun ka => @mkQ (RP P) (un3 (dgain m comps) (key ka) / dgain m comps (m_root m) 0 (dv_osize v - 1))%R (un3 (dloss m comps) (key ka) / dloss m comps (m_root m) 0 (dv_osize v - 1))%R) (pn_parts y)).
  split; [exact C4|]. split.
  { apply (parts_read P _ hp (pn_parts y) (fun k => mm_get t' (fst (fst k)) (fst (snd k)) (snd (snd k))) (fun k => dgain m comps (fst (fst k)) (fst (snd k)) (snd (snd k)) / dgain m comps (m_root m) 0 (dv_osize v - 1))%R (fun k => dloss m comps (fst (fst k)) (fst (snd k)) (snd (snd k)) / dloss m comps (m_root m) 0 (dv_osize v - 1))%R).
    - exact C5.
    - intros k Ik. apply in_map_iff in Ik. destruct Ik as (ka & <- & Ia). destruct (proj1 (proj2 Cv) _ _ _ (in_map key _ _ Ia)) as (A1 & A2 & A3). apply (wb_node_iff m W) in A1.
      rewrite (Tn _ _ _ _ A1 A2 A3 (mrepr_get _ _ _ _ _ _ _ _ U A1 A2 A3)). reflexivity. }
  split; [exact Cv|]. split; [exact TG|]. split; [exact TL|]. split.
  - rewrite TG, <- Rsum_over, Rsum_map. reflexivity.
  - rewrite TL, <- Rsum_over, Rsum_map. reflexivity.
Qed.
Print Assumptions C57_spatio_stale.
