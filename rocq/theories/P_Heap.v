(** * Properties C56 and C57: shared Quality objects.

    In the code tables, tradeoffs and parts hold shared pointers to mutable Quality objects. [oh_best A hp t p] is
    OPartitioner::computeBestPartition(p) run on the heap [hp] of Quality objects with the table of pointers [t]
    (TradeoffHeap.v, line by line); [o_best A tq p] is the value-level model used by the other properties. *)
From Coq Require Import Reals Lra Lia.
From Verif Require Import Base BaseFacts Arith Quality Utm UtmProofs UtmFacts Hierarchy SpecTree SpecParts SpecInfo SpecData Values Qualities Partitions Partitioners
  QualInv TradeoffHeap Session SpecHeap DataFacts OProofs OReal ODataProofs HeapFacts HeapFactsD SessionFacts SessionInst.

Lemma ext_untouched : forall A hp hp', ext A hp hp' -> untouched A hp hp'.
Proof. intros A hp hp' E a q H. exact (vget_ext_heap A _ _ _ _ E H). Qed.
Lemma fresh_addr : forall A (hp : heap A) a, vlen hp <= a -> forall q, ~ points A hp a q.
Proof. intros A hp a L q H. apply vget_inv in H. lia. Qed.

(** ** C56 *)
(** On any heap and any table of pointers (shared or not), computeBestPartition behaves as the value-level model: it changes
    no existing Quality object, every part holds the table's own pointer, and the total is a new object. *)
Theorem C56_ordered : forall A hp (t : utm Z) (tq : utm (quality A)) p, urel (points A hp) t tq ->
  rsim (fun r x => untouched A hp (fst r) /\
                   shows A (fst r) (snd r) (on_cuts x) (on_param x) (map (fun q => (op_start q, op_end q)) (on_parts x)) (on_quality x)
                         (fun k => u_get tq (fst k) (snd k)) /\
                   (forall k a, In (k, a) (pn_parts (snd r)) -> u_get t (fst k) (snd k) = Ok a) /\
                   (forall q, ~ points A hp (pn_qual (snd r)) q))
       (oh_best A hp t p) (o_best A tq p).
Proof.
  intros A hp t tq p T. eapply rsim_weaken; [apply o_best_full; exact T|]. intros [hp' y] x (E1 & E2 & E3 & E4 & E5 & E6 & E7). cbn [fst snd].
  split; [apply ext_untouched; auto|]. split; [|split; [exact E7|apply fresh_addr; auto]]. repeat (split; auto). intros k a Ik.
  pose proof (rsim_u_get _ _ _ _ _ (fst k) (snd k) T) as K. unfold o_look in E7. rewrite (E7 k a Ik) in K.
  destruct (u_get tq (fst k) (snd k)) as [q| |]; simpl in K; try tauto. exists q. split; auto. exact (vget_ext_heap A _ _ _ _ E1 K).
Qed.
Print Assumptions C56_ordered.

Theorem C56_hier : forall A hp (t : list Z) (tq : list (quality A)) m p, Forall2 (points A hp) t tq ->
  rsim (fun r x => untouched A hp (fst r) /\
                   shows A (fst r) (snd r) (hn_agg x) (hn_param x) (map (fun q => (hp_h q, hp_size q)) (hn_parts x)) (hn_quality x)
                         (fun k => vget tq (fst k)) /\
                   (forall k a, In (k, a) (pn_parts (snd r)) -> vget t (fst k) = Ok a) /\
                   (forall q, ~ points A hp (pn_qual (snd r)) q))
       (hh_best A hp t m p) (h_best A tq m p).
Proof.
  intros A hp t tq m p T. eapply rsim_weaken; [apply h_best_full; exact T|]. intros [hp' y] x (E1 & E2 & E3 & E4 & E5 & E6 & E7). cbn [fst snd].
  split; [apply ext_untouched; auto|]. split; [|split; [exact E7|apply fresh_addr; auto]]. repeat (split; auto). intros k a Ik.
  pose proof (rsim_vget _ _ _ _ _ (fst k) T) as K. unfold h_look in E7. rewrite (E7 k a Ik) in K.
  destruct (vget tq (fst k)) as [q| |]; simpl in K; try tauto. exists q. split; auto. exact (vget_ext_heap A _ _ _ _ E1 K).
Qed.
Print Assumptions C56_hier.

Theorem C56_spatio : forall A hp (t : list (utm Z)) (tq : list (utm (quality A))) m p, well_built m -> Forall2 (urel (points A hp)) t tq ->
  Forall (fun u => u_size u <= 65535 /\ 0 <= u_size u) t ->
  rsim (fun r x => untouched A hp (fst r) /\
                   shows A (fst r) (snd r) (dn_cuts x) (dn_param x) (map (fun q => (dp_h q, dp_hsize q, (dp_start q, dp_end q))) (dn_parts x)) (dn_quality x)
                         (fun k => mm_get tq (fst (fst k)) (fst (snd k)) (snd (snd k))) /\
                   (forall k a, In (k, a) (pn_parts (snd r)) -> mm_get t (fst (fst k)) (fst (snd k)) (snd (snd k)) = Ok a) /\
                   (forall q, ~ points A hp (pn_qual (snd r)) q))
       (dh_best A hp t m p) (d_best A tq m p).
Proof.
  intros A hp t tq m p W T Hs.
  assert (D : d_den A hp t tq).
  { split; [exact T|]. intros u Eu. rewrite Forall_forall in Hs. destruct (Hs u (vget_In _ _ _ _ Eu)). lia. }
  eapply rsim_weaken; [apply d_best_full; [exact W|exact D]|]. intros [hp' y] x (E1 & E2 & E3 & E4 & E5 & E6 & E7). cbn [fst snd].
  split; [apply ext_untouched; auto|]. split; [|split; [exact E7|apply fresh_addr; auto]]. repeat (split; auto). intros k a Ik.
  pose proof (rsim_mm_get _ _ _ _ _ (fst (fst k)) (fst (snd k)) (snd (snd k)) T) as K. unfold d_look in E7. rewrite (E7 k a Ik) in K.
  destruct (mm_get tq (fst (fst k)) (fst (snd k)) (snd (snd k))) as [q| |]; simpl in K; try tauto. exists q. split; auto. exact (vget_ext_heap A _ _ _ _ E1 K).
Qed.
Print Assumptions C56_spatio.

(** ** C57 *)
(** For every sequence of computeQualities(), normalize() and computeBestPartition(p) (on partitioners made at any time), the
    shared objects produce what the value-level session says: choices and totals as at the time of the call; a part reports
    what the table it was computed from holds NOW, i.e. it follows later normalize() calls on that table, and nothing else. *)
Theorem C57_ordered_session : forall A (v : ovalues A) es,
  rsim (fun s s' => Forall2 (o_reports A (fst (fst s)) (fst s')) (snd s) (snd s')) (oh_run A v es) (ov_run A v es).
Proof.
  intros A v es. eapply rsim_weaken; [apply o_session|]. intros s s' H. eapply F2_impl; [|exact H].
  intros e e' (E1 & E2 & E3 & E4 & E5 & t & E6 & E7). split; auto. exists t. split; auto. unfold shows. repeat (split; auto).
Qed.
Print Assumptions C57_ordered_session.

Theorem C57_hier_session : forall A (v : hvalues A) es,
  rsim (fun s s' => Forall2 (h_reports A (fst (fst s)) (fst s')) (snd s) (snd s')) (hh_run A v es) (hv_run A v es).
Proof.
  intros A v es. eapply rsim_weaken; [apply h_session|]. intros s s' H. eapply F2_impl; [|exact H].
  intros e e' (E1 & E2 & E3 & E4 & E5 & t & E6 & E7). split; auto. exists t. split; auto. unfold shows. repeat (split; auto).
Qed.
Print Assumptions C57_hier_session.

Theorem C57_spatio_session : forall A (v : dvalues A) es, well_built (dv_meta v) -> 2 <= m_hsize (dv_meta v) -> 0 <= dv_osize v <= 65535 ->
  (forall k h, 0 <= k < dv_vsize v -> 0 <= h < m_leaves (dv_meta v) ->
     exists r, dv_row v h k = Ok r /\ forall i, 0 <= i < dv_osize v -> exists x, vget r i = Ok x) ->
  rsim (fun s s' => Forall2 (d_reports A (fst (fst s)) (fst s')) (snd s) (snd s')) (dh_run A v es) (dv_run A v es).
Proof.
  intros A v es W H2 Hn Hd. eapply rsim_weaken; [apply d_session; [exact W|]|].
  - intros t u Et Eu.
    destruct (d_compute_all A (dv_osize v * m_leaves (dv_meta v)) _ _ _ _ (closed_True A _) v W H2 Hn ltac:(lia)) as (t' & Ec & (f & [Lf Mf] & _)).
    { intros k h Hk Hh. destruct (Hd k h Hk Hh) as (r & Er & Hr). exists r. split; auto. intros i Hi. destruct (Hr i Hi) as (x & Ex). exists x. auto. }
    unfold dq_compute in Ec. cbn [dq_values dq_ofValues dq_meta] in Ec. rewrite Et in Ec. cbn [bind] in Ec. inversion Ec; subst t'.
    destruct (Mf 0 ltac:(lia)) as (u' & Eu' & (_ & Es & _)). rewrite Eu in Eu'. inversion Eu'; subst. lia.
  - intros s s' H. eapply F2_impl; [|exact H].
    intros e e' (E1 & E2 & E3 & E4 & E5 & t & E6 & E7). split; auto. exists t. split; auto. unfold shows. repeat (split; auto).
Qed.
Print Assumptions C57_spatio_session.

(** The consequence a client meets: take a partition, then normalize() the qualities it came from. The total of the
    partition stays in bits, its parts are now in units of the whole data's gain G and loss L. *)
Theorem C57_ordered_stale : forall P (v : ovalues (RP P)) rows p, odata_ok v rows -> 1 <= ov_osize v ->
  exists hp tabs k y, oh_run (RP P) v [SCompute; SBest 0 p; SNormalize] = Ok (hp, tabs, [(k, y)]) /\
  exists tot qs, points (RP P) hp (pn_qual y) tot /\ Forall2 (fun ka q => points (RP P) hp (snd ka) q) (pn_parts y) qs /\
  tiles 0 (ov_osize v) (map fst (pn_parts y)) /\
  gain tot = Rsum (fun ka => ogain rows (fst (fst ka)) (snd (fst ka))) (pn_parts y) /\
  loss tot = Rsum (fun ka => oloss rows (fst (fst ka)) (snd (fst ka))) (pn_parts y) /\
  (Rsum (@gain (RP P)) qs = gain tot / ogain rows 0 (ov_osize v - 1))%R /\
  (Rsum (@loss (RP P)) qs = loss tot / oloss rows 0 (ov_osize v - 1))%R.
Proof.
  intros P v rows p D Hn. pose proof (D_n P v rows D) as Bn. pose proof (C57_ordered_session (RP P) v [SCompute; SBest 0 p; SNormalize]) as S.
  destruct (o_compute_data P v rows D) as (t & Ec & Tt).
  destruct (o_tiles_prf (RP P) t (ov_osize v) p Bn (proj1 Tt)) as (x & Ex & _ & Tx).
  destruct (o_normalized P v rows t D Hn Tt) as (t' & En & Tn).
  assert (EV : ov_run (RP P) v [SCompute; SBest 0 p; SNormalize] = Ok ([t'], [(0, x)])).
  { unfold ov_run, vs_run. cbn [mfold vs_step]. rewrite Ec. cbn [bind some_table oq_table mfold vs_step app].
    change (vget [t] 0) with (Ok t). cbn [bind]. rewrite Ex. cbn [bind mfold vs_step app]. change (vget [t] (vlen [t] - 1)) with (Ok t). cbn [bind].
    rewrite En. cbn [bind some_table oq_table]. change (vset [t] (vlen [t] - 1) t') with (Ok [t']). cbn [bind]. auto. }
  rewrite EV in S. destruct (oh_run (RP P) v [SCompute; SBest 0 p; SNormalize]) as [[[hp tabs] log]| |]; simpl in S; try tauto.
  inversion S as [|[k y] e' log1 l1 R0 S1]; subst. inversion S1; subst. clear S S1.
  destruct R0 as (Ek & t0 & Et0 & C1 & C2 & C3 & C4 & C5). cbn [fst snd] in *. subst k.
  change (vget [t'] 0) with (Ok t') in Et0. inversion Et0; subst t0.
  exists hp, tabs, 0, y. split; auto.
  destruct (o_quality_prf (RP P) t (ov_osize v) p x Bn (proj1 Tt) Ex) as (Q1 & Q2 & Q3).
  exists (on_quality x), (map (fun ka => @mkQ (RP P) (ogain rows (fst (fst ka)) (snd (fst ka)) / ogain rows 0 (ov_osize v - 1))%R
     (oloss rows (fst (fst ka)) (snd (fst ka)) / oloss rows 0 (ov_osize v - 1))%R) (pn_parts y)).
  split; [exact C4|]. rewrite C3.
  assert (B : forall k, In k (map fst (pn_parts y)) -> 0 <= fst k <= snd k /\ snd k < ov_osize v).
  { intros k Hk. rewrite C3 in Hk. clear - Tx Hk. assert (G : forall a n l, tiles a n l -> 0 <= a -> In k l -> 0 <= fst k <= snd k /\ snd k < n).
    { intros a n l T. induction T as [|a e n r He T IH]; intros Ha []; [subst; simpl; lia|]. apply IH; auto. lia. }
    exact (G _ _ _ Tx ltac:(lia) Hk). }
  split.
  { assert (G : forall l, (forall k a, In (k, a) l -> In (k, a) (pn_parts y)) -> Forall2 (fun (ka : Z * Z * Z) q => points (RP P) hp (snd ka) q) l
      (map (fun ka => @mkQ (RP P) (ogain rows (fst (fst ka)) (snd (fst ka)) / ogain rows 0 (ov_osize v - 1))%R
     (oloss rows (fst (fst ka)) (snd (fst ka)) / oloss rows 0 (ov_osize v - 1))%R) l)).
    { induction l as [|[k a] l IH]; intro Hl; cbn [map]; constructor.
      - destruct (C5 k a (Hl k a (or_introl eq_refl))) as (q & Hq & Eq). cbn [fst snd].
        destruct (B k) as [B1 B2]. { apply (in_map fst _ _ (Hl k a (or_introl eq_refl))). }
        destruct Tn as [_ Tn]. rewrite (Tn _ _ B1 B2) in Eq. inversion Eq; subst. exact Hq.
      - apply IH. intros; apply Hl; right; auto. }
    apply G. auto. }
  split; [exact Tx|].
  assert (G1 : forall (f : Z -> Z -> R) l, Rsum (fun ka : Z * Z * Z => f (fst (fst ka)) (snd (fst ka))) l = Rsum (fun k => f (fst k) (snd k)) (map fst l)).
  { intros f l. unfold Rsum. rewrite map_map. auto. }
  assert (G2 : forall (f : Z -> Z -> R) (g : quality (RP P) -> R) l, (forall q, In q l -> g (op_quality q) = f (op_start q) (op_end q)) ->
    Rsum (fun k => f (fst k) (snd k)) (map (fun q => (op_start q, op_end q)) l) = Rsum (fun q => g (op_quality q)) l).
  { intros f g l H. unfold Rsum. rewrite map_map. f_equal. apply map_ext_in. intros q Hq. cbn. symmetry. auto. }
  assert (G3 : forall (g : opart (RP P) -> R) l, fold_left Rplus (map g l) 0%R = Rsum g l).
  { intros g l. unfold Rsum. apply fold_symmetric; intros; lra. }
  assert (Hg : forall q, In q (on_parts x) -> op_quality q = @mkQ (RP P) (ogain rows (op_start q) (op_end q)) (oloss rows (op_start q) (op_end q))).
  { intros q Hq. specialize (Q1 q Hq). destruct (B (op_start q, op_end q)) as [B1 B2]. { rewrite C3. apply (in_map (fun q => (op_start q, op_end q))). auto. }
    destruct Tt as [_ Tt]. cbn [fst snd] in *. rewrite (Tt _ _ B1 B2) in Q1. congruence. }
  assert (TG : gain (on_quality x) = Rsum (fun ka : Z * Z * Z => ogain rows (fst (fst ka)) (snd (fst ka))) (pn_parts y)).
  { rewrite G1, C3. rewrite (G2 _ (@gain (RP P))); [|intros q Hq; rewrite (Hg q Hq); reflexivity]. rewrite Q2. apply G3. }
  assert (TL : loss (on_quality x) = Rsum (fun ka : Z * Z * Z => oloss rows (fst (fst ka)) (snd (fst ka))) (pn_parts y)).
  { rewrite G1, C3. rewrite (G2 _ (@loss (RP P))); [|intros q Hq; rewrite (Hg q Hq); reflexivity]. rewrite Q3. apply G3. }
  assert (G4 : forall (f : Z * Z * Z -> R) c l, (Rsum (fun a => f a / c) l = Rsum f l / c)%R).
  { intros f c l. unfold Rsum. induction l; cbn [map fold_right]; [unfold Rdiv; lra|]. rewrite IHl. unfold Rdiv; lra. }
  split; [exact TG|]. split; [exact TL|]. split.
  - rewrite TG, <- G4. unfold Rsum. rewrite map_map. reflexivity.
  - rewrite TL, <- G4. unfold Rsum. rewrite map_map. reflexivity.
Qed.
Print Assumptions C57_ordered_stale.

(** The hypotheses of C56 are met, also by tables that share Quality objects; C57_ordered_stale is met by any data
    satisfying odata_ok (P_OrderedData.v, ex_data), and the sessions of C57 return (P_Session.v, C58). *)
Example C56_nonvacuous : forall A (q r : quality A),
  urel (points A [q; r]) (mkU 2 3 [0; 1; 0]) (mkU 2 3 [q; r; q]) /\
  Forall2 (points A [q; r]) [0; 0; 1] [q; q; r] /\
  Forall2 (urel (points A [q; r])) [mkU 1 1 [0]; mkU 1 1 [1]; mkU 1 1 [0]] [mkU 1 1 [q]; mkU 1 1 [r]; mkU 1 1 [q]] /\
  exists hp y, oh_best A [q; r] (mkU 1 1 [1]) (p_zero A) = Ok (hp, y) /\ pn_parts y = [((0, 0), 1)] /\ vget hp 0 = Ok q /\ vget hp 1 = Ok r /\
    vget hp (pn_qual y) = Ok (q_add A (q_zero A) r).
Proof. intros. unfold urel. repeat (split; [repeat constructor|]). eexists. eexists. split; [reflexivity|repeat split; reflexivity]. Qed.
