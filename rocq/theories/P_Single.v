(** * Property C51: hierarchies made of a single node, and spatiotemporal data without slices.

    A user may pass one leaf that is the root (parents = [-1]). Building the metadata works and the metadata is right; but
    HQualities::computeQualities, DQualities::computeQualities and HPartitioner::computeBestPartition add the leaf to
    "its parent", i.e. index a vector with -1, whatever the data: undefined behaviour ([UB]). *)
From Coq Require Import Reals Lia.
From Verif Require Import Base BaseFacts Arith Quality Utm UtmProofs Hierarchy SpecTree SpecParts TreeFacts HierarchyFacts HierarchyProofs TreeDec
  Values Qualities Partitions Partitioners P_Spatio.

Definition one_node : meta := mkMeta 1 1 [-1] [[]] [(0, 1)] [0] 0.

(** The metadata is built, and is what a user expects. *)
Theorem C51_metadata : exists m, meta_build 1 [-1] = Ok m /\ well_built m /\ m_hsize m = 1 /\ m_root m = 0.
Proof.
  exists one_node. split; [vm_compute; reflexivity|]. split; [|split; reflexivity].
  assert (V : valid_tree 1 [-1] 0) by (apply valid_treeb_ok; reflexivity).
  assert (U : uniform_depth 1 [-1] 0) by (apply (uniformb_ok 0); reflexivity).
  destruct (uniform_well_built _ _ _ V U) as (m & E & W & _). assert (m = one_node) by (vm_compute in E; injection E as <-; reflexivity). subst; auto.
Qed.
Print Assumptions C51_metadata.

Lemma one_node_only : forall m, meta_build 1 [-1] = Ok m -> m = one_node.
Proof. intros m E. vm_compute in E. injection E as <-. reflexivity. Qed.

Lemma vget_no_fuel : forall X (v : list X) i, vget v i <> OutOfFuel.
Proof. intros X v i. unfold vget. destruct (i <? 0); [discriminate|]. destruct (nth_error v (Z.to_nat i)); discriminate. Qed.
Lemma bind_no_fuel : forall X Y (e : res X) (k : X -> res Y), e <> OutOfFuel -> (forall x, k x <> OutOfFuel) -> bind e k <> OutOfFuel.
Proof. intros X Y e k H K. destruct e; cbn; auto. discriminate. Qed.
Lemma udiv_no_fuel : forall a b, udiv a b <> OutOfFuel. Proof. intros; unfold udiv; destruct (b =? 0); discriminate. Qed.
Lemma umod_no_fuel : forall a b, umod a b <> OutOfFuel. Proof. intros; unfold umod; destruct (b =? 0); discriminate. Qed.
Lemma vset_no_fuel : forall X (v : list X) i x, vset v i x <> OutOfFuel.
Proof. intros. unfold vset. destruct ((i <? 0) || (Z.of_nat (length v) <=? i)); discriminate. Qed.

Ltac nofuel := repeat first [apply vget_no_fuel | apply vset_no_fuel | discriminate | apply udiv_no_fuel | apply umod_no_fuel | apply bind_no_fuel; [|intro]
                            | progress unfold vget2 | progress unfold vget3 | progress unfold vget4].

Lemma hv_value_no_fuel : forall A (v : hvalues A) h k, hv_value v h k <> OutOfFuel.
Proof. intros. unfold hv_value. destruct (hv_data v); nofuel. Qed.
Lemma dv_row_no_fuel : forall A (v : dvalues A) h k, dv_row v h k <> OutOfFuel.
Proof. intros. unfold dv_row. destruct (dv_data v); nofuel. Qed.

(** Whatever happens first, the last step is undefined. *)
Lemma bind_ub : forall X Y (e : res X) (k : X -> res Y), e <> OutOfFuel -> (forall x, e = Ok x -> k x = UB) -> bind e k = UB.
Proof. intros X Y e k H K. destruct e; cbn; auto. congruence. Qed.

Lemma for_up_first_ub : forall S a b (f : Z -> S -> res S) s, a < b -> f a s = UB -> for_up a b f s = UB.
Proof.
  intros S a b f s H E. unfold for_up, zrange. destruct (Z.to_nat (b - a)) as [|n] eqn:En; [lia|]. cbn [seq map mfold].
  replace (a + Z.of_nat 0) with a by lia. rewrite E. reflexivity.
Qed.

Lemma path_loop_first_ub : forall S (f : Z -> S -> res S) s, f 0 s = UB -> path_loop [0] 0 1 f s = UB.
Proof. intros S f s E. unfold path_loop. change (vget [0] 0) with (@Ok Z 0). cbn [bind]. apply for_up_first_ub; [lia|]. rewrite E. reflexivity. Qed.

(** The hierarchical qualities cannot be computed, for any data. *)
Theorem C51_hier_qualities : forall A (v : hvalues A) m, meta_build 1 [-1] = Ok m -> hv_meta v = m -> 1 <= hv_vsize v ->
  hq_compute A (hq_ofValues A v) = UB.
Proof.
  intros A v m E Em Hv. rewrite (one_node_only _ E) in Em. unfold hq_compute, hq_ofValues. cbn [hq_values hq_meta]. rewrite Em.
  unfold hq_computeTable. rewrite for_up_first_ub; [reflexivity|lia|]. unfold hq_component. cbn [m_path m_leaves m_hsize one_node].
  rewrite path_loop_first_ub; [reflexivity|]. unfold hq_leaf.
  apply bind_ub; [apply hv_value_no_fuel|intros x _]. apply bind_ub; [apply vset_no_fuel|intros s _]. reflexivity.
Qed.
Print Assumptions C51_hier_qualities.

(** The best hierarchical partition cannot be computed, for any quality table and parameter. *)
Theorem C51_hier_best : forall A (t : list (quality A)) m p, meta_build 1 [-1] = Ok m -> h_best A t m p = UB.
Proof.
  intros A t m p E. rewrite (one_node_only _ E). unfold h_best, hb_tables. cbn [m_path m_leaves m_hsize one_node].
  rewrite path_loop_first_ub; [reflexivity|]. unfold hb_leaf.
  apply bind_ub; [apply vget_no_fuel|intros q _]. apply bind_ub; [apply vset_no_fuel|intros tr _]. reflexivity.
Qed.
Print Assumptions C51_hier_best.

(** The spatiotemporal qualities cannot be computed, for any data (with at least one slice or none). *)
Theorem C51_spatio_qualities : forall A (v : dvalues A) m, meta_build 1 [-1] = Ok m -> dv_meta v = m -> 1 <= dv_vsize v ->
  dq_compute A (dq_ofValues A v) = UB.
Proof.
  intros A v m E Em Hv. rewrite (one_node_only _ E) in Em. unfold dq_compute, dq_ofValues. cbn [dq_values dq_meta]. rewrite Em.
  unfold dq_computeTable. rewrite for_up_first_ub; [reflexivity|lia|]. unfold dq_component. cbn [m_path m_leaves m_hsize one_node].
  destruct (Z_lt_le_dec 0 (dv_osize v)) as [Ho|Ho].
  - rewrite path_loop_first_ub; [reflexivity|]. unfold dq_leaf, for_down, zrange.
    destruct (Z.to_nat (dv_osize v - 0)) as [|n] eqn:En; [lia|]. rewrite seq_S, map_app, rev_app_distr. cbn [rev map app mfold].
    match goal with |- bind (dq_leafLine _ _ _ _ _ _ ?i _) _ = _ => replace i with (Z.of_nat n) by lia end.
    replace (dq_leafLine _ _ _ _ _ _ _ _) with (@UB (dq_state A)); [reflexivity|]. symmetry. unfold dq_leafLine.
    apply bind_ub; [apply dv_row_no_fuel|intros r _]. apply bind_ub; [apply vget_no_fuel|intros x _].
    apply bind_ub; [unfold mm_set, u_set; nofuel|intros s _]. apply bind_ub; [unfold mm_set, u_set; nofuel|intros f _].
    apply bind_ub; [unfold dq_toParent, mm_addto, mm_get, mm_set, u_set, u_get; nofuel|]. intros [a b].
    unfold dq_toParent. change (vget (m_parents one_node) 0) with (@Ok Z (-1)). cbn [bind]. intros K. exfalso.
    destruct (mm_get s 0 (Z.of_nat n) (Z.of_nat n)); cbn in K; discriminate.
  - assert (Z0 : Z.to_nat (dv_osize v - 0) = O) by lia. unfold path_loop. change (vget [0] 0) with (@Ok Z 0). cbn [bind].
    assert (ZR : zrange 0 (dv_osize v) = []) by (unfold zrange; rewrite Z0; reflexivity).
    unfold for_up at 1. change (zrange 0 1) with [0]. cbn [mfold]. unfold dq_leaf, for_down. rewrite ZR. reflexivity.
Qed.
Print Assumptions C51_spatio_qualities.

(** The spatiotemporal partitioner, given a table, has no such problem: its result on the single node covers every slice
    exactly once (corollary of C21). *)
Theorem C51_spatio_best : forall A (t : list (utm (quality A))) m n p, meta_build 1 [-1] = Ok m ->
  1 <= n <= 65535 -> vlen t = 1 -> Forall (fun u => utm_shape u n) t ->
  exists x, d_best A t m p = Ok x /\
    rect_cover 1 [-1] n (map (fun y => (dp_h y, dp_start y, dp_end y)) (dn_parts x)).
Proof.
  intros A t m n p E Hn Ht F. destruct C51_metadata as (m' & E' & W & Eh & _). rewrite E in E'. injection E' as <-.
  destruct (C21_spatio_cover m W A t n p Hn ltac:(lia) F) as (x & Ex & _ & RC & _). exists x. split; auto.
  rewrite (one_node_only _ E) in RC. exact RC.
Qed.
Print Assumptions C51_spatio_best.

Lemma db_loop_no_slice : forall A t m p fuel k h (st : db_state A), (Z.to_nat (m_hsize m - k) < fuel)%nat ->
  db_loop A fuel t m p 0 k h st = Ok st \/ db_loop A fuel t m p 0 k h st = UB.
Proof.
  intros A t m p. induction fuel as [|fuel IH]; intros k h st Hf; [lia|]. cbn [db_loop].
  destruct (k <? m_hsize m) eqn:Ek; [|auto]. apply Z.ltb_lt in Ek. unfold db_node, for_down. change (zrange 0 0) with (@nil Z).
  cbn [rev mfold bind]. destruct (h =? m_root m); [auto|]. destruct (vget (m_path m) (k + 1)) as [h'| |] eqn:Eh; cbn [bind]; auto.
  - apply IH. lia.
  - exfalso. apply (vget_no_fuel _ _ _ Eh).
Qed.

(** With no slice at all the spatiotemporal partitioner reads outside its matrices. *)
Theorem C51_no_slice : forall m, well_built m -> forall A (t : list (utm (quality A))) p,
  vlen t = m_hsize m -> Forall (fun u => utm_shape u 0) t -> d_best A t m p = UB.
Proof.
  intros m W A t p Ht F. unfold d_best, db_tables. destruct t as [|u t']; [reflexivity|]. change (vget (u :: t') 0) with (Ok u). cbn [bind].
  assert (Eu : u_size u = 0) by (inversion F as [|? ? Hu]; subst; destruct Hu; auto). rewrite Eu.
  destruct (vget (m_path m) 0) as [h| |] eqn:Eh; cbn [bind]; [|reflexivity|exfalso; apply (vget_no_fuel _ _ _ Eh)].
  match goal with |- context [db_loop A ?f ?t0 m p 0 0 h ?st] =>
    destruct (db_loop_no_slice A t0 m p f 0 h st ltac:(lia)) as [-> | ->] end; [|reflexivity].
  cbn [bind fst snd]. unfold dn_make. change (vget (u :: t') 0) with (Ok u). cbn [bind]. rewrite Eu. cbn [dn_sub]. unfold mm_get.
  replace (vget (vrep (m_hsize m) (u_new 0 (0 - 1))) (m_root m)) with (Ok (u_new 0 (0 - 1))).
  - cbn [bind]. unfold u_get. cbn [u_data u_new]. change (u_count 0) with 0. unfold vget, vrep. cbn [Z.to_nat repeat].
    destruct (_ <? 0); [reflexivity|]. destruct (Z.to_nat _); reflexivity.
  - symmetry. apply vget_vrep. pose proof (vt_root _ _ _ (wb_tree m W)). unfold node in *. rewrite (wb_hsize m W). auto.
Qed.
Print Assumptions C51_no_slice.

(** The hypotheses are met. *)
Example C51_nonvacuous : exists v, hv1_of RA [IZR 5] [-1] = Ok v /\ meta_build 1 [-1] = Ok (hv_meta v) /\ hv_vsize v = 1.
Proof. eexists. repeat split. Qed.
