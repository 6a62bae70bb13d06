(** * Properties C43, C44, C45: the sums and means reported for the parts of a partition.

    A dimension that a class does not have counts as 1. Statements without real numbers hold in any arithmetic; [seqsum] is
    the left-to-right sum from 0. *)
From Coq Require Import Reals Lra Lia Permutation.
From Verif Require Import Base BaseFacts Arith Quality Utm UtmProofs Hierarchy Values Partitions Partitioners Aggregation SpecTree SpecParts SpecData
  TreeFacts TreePath CoverFacts HierarchyProofs TreeDec SpecInfo InfoFacts SpecValues ValuesFacts ValuesProofs SpecAgg AggFacts AggProofs OProofs HProofs P_Ordered P_Hier P_Hierarchy P_Values.

(** ** C43 *)
(** For every part of the partition and every component, getSum() is the sum over the slices of the part and getMean() that
    sum divided by the number of slices; all dimensions, any partition whose parts lie within the data. *)
Theorem C43_ordered : forall A (v : ovalues A) I J K (x : opartition A), ov_shaped v I J K ->
  (forall q, In q (on_parts x) -> 0 <= op_start q /\ op_end q < ov_osize v) ->
  let cell q a b c := sum_mean A (osum v (op_start q) (op_end q) a b c) (op_end q - op_start q + 1) in
  (ov_dim v = 1 -> oagg1 A x v = Ok (map (fun q => cell q 0 0 0) (on_parts x))) /\
  (ov_dim v = 2 -> oagg2 A x v = Ok (map (fun q => map (fun a => cell q a 0 0) (zrange 0 I)) (on_parts x))) /\
  (ov_dim v = 3 -> oagg3 A x v = Ok (map (fun q => map (fun a => map (fun b => cell q a b 0) (zrange 0 J)) (zrange 0 I)) (on_parts x))) /\
  (ov_dim v = 4 -> oagg4 A x v = Ok (map (fun q => map (fun a => map (fun b => map (fun c => cell q a b c) (zrange 0 K)) (zrange 0 J)) (zrange 0 I)) (on_parts x))).
Proof. exact oagg_prf. Qed.
Print Assumptions C43_ordered.

Lemma seqsum_real : forall X (f : X -> R) l, seqsum RA (map f l) = Rsum f l.
Proof.
  intros X f l. unfold seqsum. cbn [n_add n_zero RA RP].
  assert (G : forall l a, fold_left Rplus (map f l) a = (a + Rsum f l)%R).
  { induction l0 as [|x l0 IH]; intro a; cbn [map fold_left]; [rewrite Rsum_nil; lra|]. rewrite IH, Rsum_cons. lra. }
  rewrite G. lra.
Qed.

(** In exact arithmetic that is the mathematical sum, ... *)
Theorem C43_real : forall (v : ovalues RA) s e a b c, osum v s e a b c = Rsum (ov_at v a b c) (zrange s (e + 1)).
Proof. intros. apply seqsum_real. Qed.
Print Assumptions C43_real.

(** ... and the sums over the parts of any partition of the time axis add up to the total of the component. *)
Theorem C43_total : forall (v : ovalues RA) n l a b c, tiles 0 n l ->
  Rsum (fun se => osum v (fst se) (snd se) a b c) l = Rsum (ov_at v a b c) (zrange 0 n).
Proof.
  intros v n l a b c H. revert H. generalize 0. intros z H. induction H as [n|s e n r Hs H IH].
  - rewrite zrange_empty by lia. reflexivity.
  - rewrite Rsum_cons. cbn [fst snd]. rewrite IH, C43_real. assert (e + 1 <= n) by lia. rewrite (zrange_app s (e + 1) n) by lia.
    rewrite Rsum_app. reflexivity.
Qed.
Print Assumptions C43_total.

(** End to end: a partition computed by the partitioner. *)
Theorem C43_end_to_end : forall (v : ovalues RA) I J K (t : utm (quality RA)) p x, ov_shaped v I J K -> ov_osize v <= 65535 ->
  utm_shape t (ov_osize v) -> o_best RA t p = Ok x ->
  (forall q, In q (on_parts x) -> 0 <= op_start q /\ op_end q < ov_osize v) /\
  forall a b c, Rsum (fun q => osum v (op_start q) (op_end q) a b c) (on_parts x) = Rsum (ov_at v a b c) (zrange 0 (ov_osize v)).
Proof.
  intros v I J K t p x Sh Hn St E. assert (H0 : 0 <= ov_osize v) by apply Sh.
  destruct (C19_ordered_tiles RA t (ov_osize v) p ltac:(lia) St) as (x' & E' & _ & T). rewrite E in E'. injection E' as <-. split.
  - intros q Hq. assert (G : forall s n l, tiles s n l -> forall ab, In ab l -> s <= fst ab /\ snd ab < n).
    { clear. intros s n l H. induction H as [n|s e n r Hs H IH]; intros ab Hab; [destruct Hab|].
      destruct Hab as [<-|Hab]; cbn [fst snd]; [lia|]. specialize (IH ab Hab). lia. }
    apply (G _ _ _ T (op_start q, op_end q)). apply in_map_iff. exists q. auto.
  - intros a b c. rewrite <- (C43_total v _ _ a b c T), Rsum_map. reflexivity.
Qed.
Print Assumptions C43_end_to_end.

(** ** C44 *)
(** When every part is a leaf or a node all of whose children are leaves: a part that is not a leaf gets the sum over the
    leaves below it and the mean, but a part that is a leaf gets 0 whatever its value. *)
Theorem C44_hier : forall A (v : hvalues A) I J K (x : hpartition A) fuel, hv_shaped v I J K -> well_built (hv_meta v) -> 2 <= m_hsize (hv_meta v) ->
  (forall q, In q (hn_parts x) -> node (m_parents (hv_meta v)) (hp_h q)) -> (forall q, In q (hn_parts x) -> shallow (hv_meta v) (hp_h q)) ->
  (2 <= fuel)%nat ->
  let cell q a b c := sum_mean A (if hp_h q <? m_leaves (hv_meta v) then n_zero A else hsum v (hp_h q) a b c) (hp_size q) in
  (hv_dim v = 1 -> hagg1 A fuel x v = Ok (map (fun q => cell q 0 0 0) (hn_parts x))) /\
  (hv_dim v = 2 -> hagg2 A fuel x v = Ok (map (fun q => map (fun a => cell q a 0 0) (zrange 0 I)) (hn_parts x))) /\
  (hv_dim v = 3 -> hagg3 A fuel x v = Ok (map (fun q => map (fun a => map (fun b => cell q a b 0) (zrange 0 J)) (zrange 0 I)) (hn_parts x))) /\
  (hv_dim v = 4 -> hagg4 A fuel x v = Ok (map (fun q => map (fun a => map (fun b => map (fun c => cell q a b c) (zrange 0 K)) (zrange 0 J)) (zrange 0 I)) (hn_parts x))).
Proof. intros A v I J K x fuel Sh W H2 N S F. exact (hagg_prf A v I J K Sh W H2 x fuel N S F). Qed.
Print Assumptions C44_hier.

(** As soon as one part has a child that is not a leaf (and there is at least one component) the computation never ends. *)
Theorem C44_hier_diverges : forall A (v : hvalues A) I J K (x : hpartition A) q, hv_shaped v I J K -> well_built (hv_meta v) -> 2 <= m_hsize (hv_meta v) ->
  (forall q, In q (hn_parts x) -> node (m_parents (hv_meta v)) (hp_h q)) -> 0 < I -> 0 < J -> 0 < K ->
  In q (hn_parts x) -> ~ shallow (hv_meta v) (hp_h q) -> forall fuel,
  (hv_dim v = 1 -> hagg1 A fuel x v = OutOfFuel) /\ (hv_dim v = 2 -> hagg2 A fuel x v = OutOfFuel) /\
  (hv_dim v = 3 -> hagg3 A fuel x v = OutOfFuel) /\ (hv_dim v = 4 -> hagg4 A fuel x v = OutOfFuel).
Proof. intros A v I J K x q Sh W H2 N HI HJ HK Hq S fuel. exact (hagg_deep_prf A v I J K Sh W H2 x fuel q N Hq S HI HJ HK). Qed.
Print Assumptions C44_hier_diverges.

(** What a user expects would be consistent: the sums over the leaves below the nodes of any cover add up to the total ... *)
Theorem C44_expected_total : forall (v : hvalues RA) l a b c, well_built (hv_meta v) ->
  node_cover (m_leaves (hv_meta v)) (m_parents (hv_meta v)) l ->
  Rsum (fun h => hsum v h a b c) l = Rsum (fun x => hv_at v x a b c) (zrange 0 (m_leaves (hv_meta v))).
Proof.
  intros v l a b c W H. apply (node_cover_iff _ W) in H. destruct H as (_ & P).
  rewrite (lv_root _ W) in P. rewrite <- (Rsum_perm _ _ _ _ P). clear P. induction l as [|h l IH]; [reflexivity|].
  cbn [flat_map]. rewrite Rsum_cons, Rsum_app, IH. unfold hsum. rewrite seqsum_real. reflexivity.
Qed.
Print Assumptions C44_expected_total.

(** ... but is not what is reported. A hierarchy of two leaves (values 3 and 4) below a root: the partition into leaves is
    reported with sums 0 and 0; and over the four leaves of a three-level hierarchy the partition into the root is never
    reported. *)
Definition leaf_pn (m : meta) (l : list Z) : hpartition RA :=
  mkHPn RA [] (map (fun h => mkHPart RA h (m_sizeof m h) (q_zero RA)) l) [] (p_zero RA) m (q_zero RA).

Lemma tree2_prf : valid_tree 2 [2; 2; -1] 2 /\ uniform_depth 2 [2; 2; -1] 2.
Proof. split; [apply valid_treeb_ok; reflexivity|apply (uniformb_ok 1); reflexivity]. Qed.

Theorem C44_refuted : exists d ps v x, valid_tree (vlen d) ps 2 /\ hv1_of RA d ps = Ok v /\ d = [3; 4]%R /\
  node_cover 2 ps (map hp_h (hn_parts x)) /\
  (forall fuel, (2 <= fuel)%nat -> exists s, hagg1 RA fuel x v = Ok s /\ Forall (fun sm => fst sm = 0%R /\ snd sm = 0%R) s).
Proof.
  destruct tree2_prf as [V U]. destruct (C03_C04_uniform _ _ _ V U) as (m & E & W & EL & EP & ER).
  exists [3; 4]%R, [2; 2; -1]. set (v := mkHV RA 1 m (HN1 RA [3; 4]%R)). exists v, (leaf_pn m [0; 1]).
  split; [exact V|]. split; [unfold hv1_of; change (size1 [3%R; 4%R]) with 2; rewrite E; reflexivity|]. split; [reflexivity|]. split.
  - pose proof (proj2 (node_cover_iff m W [0; 1])) as G. rewrite EL, EP in G. apply G. unfold hcover. split.
    + intros y Hy. rewrite (wb_hsize _ W), EP, ER. change (vlen [2; 2; -1]) with 3.
      destruct Hy as [<-|[<-|[]]]; (split; [lia|]); (apply below_up; [cbv; discriminate|constructor]).
    + rewrite ER, EL, EP. apply Permutation_refl.
  - intros fuel Hf. assert (H2 : 2 <= m_hsize m) by (rewrite (wb_hsize _ W), EP; cbv; discriminate).
    assert (Sh : hv_shaped v 1 1 1).
    { unfold hv_shaped, v. cbn [hv_meta hv_data hv_vsize]. rewrite EL. repeat split; try lia. }
    destruct (C44_hier RA v 1 1 1 (leaf_pn m [0; 1]) fuel Sh W H2) as (K & _); auto.
    + cbn. rewrite EP. intros q [<-|[<-|[]]]; cbv; split; congruence.
    + intros q Hq c Nc Pc. unfold v in *. cbn [hv_meta] in *. destruct (Z.eq_dec c (m_root m)) as [->|D].
      * rewrite (vt_rootp _ _ _ (wb_tree _ W)) in Pc. cbn in Hq. destruct Hq as [<-|[<-|[]]]; cbn in Pc; lia.
      * pose proof (vt_parent _ _ _ (wb_tree _ W) c Nc D). cbn in Hq. destruct Hq as [<-|[<-|[]]]; cbn in Pc; rewrite EL in *; lia.
    + eexists. split; [apply K; reflexivity|]. cbn. rewrite EL. cbn. repeat constructor; cbn; unfold Rdiv; ring.
Qed.
Print Assumptions C44_refuted.

Theorem C44_refuted_deep : exists ps m, valid_tree 4 ps 6 /\ meta_build 4 ps = Ok m /\ forall d fuel, vlen d = 4 ->
  hagg1 RA fuel (leaf_pn m [6]) (mkHV RA 1 m (HN1 RA d)) = OutOfFuel.
Proof.
  destruct tree4_prf as [V U]. destruct (C03_C04_uniform _ _ _ V U) as (m & E & W & EL & EP & ER).
  exists [4; 4; 5; 5; 6; 6; -1], m. split; auto. split; auto. intros d fuel Hd.
  assert (H2 : 2 <= m_hsize m) by (rewrite (wb_hsize _ W), EP; cbv; discriminate).
  refine (proj1 (C44_hier_diverges RA (mkHV RA 1 m (HN1 RA d)) 1 1 1 (leaf_pn m [6]) (mkHPart RA 6 (m_sizeof m 6) (q_zero RA)) _ W H2 _ _ _ _ _ _ fuel) eq_refl); try lia.
  - unfold hv_shaped. cbn [hv_meta hv_data hv_vsize]. rewrite EL. repeat split; try lia.
  - cbn. rewrite EP. intros q [<-|[]]. cbv; split; congruence.
  - cbn. auto.
  - intro S. specialize (S 4). cbn in S. rewrite EP, EL in S. assert (4 < 4); [|lia]. apply S; [cbv; split; congruence|reflexivity].
Qed.
Print Assumptions C44_refuted_deep.

(** ** C45 *)
Theorem C45_spatio : forall A (v : dvalues A) I J (x : dpartition A) fuel, dv_shaped v I J -> well_built (dv_meta v) -> 2 <= m_hsize (dv_meta v) ->
  (forall q, In q (dn_parts x) -> node (m_parents (dv_meta v)) (dp_h q) /\ 0 <= dp_start q <= dp_end q /\ dp_end q < dv_osize v) ->
  (forall q, In q (dn_parts x) -> shallow (dv_meta v) (dp_h q)) -> (2 <= fuel)%nat ->
  let cell q a b := sum_mean A (if dp_h q <? m_leaves (dv_meta v) then seqsum A (map (fun _ => n_zero A) (zrange (dp_start q) (dp_end q + 1)))
                                else dsum v (dp_h q) (dp_start q) (dp_end q) a b) (dp_hsize q * (dp_end q - dp_start q + 1)) in
  (dv_dim v = 2 -> dagg2 A fuel x v = Ok (map (fun q => cell q 0 0) (dn_parts x))) /\
  (dv_dim v = 3 -> dagg3 A fuel x v = Ok (map (fun q => map (fun a => cell q a 0) (zrange 0 I)) (dn_parts x))) /\
  (dv_dim v = 4 -> dagg4 A fuel x v = Ok (map (fun q => map (fun a => map (fun b => cell q a b) (zrange 0 J)) (zrange 0 I)) (dn_parts x))).
Proof. intros A v I J x fuel Sh W H2 N S F. exact (dagg_prf A v I J Sh W H2 x fuel N S F). Qed.
Print Assumptions C45_spatio.

Theorem C45_spatio_diverges : forall A (v : dvalues A) I J (x : dpartition A) q, dv_shaped v I J -> well_built (dv_meta v) -> 2 <= m_hsize (dv_meta v) ->
  (forall q, In q (dn_parts x) -> node (m_parents (dv_meta v)) (dp_h q) /\ 0 <= dp_start q <= dp_end q /\ dp_end q < dv_osize v) ->
  0 < I -> 0 < J -> In q (dn_parts x) -> ~ shallow (dv_meta v) (dp_h q) -> forall fuel,
  (dv_dim v = 2 -> dagg2 A fuel x v = OutOfFuel) /\ (dv_dim v = 3 -> dagg3 A fuel x v = OutOfFuel) /\ (dv_dim v = 4 -> dagg4 A fuel x v = OutOfFuel).
Proof. intros A v I J x q Sh W H2 N HI HJ Hq S fuel. exact (dagg_deep_prf A v I J Sh W H2 x fuel q N Hq S HI HJ). Qed.
Print Assumptions C45_spatio_diverges.

(** In exact arithmetic: the sum over all cells of the part; and 0 for a leaf. *)
Theorem C45_real : forall (v : dvalues RA) h s e a b,
  dsum v h s e a b = Rsum (fun o => Rsum (fun x => dv_at v x a b o) (leavesof (m_leaves (dv_meta v)) (m_parents (dv_meta v)) h)) (zrange s (e + 1)) /\
  seqsum RA (map (fun _ => 0%R) (zrange s (e + 1))) = 0%R.
Proof.
  intros. split.
  - unfold dsum. rewrite seqsum_real. apply Rsum_ext. intros. apply seqsum_real.
  - rewrite seqsum_real. apply Rsum_zero. auto.
Qed.
Print Assumptions C45_real.
