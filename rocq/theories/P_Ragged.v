(** * Property C92: ragged and empty nested vectors.

    Nothing checks that the inner vectors have equal lengths: the sizes are those of the first one at each level. For every arithmetic:
    - what follows the sizes of the first inner vectors is ignored (C92_*_crop): the qualities, also normalised, also in the error cases, are those of the
      data cut to these sizes;
    - an inner vector shorter than the first one at its level is read out of bounds (C92_*_defined): computeQualities() is defined exactly when the cut data
      are rectangular;
    - empty data give empty tables, and normalising them is an access outside the table (C92_*_empty). *)
From Coq Require Import Lia.
From Verif Require Import Base BaseFacts Arith Quality Utm UtmFacts UtmProofs Hierarchy SpecTree HierarchyFacts SpecData SpecShape SpecValues Values Qualities DataFacts P_Shape P_Hierarchy
  SpecParts OProofs QualInv DegFacts P_Pipeline P_Values CoverFacts SpecRagged RaggedFacts.

Section M.
Context (A : arith).
Notation val := (num A).

Lemma mfold_ext' : forall I S (f g : I -> S -> res S) l s, (forall x s, In x l -> f x s = g x s) -> mfold f l s = mfold g l s.
Proof. intros I S f g l. induction l as [|x l IH]; intros s H; [reflexivity|]. cbn. rewrite H by (left; reflexivity). apply bind_ext. intros y _. apply IH. intros; apply H; right; assumption. Qed.

(** ** Cell-level agreement. *)
Lemma o_agree : forall v v' : ovalues A, ov_vsize v = ov_vsize v' -> ov_osize v = ov_osize v' ->
  (forall k i, 0 <= k < ov_vsize v -> 0 <= i < ov_osize v -> (let* r := ov_row v k in vget r i) = (let* r := ov_row v' k in vget r i)) ->
  o_table A v = o_table A v' /\ o_ntable A v = o_ntable A v'.
Proof.
  intros v v' E1 E2 E3. assert (T : oq_computeTable A v = oq_computeTable A v').
  { unfold oq_computeTable. rewrite <- E1, <- E2. f_equal. apply mfold_ext'. intros k s Ik. apply In_zrange in Ik. apply mfold_ext'. intros i [[a b] c] Ii. apply in_rev, In_zrange in Ii. unfold oq_line.
    rewrite <- !bind_assoc. rewrite E3 by lia. reflexivity. }
  unfold o_table, o_ntable, oq_compute, oq_ofValues. cbn [oq_values]. rewrite T. destruct (oq_computeTable A v') as [t| |]; cbn [bind]; auto. split; [reflexivity|].
  unfold oq_normalize. cbn [oq_table oq_values]. rewrite E2. destruct (u_get t 0 (ov_osize v' - 1)); cbn [bind]; auto. destruct (u_normalize A t _); reflexivity.
Qed.

Lemma d_agree : forall v v' : dvalues A, dv_vsize v = dv_vsize v' -> dv_osize v = dv_osize v' -> dv_meta v = dv_meta v' ->
  (forall h k i, 0 <= k < dv_vsize v -> 0 <= i < dv_osize v -> (let* r := dv_row v h k in vget r i) = (let* r := dv_row v' h k in vget r i)) ->
  d_table A (Ok v) = d_table A (Ok v') /\ d_ntable A (Ok v) = d_ntable A (Ok v').
Proof.
  intros v v' E1 E0 E2 E3. assert (T : dq_computeTable A v (dv_meta v) = dq_computeTable A v' (dv_meta v')).
  { unfold dq_computeTable. rewrite <- E1, <- E2, <- E0. apply mfold_ext'. intros k s Ik. apply In_zrange in Ik. unfold dq_component. rewrite <- E0. f_equal.
    apply path_loop_ext. intros h st. unfold dq_leaf. apply mfold_ext'. intros i [[a b] c] Ii. apply in_rev, In_zrange in Ii. unfold dq_leafLine. rewrite <- !bind_assoc. rewrite E3 by lia. reflexivity. }
  unfold d_table, d_ntable, dq_compute, dq_ofValues. cbn [dq_values dq_meta bind]. rewrite T, E2. destruct (dq_computeTable A v' (dv_meta v')) as [t| |]; cbn [bind dq_table dq_meta]; auto. split; [reflexivity|].
  unfold dq_normalize. cbn [dq_table dq_values dq_meta]. rewrite E0. destruct (vget t (m_root (dv_meta v'))) as [ur| |]; cbn [bind]; auto. destruct (u_get ur 0 (dv_osize v' - 1)); cbn [bind]; auto.
  destruct (d_normalize A t _ _ _); reflexivity.
Qed.

(** Index arithmetic. *)
Lemma div_lt : forall k I J, 0 <= k < I * J -> 0 <= J -> 0 < J /\ 0 <= k / J < I /\ 0 <= k mod J < J.
Proof.
  intros k I J Hk HJ. assert (0 < J) by (destruct (Z.eq_dec J 0) as [-> |]; lia). split; [assumption|]. split; [|apply Z.mod_pos_bound; assumption]. split; [apply Z.div_pos; lia|]. apply Z.div_lt_upper_bound; nia.
Qed.
Lemma div_mul : forall a b J, 0 <= b < J -> (a * J + b) / J = a /\ (a * J + b) mod J = b.
Proof. intros a b J H. split; [symmetry; apply (Z.div_unique _ _ a b); lia|symmetry; apply (Z.mod_unique _ _ a b); lia]. Qed.
Lemma bind_get2 : forall X (d : list (list (list X))) a b i, (let* r := vget2 d a b in vget r i) = vget3 d a b i.
Proof. intros. unfold vget3, vget2. apply bind_assoc. Qed.
Lemma bind_get3 : forall X (d : list (list (list (list X)))) a b c i, (let* r := vget3 d a b c in vget r i) = vget4 d a b c i.
Proof. intros. unfold vget4, vget3, vget2. rewrite bind_assoc. apply bind_ext. intros x _. apply bind_assoc. Qed.

(** ** What follows the first inner vectors' sizes is ignored. *)
Theorem C92_ordered_crop :
  (forall d : list (list val), o_table A (ov2_of A d) = o_table A (ov2_of A (cropped2 d)) /\ o_ntable A (ov2_of A d) = o_ntable A (ov2_of A (cropped2 d))) /\
  (forall d : list (list (list val)), o_table A (ov3_of A d) = o_table A (ov3_of A (cropped3 d)) /\ o_ntable A (ov3_of A d) = o_ntable A (ov3_of A (cropped3 d))) /\
  (forall d : list (list (list (list val))), o_table A (ov4_of A d) = o_table A (ov4_of A (cropped4 d)) /\ o_ntable A (ov4_of A d) = o_ntable A (ov4_of A (cropped4 d))).
Proof.
  split; [|split]; intro d.
  - destruct (cropped2_sizes _ d) as [S1 S2]. apply o_agree; cbn [ov2_of ov_vsize ov_osize]; [unfold size1; congruence|congruence|]. intros k i Hk Hi. unfold ov_row. cbn [ov_data ov2_of ov3_of ov4_of]. symmetry. apply (cropped2_get _ d k i). lia.
  - destruct (cropped3_sizes _ d) as (S1 & S2 & S3). pose proof (size2_nn _ d) as N2. apply o_agree; cbn [ov3_of ov_vsize ov_osize]; [unfold size1; congruence|congruence|]. intros k i Hk Hi. unfold ov_row. cbn [ov_data ov2_of ov3_of ov4_of]. rewrite S2.
    destruct (div_lt _ _ _ Hk N2) as (P & B1 & B2). unfold udiv, umod. destruct (Z.eqb_spec (size2 d) 0); [lia|]. cbn [bind]. rewrite !bind_get2. symmetry. apply cropped3_get; lia.
  - destruct (cropped4_sizes _ d) as (S1 & S2 & S3 & S4). pose proof (size2_nn _ d) as N2. pose proof (size3_nn _ d) as N3. apply o_agree; cbn [ov4_of ov_vsize ov_osize]; [unfold size1; congruence|congruence|]. intros k i Hk Hi. unfold ov_row. cbn [ov_data ov2_of ov3_of ov4_of]. rewrite S2, S3.
    destruct (div_lt _ _ _ Hk N3) as (P & B1 & B2). destruct (div_lt _ _ _ B1 N2) as (P2 & B3 & B4). unfold udiv, umod. destruct (Z.eqb_spec (size3 d * size2 d) 0); [nia|]. destruct (Z.eqb_spec (size3 d) 0); [lia|]. destruct (Z.eqb_spec (size2 d) 0); [lia|]. cbn [bind].
    rewrite !bind_get3. symmetry. apply cropped4_get; lia.
Qed.

Theorem C92_hier_crop :
  (forall (d : list (list val)) ps, h_table A (hv2_of A d ps) = h_table A (hv2_of A (cropped2 d) ps) /\ h_ntable A (hv2_of A d ps) = h_ntable A (hv2_of A (cropped2 d) ps)) /\
  (forall (d : list (list (list val))) ps, h_table A (hv3_of A d ps) = h_table A (hv3_of A (cropped3 d) ps) /\ h_ntable A (hv3_of A d ps) = h_ntable A (hv3_of A (cropped3 d) ps)) /\
  (forall (d : list (list (list (list val)))) ps, h_table A (hv4_of A d ps) = h_table A (hv4_of A (cropped4 d) ps) /\ h_ntable A (hv4_of A d ps) = h_ntable A (hv4_of A (cropped4 d) ps)).
Proof.
  split; [|split]; intros d ps.
  - destruct (cropped2_sizes _ d) as [S1 S2]. unfold hv2_of. unfold size1. rewrite S1, S2. destruct (meta_build (vlen d) ps) as [m| |]; cbn [bind]; [|split; reflexivity..].
    apply h_same; [reflexivity|reflexivity|]. intros h k Hk. cbn [hv_vsize] in Hk. cbn [hv_value hv_data]. symmetry. apply cropped2_get. lia.
  - destruct (cropped3_sizes _ d) as (S1 & S2 & S3). pose proof (size3_nn _ d) as N3. unfold hv3_of. unfold size1. rewrite S1, S2, S3. destruct (meta_build (vlen d) ps) as [m| |]; cbn [bind]; [|split; reflexivity..].
    apply h_same; [reflexivity|reflexivity|]. intros h k Hk. cbn [hv_vsize] in Hk. cbn [hv_value hv_data]. destruct (div_lt _ _ _ Hk N3) as (P & B1 & B2). unfold udiv, umod. destruct (Z.eqb_spec (size3 d) 0); [lia|]. cbn [bind].
    symmetry. apply cropped3_get; lia.
  - destruct (cropped4_sizes _ d) as (S1 & S2 & S3 & S4). pose proof (size3_nn _ d) as N3. pose proof (size4_nn _ d) as N4. unfold hv4_of. unfold size1. rewrite S1, S2, S3, S4. destruct (meta_build (vlen d) ps) as [m| |]; cbn [bind]; [|split; reflexivity..].
    apply h_same; [reflexivity|reflexivity|]. intros h k Hk. cbn [hv_vsize] in Hk. cbn [hv_value hv_data]. destruct (div_lt _ _ _ Hk N4) as (P & B1 & B2). destruct (div_lt _ _ _ B1 N3) as (P2 & B3 & B4).
    unfold udiv, umod. destruct (Z.eqb_spec (size4 d * size3 d) 0); [nia|]. destruct (Z.eqb_spec (size4 d) 0); [lia|]. destruct (Z.eqb_spec (size3 d) 0); [lia|]. cbn [bind].
    symmetry. apply cropped4_get; try lia. rewrite <- Z.div_div by lia. lia.
Qed.

Theorem C92_spatio_crop :
  (forall (d : list (list val)) ps, d_table A (dv2_of A d ps) = d_table A (dv2_of A (cropped2 d) ps) /\ d_ntable A (dv2_of A d ps) = d_ntable A (dv2_of A (cropped2 d) ps)) /\
  (forall (d : list (list (list val))) ps, d_table A (dv3_of A d ps) = d_table A (dv3_of A (cropped3 d) ps) /\ d_ntable A (dv3_of A d ps) = d_ntable A (dv3_of A (cropped3 d) ps)) /\
  (forall (d : list (list (list (list val)))) ps, d_table A (dv4_of A d ps) = d_table A (dv4_of A (cropped4 d) ps) /\ d_ntable A (dv4_of A d ps) = d_ntable A (dv4_of A (cropped4 d) ps)).
Proof.
  split; [|split]; intros d ps.
  - destruct (cropped2_sizes _ d) as [S1 S2]. unfold dv2_of. unfold size1. rewrite S1, S2. destruct (meta_build (vlen d) ps) as [m| |]; cbn [bind]; [|split; reflexivity..].
    apply d_agree; [reflexivity|reflexivity|reflexivity|]. intros h k i Hk Hi. cbn [dv_vsize dv_osize] in Hk, Hi. cbn [dv_row dv_data]. symmetry. apply (cropped2_get _ d h i). lia.
  - destruct (cropped3_sizes _ d) as (S1 & S2 & S3). unfold dv3_of. unfold size1. rewrite S1, S2, S3. destruct (meta_build (vlen d) ps) as [m| |]; cbn [bind]; [|split; reflexivity..].
    apply d_agree; [reflexivity|reflexivity|reflexivity|]. intros h k i Hk Hi. cbn [dv_vsize dv_osize] in Hk, Hi. cbn [dv_row dv_data]. rewrite !bind_get2. symmetry. apply cropped3_get; lia.
  - destruct (cropped4_sizes _ d) as (S1 & S2 & S3 & S4). pose proof (size3_nn _ d) as N3. unfold dv4_of. unfold size1. rewrite S1, S2, S3, S4. destruct (meta_build (vlen d) ps) as [m| |]; cbn [bind]; [|split; reflexivity..].
    apply d_agree; [reflexivity|reflexivity|reflexivity|]. intros h k i Hk Hi. cbn [dv_vsize dv_osize] in Hk, Hi. cbn [dv_row dv_data]. destruct (div_lt _ _ _ Hk N3) as (P & B1 & B2).
    unfold udiv, umod. destruct (Z.eqb_spec (size3 d) 0); [lia|]. cbn [bind]. rewrite !bind_get3. symmetry. apply cropped4_get; lia.
Qed.

(** ** A defined result means that every value was read. *)
Lemma o_reads : forall (v : ovalues A) t, o_table A v = Ok t -> forall k i, 0 <= k < ov_vsize v -> 0 <= i < ov_osize v -> exists x, (let* r := ov_row v k in vget r i) = Ok x.
Proof.
  intros v t E k i Hk Hi. unfold o_table, oq_compute, oq_ofValues in E. cbn [oq_values] in E. apply bind_ok in E. destruct E as (o & E & _). apply bind_ok in E. destruct E as (u & E & _).
  unfold oq_computeTable in E. apply bind_ok in E. destruct E as (st & E & _). destruct (mfold_each _ _ _ _ _ _ E k ltac:(apply In_zrange; lia)) as (s1 & s2 & E1).
  assert (Ii : In i (rev (zrange 0 (ov_osize v)))) by (apply -> in_rev; apply In_zrange; lia). destruct (mfold_each _ _ _ _ _ _ E1 i Ii) as ([[a b] c] & s4 & E2).
  unfold oq_line in E2. apply bind_ok in E2. destruct E2 as (r & Er & E2). apply bind_ok in E2. destruct E2 as (x & Ex & _). exists x. rewrite Er. exact Ex.
Qed.
Lemma h_reads : forall (v : hvalues A) t, well_built (hv_meta v) -> h_table A (Ok v) = Ok t -> forall k h, 0 <= k < hv_vsize v -> 0 <= h < m_leaves (hv_meta v) -> exists x, hv_value v h k = Ok x.
Proof.
  intros v t W E k h Hk Hh. unfold h_table, hq_compute, hq_ofValues in E. cbn [hq_values hq_meta bind] in E. apply bind_ok in E. destruct E as (o & E & _). apply bind_ok in E. destruct E as (u & E & _).
  unfold hq_computeTable in E. destruct (mfold_each _ _ _ _ _ _ E k ltac:(apply In_zrange; lia)) as (s1 & s2 & E1). unfold hq_component in E1. apply bind_ok in E1. destruct E1 as (r & E1 & _).
  destruct (path_loop_each _ _ _ _ _ _ E1 h h Hh (wb_leaves _ W h Hh)) as ([a b] & s4 & E2). unfold hq_leaf in E2. apply bind_ok in E2. destruct E2 as (x & Ex & _). eauto.
Qed.
Lemma d_reads : forall (v : dvalues A) t, well_built (dv_meta v) -> d_table A (Ok v) = Ok t -> forall k h i, 0 <= k < dv_vsize v -> 0 <= h < m_leaves (dv_meta v) -> 0 <= i < dv_osize v ->
  exists x, (let* r := dv_row v h k in vget r i) = Ok x.
Proof.
  intros v t W E k h i Hk Hh Hi. unfold d_table, dq_compute, dq_ofValues in E. cbn [dq_values dq_meta bind] in E. apply bind_ok in E. destruct E as (o & E & _). apply bind_ok in E. destruct E as (u & E & _).
  unfold dq_computeTable in E. destruct (mfold_each _ _ _ _ _ _ E k ltac:(apply In_zrange; lia)) as (s1 & s2 & E1). unfold dq_component in E1. apply bind_ok in E1. destruct E1 as (r & E1 & _).
  destruct (path_loop_each _ _ _ _ _ _ E1 h h Hh (wb_leaves _ W h Hh)) as (s3 & s4 & E2). unfold dq_leaf in E2.
  assert (Ii : In i (rev (zrange 0 (dv_osize v)))) by (apply -> in_rev; apply In_zrange; lia). destruct (mfold_each _ _ _ _ _ _ E2 i Ii) as ([[a b] c] & s5 & E3).
  unfold dq_leafLine in E3. apply bind_ok in E3. destruct E3 as (r' & Er & E3). apply bind_ok in E3. destruct E3 as (x & Ex & _). exists x. rewrite Er. exact Ex.
Qed.
Lemma ub_or : forall X (r : res X), nf r -> (forall x, r <> Ok x) -> r = UB.
Proof. intros X [x| |] N H; [exfalso; apply (H x); reflexivity|reflexivity|exfalso; apply N; reflexivity]. Qed.
Lemma row_len : forall X (r : list X) n, 1 <= n -> (forall i, 0 <= i < n -> exists x, vget r i = Ok x) -> n <= vlen r.
Proof. intros X r n Hn H. destruct (H (n - 1) ltac:(lia)) as (x & E). apply vget_inv in E. lia. Qed.

Theorem C92_ordered_defined :
  (forall d : list (list val), 1 <= size2 d <= 65535 ->
     (rect2 (cropped2 d) (size2 d) -> exists t, o_table A (ov2_of A d) = Ok (Some t) /\ utm_shape t (size2 d)) /\ (~ rect2 (cropped2 d) (size2 d) -> o_table A (ov2_of A d) = UB)) /\
  (forall d : list (list (list val)), 1 <= size3 d <= 65535 ->
     (rect3 (cropped3 d) (size2 d) (size3 d) -> exists t, o_table A (ov3_of A d) = Ok (Some t) /\ utm_shape t (size3 d)) /\
     (~ rect3 (cropped3 d) (size2 d) (size3 d) -> o_table A (ov3_of A d) = UB)) /\
  (forall d : list (list (list (list val))), 1 <= size4 d <= 65535 ->
     (rect4 (cropped4 d) (size2 d) (size3 d) (size4 d) -> exists t, o_table A (ov4_of A d) = Ok (Some t) /\ utm_shape t (size4 d)) /\
     (~ rect4 (cropped4 d) (size2 d) (size3 d) (size4 d) -> o_table A (ov4_of A d) = UB)).
Proof.
  assert (P : forall (v : ovalues A) I J K, ov_shaped v I J K -> 1 <= ov_osize v <= 65535 -> exists t, o_table A v = Ok (Some t) /\ utm_shape t (ov_osize v)).
  { intros v I J K Sh Hn. assert (Hv : 0 <= ov_vsize v) by (destruct Sh as (HI & HJ & HK & _ & -> & _); nia).
    destruct (o_compute_all A (ov_osize v) _ _ _ _ (closed_True A _) v Hv ltac:(lia) ltac:(lia)) as (t & E & S & _).
    { intros k Hk. destruct (ValuesProofs.ov_index_prf A v I J K Sh) as [P1 P2]. destruct (P2 k Hk) as (a & b & c & Ha & Hb & Hc & -> & _). destruct (P1 a b c Ha Hb Hc) as (_ & r & Er & El & _).
      exists r. split; [exact Er|]. split; [exact El|]. intros i Hi. destruct (vget_ok _ r i ltac:(lia)) as [y Ey]. exists y. split; [exact Ey|exact Logic.I]. }
    exists t. unfold o_table. rewrite E. split; [reflexivity|exact S]. }
  split; [|split]; intros d Hd.
  - split; intro R.
    + rewrite (proj1 (proj1 C92_ordered_crop d)). destruct (cropped2_sizes _ d) as [S1 S2]. rewrite <- S2. apply (P (ov2_of A (cropped2 d)) (vlen d) 1 1); [|cbn [ov2_of ov_osize]; rewrite S2; exact Hd]. unfold ov_shaped. cbn [ov2_of ov_osize ov_vsize ov_data]. rewrite S2. pose proof (vlen_nn _ d). unfold size1. rewrite S1. repeat split; auto; lia.
    + apply ub_or; [apply o_table_nf|]. intros t E. apply R. apply reads2; [lia|]. intros a r Er. apply row_len; [lia|]. intros i Hi. pose proof (vget_inv _ _ _ _ Er) as Ha.
      destruct (o_reads _ _ E a i Ha Hi) as (x & Ex). unfold ov_row in Ex. cbn [ov_data ov2_of] in Ex. rewrite Er in Ex. eauto.
  - split; intro R.
    + rewrite (proj1 (proj1 (proj2 C92_ordered_crop) d)). destruct (cropped3_sizes _ d) as (S1 & S2 & S3). rewrite <- S3. pose proof (vlen_nn _ d). pose proof (size2_nn _ d).
      apply (P (ov3_of A (cropped3 d)) (vlen d) (size2 d) 1); [|cbn [ov3_of ov_osize]; rewrite S3; exact Hd]. unfold ov_shaped. cbn [ov3_of ov_osize ov_vsize ov_data]. rewrite S2, S3. unfold size1. rewrite S1. repeat split; auto; lia.
    + apply ub_or; [apply o_table_nf|]. intros t E. apply R. assert (H2 : 1 <= size2 d) by (destruct d as [|[|]]; cbn in Hd |- *; try lia; unfold vlen; cbn [length]; lia). apply reads3; [lia|lia|]. intros a b Ha Hb.
      assert (Hk : 0 <= a * size2 d + b < vlen d * size2 d) by nia. destruct (div_mul a b (size2 d) Hb) as [Q1 Q2].
      assert (G : forall i, 0 <= i < size3 d -> exists x, vget3 d a b i = Ok x). { intros i Hi. destruct (o_reads _ _ E _ i Hk Hi) as (x & Ex). unfold ov_row in Ex. cbn [ov_data ov3_of] in Ex. unfold udiv, umod in Ex. destruct (Z.eqb_spec (size2 d) 0); [lia|]. cbn [bind] in Ex. rewrite Q1, Q2, bind_get2 in Ex. eauto. }
      destruct (G 0 ltac:(lia)) as (x & Ex). rewrite <- bind_get2 in Ex. apply bind_ok in Ex. destruct Ex as (r & Er & _). exists r. split; [exact Er|]. apply row_len; [lia|]. intros i Hi. destruct (G i Hi) as (y & Ey). rewrite <- bind_get2, Er in Ey. eauto.
  - split; intro R.
    + rewrite (proj1 (proj2 (proj2 C92_ordered_crop) d)). destruct (cropped4_sizes _ d) as (S1 & S2 & S3 & S4). rewrite <- S4. pose proof (vlen_nn _ d). pose proof (size2_nn _ d). pose proof (size3_nn _ d).
      apply (P (ov4_of A (cropped4 d)) (vlen d) (size2 d) (size3 d)); [|cbn [ov4_of ov_osize]; rewrite S4; exact Hd]. unfold ov_shaped. cbn [ov4_of ov_osize ov_vsize ov_data]. rewrite S2, S3, S4. unfold size1. rewrite S1. repeat split; auto; lia.
    + apply ub_or; [apply o_table_nf|]. intros t E. apply R.
      assert (H23 : 1 <= size2 d /\ 1 <= size3 d) by (destruct d as [|[|[|]]]; cbn in Hd |- *; try lia; unfold vlen; cbn [length]; lia). destruct H23 as [H2 H3]. apply reads4; [lia|lia|lia|]. intros a b c Ha Hb Hc.
      assert (Hk1 : 0 <= a * size2 d + b < vlen d * size2 d) by nia. assert (Hk : 0 <= (a * size2 d + b) * size3 d + c < vlen d * size2 d * size3 d) by nia. destruct (div_mul a b (size2 d) Hb) as [Q1 Q2]. destruct (div_mul (a * size2 d + b) c (size3 d) Hc) as [Q3 Q4].
      assert (G : forall i, 0 <= i < size4 d -> exists x, vget4 d a b c i = Ok x).
      { intros i Hi. destruct (o_reads _ _ E _ i Hk Hi) as (x & Ex). unfold ov_row in Ex. cbn [ov_data ov4_of] in Ex. unfold udiv, umod in Ex. destruct (Z.eqb_spec (size3 d * size2 d) 0); [nia|]. destruct (Z.eqb_spec (size3 d) 0); [lia|]. destruct (Z.eqb_spec (size2 d) 0); [lia|]. cbn [bind] in Ex.
        rewrite <- Z.div_div in Ex by lia. rewrite Q3, Q4, Q1, Q2, bind_get3 in Ex. eauto. }
      destruct (G 0 ltac:(lia)) as (x & Ex). rewrite <- bind_get3 in Ex. apply bind_ok in Ex. destruct Ex as (r & Er & _). exists r. split; [exact Er|]. apply row_len; [lia|]. intros i Hi. destruct (G i Hi) as (y & Ey). rewrite <- bind_get3, Er in Ey. eauto.
Qed.

Lemma h_defined : forall (v : hvalues A), well_built (hv_meta v) -> 2 <= m_hsize (hv_meta v) ->
  ((forall k h, 0 <= k < hv_vsize v -> 0 <= h < m_leaves (hv_meta v) -> exists x, hv_value v h k = Ok x) -> exists t, h_table A (Ok v) = Ok (Some t, hv_meta v) /\ vlen t = m_hsize (hv_meta v)).
Proof.
  intros v W H2 H. destruct (h_compute_all A (m_leaves (hv_meta v)) _ _ _ _ (closed_True A _) v W H2 ltac:(lia)) as (t & E & f & R & _).
  { intros k h Hk Hh. destruct (H k h Hk Hh) as (x & Ex). exists x. split; [exact Ex|exact Logic.I]. }
  exists t. unfold h_table. cbn [bind]. rewrite E. split; [reflexivity|apply R].
Qed.
Lemma d_defined : forall (v : dvalues A), well_built (dv_meta v) -> 2 <= m_hsize (dv_meta v) -> 0 <= dv_osize v <= 65535 ->
  ((forall k h, 0 <= k < dv_vsize v -> 0 <= h < m_leaves (dv_meta v) -> exists r, dv_row v h k = Ok r /\ dv_osize v <= vlen r) ->
   exists t, d_table A (Ok v) = Ok (Some t, dv_meta v) /\ vlen t = m_hsize (dv_meta v) /\ Forall (fun u => utm_shape u (dv_osize v)) t).
Proof.
  intros v W H2 Hn H. destruct (d_compute_all A (dv_osize v * m_leaves (dv_meta v)) _ _ _ _ (closed_True A _) v W H2 ltac:(lia) ltac:(lia)) as (t & E & f & R & _).
  { intros k h Hk Hh. destruct (H k h Hk Hh) as (r & Er & El). exists r. split; [exact Er|]. intros i Hi. destruct (vget_ok _ r i ltac:(lia)) as [y Ey]. exists y. split; [exact Ey|exact Logic.I]. }
  exists t. unfold d_table. cbn [bind]. rewrite E. split; [reflexivity|]. split; [apply R|exact (mrepr_Forall _ _ _ _ _ R)].
Qed.

Lemma size3_pos : forall X (d : list (list (list X))), 1 <= size3 d -> 1 <= size2 d.
Proof. intros X d H. destruct d as [|[|]]; cbn in H |- *; try lia; unfold vlen; cbn [length]; lia. Qed.
Lemma size4_pos : forall X (d : list (list (list (list X)))), 1 <= size4 d -> 1 <= size3 d.
Proof. intros X d H. destruct d as [|[|[|]]]; cbn in H |- *; try lia; unfold vlen; cbn [length]; lia. Qed.

Theorem C92_hier_defined :
  (forall (d : list (list val)) ps r, valid_tree (vlen d) ps r -> uniform_depth (vlen d) ps r -> 2 <= vlen ps -> 1 <= size2 d ->
     (rect2 (cropped2 d) (size2 d) -> exists t m, h_table A (hv2_of A d ps) = Ok (Some t, m) /\ vlen t = vlen ps) /\ (~ rect2 (cropped2 d) (size2 d) -> h_table A (hv2_of A d ps) = UB)) /\
  (forall (d : list (list (list val))) ps r, valid_tree (vlen d) ps r -> uniform_depth (vlen d) ps r -> 2 <= vlen ps -> 1 <= size3 d ->
     (rect3 (cropped3 d) (size2 d) (size3 d) -> exists t m, h_table A (hv3_of A d ps) = Ok (Some t, m) /\ vlen t = vlen ps) /\ (~ rect3 (cropped3 d) (size2 d) (size3 d) -> h_table A (hv3_of A d ps) = UB)) /\
  (forall (d : list (list (list (list val)))) ps r, valid_tree (vlen d) ps r -> uniform_depth (vlen d) ps r -> 2 <= vlen ps -> 1 <= size4 d ->
     (rect4 (cropped4 d) (size2 d) (size3 d) (size4 d) -> exists t m, h_table A (hv4_of A d ps) = Ok (Some t, m) /\ vlen t = vlen ps) /\
     (~ rect4 (cropped4 d) (size2 d) (size3 d) (size4 d) -> h_table A (hv4_of A d ps) = UB)).
Proof.
  split; [|split]; intros d ps r V U H2 Hd; destruct (C03_C04_uniform _ _ _ V U) as (m & Em & W & EL & EP & _); pose proof (wb_hsize _ W) as EH; rewrite EP in EH.
  - unfold hv2_of. unfold size1. rewrite Em. cbn [bind]. set (v := mkHV A (size2 d) m (HN2 A d)). split; intro R.
    + destruct (h_defined v W ltac:(cbn; lia)) as (t & E & Lt); [|exists t, m; cbn in E, Lt; rewrite <- EH; auto]. intros k h Hk Hh. cbn in Hk, Hh. unfold hv_value. cbn [v hv_data]. rewrite EL in Hh.
      rewrite <- cropped2_get by lia. destruct (cropped2_sizes _ d) as [S1 _]. destruct (vget_ok _ (cropped2 d) h ltac:(lia)) as [y Ey]. unfold vget2. rewrite Ey. cbn [bind]. apply vget_ok. rewrite (proj1 (Forall_forall _ _) R y (vget_In _ _ _ _ Ey)). lia.
    + apply ub_or; [apply h_table_nf|]. intros t E. apply R. apply reads2; [lia|]. intros a x Er. apply row_len; [lia|]. intros i Hi. pose proof (vget_inv _ _ _ _ Er) as Ha.
      destruct (h_reads v _ W E i a Hi ltac:(cbn; lia)) as (y & Ey). unfold hv_value in Ey. cbn [v hv_data] in Ey. unfold vget2 in Ey. rewrite Er in Ey. eauto.
  - unfold hv3_of. unfold size1. rewrite Em. cbn [bind]. set (v := mkHV A (size2 d * size3 d) m (HN3 A (size2 d) (size3 d) d)). pose proof (size3_pos _ d Hd) as Hd2. split; intro R.
    + destruct (h_defined v W ltac:(cbn; lia)) as (t & E & Lt); [|exists t, m; cbn in E, Lt; rewrite <- EH; auto]. intros k h Hk Hh. cbn in Hk, Hh. unfold hv_value. cbn [v hv_data]. rewrite EL in Hh.
      destruct (div_lt k (size2 d) (size3 d) Hk ltac:(lia)) as (P & B1 & B2). unfold udiv, umod. destruct (Z.eqb_spec (size3 d) 0); [lia|]. cbn [bind].
      rewrite <- cropped3_get by lia. destruct (cropped3_sizes _ d) as [S1 _]. destruct (vget_ok _ (cropped3 d) h ltac:(lia)) as [y Ey]. unfold vget3. rewrite Ey. cbn [bind].
      destruct (proj1 (Forall_forall _ _) R y (vget_In _ _ _ _ Ey)) as [Ly Ry]. unfold vget2. destruct (vget_ok _ y (k / size3 d) ltac:(lia)) as [z Ez]. rewrite Ez. cbn [bind]. apply vget_ok. rewrite (proj1 (Forall_forall _ _) Ry z (vget_In _ _ _ _ Ez)). lia.
    + apply ub_or; [apply h_table_nf|]. intros t E. apply R. apply reads3; [lia|lia|]. intros a b Ha Hb.
      assert (G : forall i, 0 <= i < size3 d -> exists x, vget3 d a b i = Ok x).
      { intros i Hi. destruct (h_reads v _ W E (b * size3 d + i) a ltac:(cbn; nia) ltac:(cbn; lia)) as (y & Ey). unfold hv_value in Ey. cbn [v hv_data] in Ey. unfold udiv, umod in Ey. destruct (Z.eqb_spec (size3 d) 0); [lia|]. cbn [bind] in Ey.
        destruct (div_mul b i (size3 d) Hi) as [Q1 Q2]. rewrite Q1, Q2 in Ey. eauto. }
      destruct (G 0 ltac:(lia)) as (x & Ex). rewrite <- bind_get2 in Ex. apply bind_ok in Ex. destruct Ex as (q & Er & _). exists q. split; [exact Er|]. apply row_len; [lia|]. intros i Hi. destruct (G i Hi) as (y & Ey). rewrite <- bind_get2, Er in Ey. eauto.
  - unfold hv4_of. unfold size1. rewrite Em. cbn [bind]. set (v := mkHV A (size2 d * size3 d * size4 d) m (HN4 A (size2 d) (size3 d) (size4 d) d)). pose proof (size4_pos _ d Hd) as Hd3. pose proof (size3_pos _ d Hd3) as Hd2. split; intro R.
    + destruct (h_defined v W ltac:(cbn; lia)) as (t & E & Lt); [|exists t, m; cbn in E, Lt; rewrite <- EH; auto]. intros k h Hk Hh. cbn in Hk, Hh. unfold hv_value. cbn [v hv_data]. rewrite EL in Hh.
      destruct (div_lt k (size2 d * size3 d) (size4 d) Hk ltac:(lia)) as (P & B1 & B2). destruct (div_lt (k / size4 d) (size2 d) (size3 d) B1 ltac:(lia)) as (P' & B3 & B4). unfold udiv, umod. destruct (Z.eqb_spec (size4 d * size3 d) 0); [nia|]. destruct (Z.eqb_spec (size4 d) 0); [lia|]. destruct (Z.eqb_spec (size3 d) 0); [lia|]. cbn [bind].
      rewrite <- Z.div_div by lia. rewrite <- cropped4_get by lia. destruct (cropped4_sizes _ d) as [S1 _]. destruct (vget_ok _ (cropped4 d) h ltac:(lia)) as [y Ey]. unfold vget4. rewrite Ey. cbn [bind].
      destruct (proj1 (Forall_forall _ _) R y (vget_In _ _ _ _ Ey)) as [Ly Ry]. unfold vget3. destruct (vget_ok _ y (k / size4 d / size3 d) ltac:(lia)) as [z Ez]. rewrite Ez. cbn [bind].
      destruct (proj1 (Forall_forall _ _) Ry z (vget_In _ _ _ _ Ez)) as [Lz Rz]. unfold vget2. destruct (vget_ok _ z ((k / size4 d) mod size3 d) ltac:(lia)) as [w Ew]. rewrite Ew. cbn [bind]. apply vget_ok. rewrite (proj1 (Forall_forall _ _) Rz w (vget_In _ _ _ _ Ew)). lia.
    + apply ub_or; [apply h_table_nf|]. intros t E. apply R. apply reads4; [lia|lia|lia|]. intros a b c Ha Hb Hc.
      assert (G : forall i, 0 <= i < size4 d -> exists x, vget4 d a b c i = Ok x).
      { intros i Hi. assert (Hk1 : 0 <= b * size3 d + c < size2 d * size3 d) by nia. destruct (h_reads v _ W E ((b * size3 d + c) * size4 d + i) a ltac:(cbn; nia) ltac:(cbn; lia)) as (y & Ey). unfold hv_value in Ey. cbn [v hv_data] in Ey. unfold udiv, umod in Ey.
        destruct (Z.eqb_spec (size4 d * size3 d) 0); [nia|]. destruct (Z.eqb_spec (size4 d) 0); [lia|]. destruct (Z.eqb_spec (size3 d) 0); [lia|]. cbn [bind] in Ey.
        destruct (div_mul (b * size3 d + c) i (size4 d) Hi) as [Q1 Q2]. destruct (div_mul b c (size3 d) Hc) as [Q3 Q4]. rewrite <- Z.div_div in Ey by lia. rewrite Q1, Q2, Q3, Q4 in Ey. eauto. }
      destruct (G 0 ltac:(lia)) as (x & Ex). rewrite <- bind_get3 in Ex. apply bind_ok in Ex. destruct Ex as (q & Er & _). exists q. split; [exact Er|]. apply row_len; [lia|]. intros i Hi. destruct (G i Hi) as (y & Ey). rewrite <- bind_get3, Er in Ey. eauto.
Qed.

Theorem C92_spatio_defined :
  (forall (d : list (list val)) ps r, valid_tree (vlen d) ps r -> uniform_depth (vlen d) ps r -> 2 <= vlen ps -> 1 <= size2 d <= 65535 ->
     (rect2 (cropped2 d) (size2 d) -> exists t m, d_table A (dv2_of A d ps) = Ok (Some t, m) /\ vlen t = vlen ps /\ Forall (fun u => utm_shape u (size2 d)) t) /\
     (~ rect2 (cropped2 d) (size2 d) -> d_table A (dv2_of A d ps) = UB)) /\
  (forall (d : list (list (list val))) ps r, valid_tree (vlen d) ps r -> uniform_depth (vlen d) ps r -> 2 <= vlen ps -> 1 <= size3 d <= 65535 ->
     (rect3 (cropped3 d) (size2 d) (size3 d) -> exists t m, d_table A (dv3_of A d ps) = Ok (Some t, m) /\ vlen t = vlen ps /\ Forall (fun u => utm_shape u (size3 d)) t) /\
     (~ rect3 (cropped3 d) (size2 d) (size3 d) -> d_table A (dv3_of A d ps) = UB)) /\
  (forall (d : list (list (list (list val)))) ps r, valid_tree (vlen d) ps r -> uniform_depth (vlen d) ps r -> 2 <= vlen ps -> 1 <= size4 d <= 65535 ->
     (rect4 (cropped4 d) (size2 d) (size3 d) (size4 d) -> exists t m, d_table A (dv4_of A d ps) = Ok (Some t, m) /\ vlen t = vlen ps /\ Forall (fun u => utm_shape u (size4 d)) t) /\
     (~ rect4 (cropped4 d) (size2 d) (size3 d) (size4 d) -> d_table A (dv4_of A d ps) = UB)).
Proof.
  split; [|split]; intros d ps r V U H2 Hd; destruct (C03_C04_uniform _ _ _ V U) as (m & Em & W & EL & EP & _); pose proof (wb_hsize _ W) as EH; rewrite EP in EH.
  - split; intro R.
    + rewrite (proj1 (proj1 C92_spatio_crop d ps)). unfold dv2_of, size1. destruct (cropped2_sizes _ d) as [S1 S2]. rewrite S1, S2, Em. cbn [bind].
      destruct (d_defined (mkDV A 1 (size2 d) m (DN2 A (cropped2 d))) W ltac:(cbn; lia) ltac:(cbn; lia)) as (t & E & Lt & F); [|exists t, m; cbn in E, Lt, F; rewrite <- EH; auto]. intros k h Hk Hh. cbn in Hk, Hh. unfold dv_row. cbn [dv_data dv_osize]. rewrite EL in Hh.
      destruct (vget_ok _ (cropped2 d) h ltac:(lia)) as [y Ey]. exists y. split; [exact Ey|]. rewrite (proj1 (Forall_forall _ _) R y (vget_In _ _ _ _ Ey)). lia.
    + unfold dv2_of. unfold size1. rewrite Em. cbn [bind]. set (v := mkDV A 1 (size2 d) m (DN2 A d)). apply ub_or; [apply d_table_nf|]. intros t E. apply R. apply reads2; [lia|]. intros a x Er. apply row_len; [lia|]. intros i Hi. pose proof (vget_inv _ _ _ _ Er) as Ha.
      destruct (d_reads v _ W E 0 a i ltac:(cbn; lia) ltac:(cbn; lia) Hi) as (y & Ey). unfold dv_row in Ey. cbn [v dv_data] in Ey. rewrite Er in Ey. eauto.
  - pose proof (size3_pos _ d ltac:(lia)) as Hd2. split; intro R.
    + rewrite (proj1 (proj1 (proj2 C92_spatio_crop) d ps)). unfold dv3_of, size1. destruct (cropped3_sizes _ d) as (S1 & S2 & S3). rewrite S1, S2, S3, Em. cbn [bind].
      destruct (d_defined (mkDV A (size2 d) (size3 d) m (DN3 A (cropped3 d))) W ltac:(cbn; lia) ltac:(cbn; lia)) as (t & E & Lt & F); [|exists t, m; cbn in E, Lt, F; rewrite <- EH; auto]. intros k h Hk Hh. cbn in Hk, Hh. unfold dv_row. cbn [dv_data dv_osize]. rewrite EL in Hh.
      destruct (vget_ok _ (cropped3 d) h ltac:(lia)) as [y Ey]. unfold vget2. rewrite Ey. cbn [bind]. destruct (proj1 (Forall_forall _ _) R y (vget_In _ _ _ _ Ey)) as [Ly Ry]. destruct (vget_ok _ y k ltac:(lia)) as [z Ez]. exists z. split; [exact Ez|]. rewrite (proj1 (Forall_forall _ _) Ry z (vget_In _ _ _ _ Ez)). lia.
    + unfold dv3_of. unfold size1. rewrite Em. cbn [bind]. set (v := mkDV A (size2 d) (size3 d) m (DN3 A d)). apply ub_or; [apply d_table_nf|]. intros t E. apply R. apply reads3; [lia|lia|]. intros a b Ha Hb.
      assert (G : forall i, 0 <= i < size3 d -> exists x, vget3 d a b i = Ok x). { intros i Hi. destruct (d_reads v _ W E b a i Hb ltac:(cbn; lia) Hi) as (y & Ey). unfold dv_row in Ey. cbn [v dv_data] in Ey. rewrite bind_get2 in Ey. eauto. }
      destruct (G 0 ltac:(lia)) as (x & Ex). rewrite <- bind_get2 in Ex. apply bind_ok in Ex. destruct Ex as (q & Er & _). exists q. split; [exact Er|]. apply row_len; [lia|]. intros i Hi. destruct (G i Hi) as (y & Ey). rewrite <- bind_get2, Er in Ey. eauto.
  - pose proof (size4_pos _ d ltac:(lia)) as Hd3. pose proof (size3_pos _ d Hd3) as Hd2. split; intro R.
    + rewrite (proj1 (proj2 (proj2 C92_spatio_crop) d ps)). unfold dv4_of, size1. destruct (cropped4_sizes _ d) as (S1 & S2 & S3 & S4). rewrite S1, S2, S3, S4, Em. cbn [bind].
      destruct (d_defined (mkDV A (size2 d * size3 d) (size4 d) m (DN4 A (size2 d) (size3 d) (cropped4 d))) W ltac:(cbn; lia) ltac:(cbn; lia)) as (t & E & Lt & F); [|exists t, m; cbn in E, Lt, F; rewrite <- EH; auto]. intros k h Hk Hh. cbn in Hk, Hh. unfold dv_row. cbn [dv_data dv_osize]. rewrite EL in Hh.
      destruct (div_lt k (size2 d) (size3 d) Hk ltac:(lia)) as (P & B1 & B2). unfold udiv, umod. destruct (Z.eqb_spec (size3 d) 0); [lia|]. cbn [bind].
      destruct (vget_ok _ (cropped4 d) h ltac:(lia)) as [y Ey]. unfold vget3. rewrite Ey. cbn [bind]. destruct (proj1 (Forall_forall _ _) R y (vget_In _ _ _ _ Ey)) as [Ly Ry]. unfold vget2. destruct (vget_ok _ y (k / size3 d) ltac:(lia)) as [z Ez]. rewrite Ez. cbn [bind].
      destruct (proj1 (Forall_forall _ _) Ry z (vget_In _ _ _ _ Ez)) as [Lz Rz]. destruct (vget_ok _ z (k mod size3 d) ltac:(lia)) as [w Ew]. exists w. split; [exact Ew|]. rewrite (proj1 (Forall_forall _ _) Rz w (vget_In _ _ _ _ Ew)). lia.
    + unfold dv4_of. unfold size1. rewrite Em. cbn [bind]. set (v := mkDV A (size2 d * size3 d) (size4 d) m (DN4 A (size2 d) (size3 d) d)). apply ub_or; [apply d_table_nf|]. intros t E. apply R. apply reads4; [lia|lia|lia|]. intros a b c Ha Hb Hc.
      assert (G : forall i, 0 <= i < size4 d -> exists x, vget4 d a b c i = Ok x).
      { intros i Hi. destruct (d_reads v _ W E (b * size3 d + c) a i ltac:(cbn; nia) ltac:(cbn; lia) Hi) as (y & Ey). unfold dv_row in Ey. cbn [v dv_data] in Ey. unfold udiv, umod in Ey. destruct (Z.eqb_spec (size3 d) 0); [lia|]. cbn [bind] in Ey.
        destruct (div_mul b c (size3 d) Hc) as [Q3 Q4]. rewrite Q3, Q4, bind_get3 in Ey. eauto. }
      destruct (G 0 ltac:(lia)) as (x & Ex). rewrite <- bind_get3 in Ex. apply bind_ok in Ex. destruct Ex as (q & Er & _). exists q. split; [exact Er|]. apply row_len; [lia|]. intros i Hi. destruct (G i Hi) as (y & Ey). rewrite <- bind_get3, Er in Ey. eauto.
Qed.

(** ** Empty data *)
Lemma void2_size : forall X (d : list (list X)), void2 d -> size2 d = 0.
Proof. intros X [|r d] H; [reflexivity|]. cbn in H. subst r. reflexivity. Qed.
Lemma void3_size : forall X (d : list (list (list X))), void3 d -> size3 d = 0.
Proof. intros X [|r d] H; [reflexivity|]. apply void2_size in H. exact H. Qed.
Lemma void4_size : forall X (d : list (list (list (list X)))), void4 d -> size4 d = 0.
Proof. intros X [|r d] H; [reflexivity|]. apply void3_size in H. exact H. Qed.

Lemma mfold_id : forall I S (f : I -> S -> res S) l s, (forall x, In x l -> f x s = Ok s) -> mfold f l s = Ok s.
Proof. intros I S f l. induction l as [|x l IH]; intros s H; [reflexivity|]. cbn [mfold]. rewrite H by (left; reflexivity). cbn [bind]. apply IH. intros y Hy. apply H. right. exact Hy. Qed.
Lemma o_void : forall v : ovalues A, ov_osize v = 0 -> o_table A v = Ok (Some (u_new 0 (q_zero A))) /\ o_ntable A v = UB.
Proof.
  intros v E. assert (T : oq_computeTable A v = Ok (u_new 0 (q_zero A))). { unfold oq_computeTable. rewrite E. unfold for_up. rewrite mfold_id by (intros; reflexivity). reflexivity. }
  unfold o_table, o_ntable, oq_compute, oq_ofValues. cbn [oq_values]. rewrite T. cbn [bind oq_table]. split; [reflexivity|]. unfold oq_normalize. cbn [oq_table oq_values]. rewrite E. reflexivity.
Qed.
Theorem C92_ordered_empty : o_table A (ov1_of A []) = Ok (Some (u_new 0 (q_zero A))) /\ o_ntable A (ov1_of A []) = UB /\
  (forall d : list (list val), void2 d -> o_table A (ov2_of A d) = Ok (Some (u_new 0 (q_zero A))) /\ o_ntable A (ov2_of A d) = UB) /\
  (forall d : list (list (list val)), void3 d -> o_table A (ov3_of A d) = Ok (Some (u_new 0 (q_zero A))) /\ o_ntable A (ov3_of A d) = UB) /\
  (forall d : list (list (list (list val))), void4 d -> o_table A (ov4_of A d) = Ok (Some (u_new 0 (q_zero A))) /\ o_ntable A (ov4_of A d) = UB).
Proof.
  split; [apply o_void; reflexivity|]. split; [apply o_void; reflexivity|]. split; [|split]; intros d H; apply o_void; cbn [ov2_of ov3_of ov4_of ov_osize]; [apply void2_size|apply void3_size|apply void4_size]; exact H.
Qed.

(** Hierarchical data, any parent vector that the library accepts: all-zero qualities. *)
Theorem C92_hier_empty :
  (forall (d : list (list val)) ps m, meta_build (vlen d) ps = Ok m -> void2 d -> h_table A (hv2_of A d ps) = Ok (Some (vrep (vlen ps) (q_zero A)), m)) /\
  (forall (d : list (list (list val))) ps m, meta_build (vlen d) ps = Ok m -> void3 d -> h_table A (hv3_of A d ps) = Ok (Some (vrep (vlen ps) (q_zero A)), m)) /\
  (forall (d : list (list (list (list val)))) ps m, meta_build (vlen d) ps = Ok m -> void4 d -> h_table A (hv4_of A d ps) = Ok (Some (vrep (vlen ps) (q_zero A)), m)).
Proof.
  assert (G : forall L ps m (D : hdata A), meta_build L ps = Ok m -> h_table A (Ok (mkHV A 0 m D)) = Ok (Some (vrep (vlen ps) (q_zero A)), m)).
  { intros L ps m D E. destruct (P_Values.meta_build_leaves _ _ _ E) as (_ & _ & H). rewrite <- H. reflexivity. }
  split; [|split]; intros d ps m E H.
  - unfold hv2_of, size1. rewrite E, (void2_size _ _ H). apply (G _ _ _ _ E).
  - unfold hv3_of, size1. rewrite E, (void3_size _ _ H), Z.mul_0_r. apply (G _ _ _ _ E).
  - unfold hv4_of, size1. rewrite E, (void4_size _ _ H), Z.mul_0_r. apply (G _ _ _ _ E).
Qed.

Lemma shape0 : forall X (u : utm X) x, utm_shape u 0 -> u = u_new 0 x.
Proof. intros X [s e l] x (E1 & E2 & E3). cbn [u_size u_elements u_data] in E1, E2, E3. subst s. assert (E0 : e = 0) by lia. rewrite E0 in *. destruct l; [reflexivity|discriminate E3]. Qed.
Lemma all_rep : forall X (x : X) l n, vlen l = n -> (forall y, In y l -> y = x) -> l = vrep n x.
Proof. intros X x l n <- H. unfold vrep, vlen. rewrite Nat2Z.id. induction l as [|y l IH]; [reflexivity|]. cbn. rewrite (H y (or_introl eq_refl)). f_equal. apply IH. intros z Hz. apply H. right. exact Hz. Qed.
Theorem C92_spatio_empty :
  (forall (d : list (list val)) ps r, valid_tree (vlen d) ps r -> uniform_depth (vlen d) ps r -> 2 <= vlen ps -> void2 d ->
     (exists m, d_table A (dv2_of A d ps) = Ok (Some (vrep (vlen ps) (u_new 0 (q_zero A))), m)) /\ d_ntable A (dv2_of A d ps) = UB) /\
  (forall (d : list (list (list val))) ps r, valid_tree (vlen d) ps r -> uniform_depth (vlen d) ps r -> 2 <= vlen ps -> void3 d -> Forall (fun x => vlen x = size2 d) d ->
     (exists m, d_table A (dv3_of A d ps) = Ok (Some (vrep (vlen ps) (u_new 0 (q_zero A))), m)) /\ d_ntable A (dv3_of A d ps) = UB).
Proof.
  assert (G : forall (v : dvalues A) (ps : list Z) (r : Z), well_built (dv_meta v) -> m_hsize (dv_meta v) = vlen ps -> m_root (dv_meta v) = r -> 2 <= vlen ps -> dv_osize v = 0 ->
    (forall k h, 0 <= k < dv_vsize v -> 0 <= h < m_leaves (dv_meta v) -> exists r, dv_row v h k = Ok r) ->
    (exists m, d_table A (Ok v) = Ok (Some (vrep (vlen ps) (u_new 0 (q_zero A))), m)) /\ d_ntable A (Ok v) = UB).
  { intros v ps r W EH Er H2 E0 H. destruct (d_defined v W ltac:(lia) ltac:(lia)) as (t & E & Lt & F); [intros k h Hk Hh; destruct (H k h Hk Hh) as (q & Eq); exists q; split; [exact Eq|rewrite E0; apply vlen_nn]|].
    assert (Et : t = vrep (vlen ps) (u_new 0 (q_zero A))). { apply all_rep; [lia|]. intros u Hu. apply shape0. rewrite <- E0. apply (proj1 (Forall_forall _ _) F u Hu). }
    rewrite Et in E. split; [exists (dv_meta v); exact E|]. unfold d_table in E. cbn [bind] in E. unfold d_ntable. cbn [bind]. unfold dq_compute, dq_ofValues in *. cbn [dq_values dq_meta] in *.
    destruct (dq_computeTable A v (dv_meta v)) as [t'| |]; cbn [bind dq_table dq_meta] in *; [|discriminate E..]. injection E as ->. unfold dq_normalize. cbn [dq_table dq_values dq_meta].
    rewrite vget_vrep by (pose proof (root_node _ W) as Hr; lia). cbn [bind]. rewrite E0. reflexivity. }
  split; intros d ps r V U H2 Hv; [|intro Hr]; destruct (C03_C04_uniform _ _ _ V U) as (m & Em & W & EL & EP & Er); pose proof (wb_hsize _ W) as EH; rewrite EP in EH.
  - unfold dv2_of, size1. rewrite Em. cbn [bind]. apply (G _ ps r); cbn [dv_meta dv_osize dv_vsize]; auto; [apply void2_size; exact Hv|]. intros k h Hk Hh. rewrite EL in Hh. cbn [dv_row dv_data]. apply vget_ok. lia.
  - unfold dv3_of, size1. rewrite Em. cbn [bind]. apply (G _ ps r); cbn [dv_meta dv_osize dv_vsize]; auto; [apply void3_size; exact Hv|]. intros k h Hk Hh. rewrite EL in Hh. cbn [dv_row dv_data]. unfold vget2.
    destruct (vget_ok _ d h ltac:(lia)) as [y Ey]. rewrite Ey. cbn [bind]. apply vget_ok. rewrite (proj1 (Forall_forall _ _) Hr y (vget_In _ _ _ _ Ey)). lia.
Qed.
End M.
Print Assumptions C92_ordered_crop.
Print Assumptions C92_hier_defined.
Print Assumptions C92_spatio_defined.
Print Assumptions C92_spatio_empty.

(** Non-vacuity: a ragged matrix that is cut, one that is not rectangular after cutting, a ragged cube; a tree for the hierarchical statements is [tree4_prf]. *)
Example C92_nonvacuous : cropped2 [[1; 2]; [3; 4; 5]] = [[1; 2]; [3; 4]] /\ rect2 (cropped2 [[1; 2]; [3; 4; 5]]) 2 /\ ~ rect2 (cropped2 [[1; 2]; [3]]) 2 /\
  cropped3 [[[1; 2]]; [[3; 4; 5]; [6]]] = [[[1; 2]]; [[3; 4]]] /\ rect3 (cropped3 [[[1; 2]]; [[3; 4; 5]; [6]]]) 1 2 /\ size3 [[[1; 2]]; [[3; 4; 5]; [6]]] = 2 /\ void3 [[[]; [1]]; [[2]]] /\
  valid_tree 4 [4; 4; 5; 5; 6; 6; -1] 6 /\ uniform_depth 4 [4; 4; 5; 5; 6; 6; -1] 6.
Proof.
  split; [reflexivity|]. split; [repeat constructor|]. split; [intro H; inversion H as [|? ? _ H']; inversion H' as [|? ? K _]; discriminate K|]. split; [reflexivity|]. split; [repeat constructor|]. split; [reflexivity|]. split; [reflexivity|]. apply HierarchyProofs.tree4_prf.
Qed.
