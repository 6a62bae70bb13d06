(** * The data held by the hierarchical and spatiotemporal values objects built from nested vectors. *)
From Coq Require Import Reals Lra Lia.
From Verif Require Import Base BaseFacts Arith Quality Utm UtmProofs Hierarchy SpecTree SpecParts SpecInfo SpecData HierarchyFacts HierarchyProofs
  TreePath OInfo DataFacts Values.

Lemma columns_mmap : forall X (d : X) (f : Z -> Z -> res X) rows w, 0 <= w -> rect2 rows w ->
  (forall h k, 0 <= h < vlen rows -> 0 <= k < w -> f h k = vget2 rows h k) ->
  mmap (fun k => mmap (fun h => f h k) (zrange 0 (vlen rows))) (zrange 0 w) = Ok (columns d w rows).
Proof.
  intros X d f rows w Hw R H. unfold columns. apply mmap_map. intros k Hk. apply In_zrange in Hk.
  rewrite (mmap_map _ _ (fun h => f h k) (fun h => elt d (elt [] rows h) k)).
  - f_equal. rewrite <- (map_map (elt [] rows) (fun r => elt d r k)). rewrite <- (list_elt _ [] rows). auto.
  - intros h Hh. apply In_zrange in Hh. rewrite H by auto. unfold vget2. rewrite (elt_vget _ [] rows) by auto. cbn [bind].
    apply elt_vget. assert (K : In (elt [] rows h) rows) by (unfold elt; apply nth_In; unfold vlen in Hh; lia).
    pose proof (proj1 (Forall_forall _ _) R _ K) as E. cbn beta in E. lia.
Qed.

Lemma vget_map_res : forall X Y (f : X -> Y) l i, vget (map f l) i = let* x := vget l i in Ok (f x).
Proof.
  intros X Y f l i. unfold vget. destruct (i <? 0); auto. rewrite nth_error_map. destruct (nth_error l (Z.to_nat i)); auto.
Qed.

Lemma flat2_rows : forall X (d : list (list (list X))) b c h k, rect3 d b c -> 0 <= h < vlen d -> 0 <= k < b * c ->
  (let* a := udiv k c in let* e := umod k c in vget3 d h a e) = vget2 (map (@concat X) d) h k.
Proof.
  intros X d b c h k R Hh Hk. unfold vget2 at 1. rewrite vget_map_res. rewrite (elt_vget _ [] d) by auto. cbn [bind].
  assert (K : In (elt [] d h) d) by (unfold elt; apply nth_In; unfold vlen in Hh; lia).
  destruct (proj1 (Forall_forall _ _) R _ K) as [E1 E2].
  rewrite <- (flat2 _ (elt [] d h) c k E2) by (rewrite E1; lia).
  unfold udiv, umod. destruct (c =? 0); auto. cbn [bind]. unfold vget3. rewrite (elt_vget _ [] d) by auto. auto.
Qed.

Lemma flat3_rows : forall X (d : list (list (list (list X)))) b c e h k, rect4 d b c e -> 0 <= h < vlen d -> 0 <= k < b * c * e ->
  (let* a := udiv k (e * c) in let* q := udiv k e in let* g := umod q c in let* f := umod k e in vget4 d h a g f)
  = vget2 (map (fun r => concat (concat r)) d) h k.
Proof.
  intros X d b c e h k R Hh Hk. unfold vget2 at 1. rewrite vget_map_res. rewrite (elt_vget _ [] d) by auto. cbn [bind].
  assert (K : In (elt [] d h) d) by (unfold elt; apply nth_In; unfold vlen in Hh; lia).
  destruct (proj1 (Forall_forall _ _) R _ K) as [E1 E2].
  rewrite <- (flat3 _ (elt [] d h) c e k E2) by (rewrite E1; lia).
  unfold udiv, umod. destruct (e * c =? 0); auto. cbn [bind]. destruct (e =? 0); auto. cbn [bind]. destruct (c =? 0); auto.
  cbn [bind]. unfold vget4. rewrite (elt_vget _ [] d) by auto. auto.
Qed.

Lemma rect3_flat : forall X (d : list (list (list X))) b c, rect3 d b c -> rect2 (map (@concat X) d) (b * c).
Proof. exact rect3_map. Qed.
Lemma rect4_flat : forall X (d : list (list (list (list X)))) b c e, rect4 d b c e -> rect2 (map (fun r => concat (concat r)) d) (b * c * e).
Proof.
  intros X d b c e H. unfold rect2. apply Forall_map. eapply Forall_impl; [|exact H]. intros r [E R].
  destruct (rect3_concat _ _ _ _ R) as [R1 R2]. rewrite (vlen_concat _ _ e R2), (vlen_concat _ _ c R1). lia.
Qed.

Section C.
Context (P : params).
Notation A := (RP P).
Variables (ps : list Z) (r : Z).

(** What the constructors share: the metadata of a uniform tree. *)
Lemma meta_ok : forall L, valid_tree L ps r -> uniform_depth L ps r ->
  exists m, meta_build L ps = Ok m /\ well_built m /\ m_leaves m = L /\ m_parents m = ps /\ m_root m = r /\ m_hsize m = vlen ps.
Proof.
  intros L V U. destruct (uniform_well_built L ps r V U) as (m & E & W & E1 & E2 & E3). exists m.
  do 5 (split; auto). rewrite (wb_hsize m W), E2. auto.
Qed.

Definition is_meta (L : Z) (m : meta) : Prop := m_leaves m = L /\ m_parents m = ps /\ m_root m = r.

Hypothesis Hps : 2 <= vlen ps.

Lemma hv1_data : forall d : list R, valid_tree (vlen d) ps r -> uniform_depth (vlen d) ps r ->
  exists v, hv1_of A d ps = Ok v /\ is_meta (vlen d) (hv_meta v) /\ hdata_ok v [d].
Proof.
  intros d V U. destruct (meta_ok _ V U) as (m & E & W & E1 & E2 & E3 & E4). unfold hv1_of. change (size1 d) with (vlen d).
  eexists. split; [erewrite E; reflexivity|]. split; [repeat split; auto|]. split; [cbn; lia|]. split; [exact W|]. split; [cbn; lia|].
  unfold hcomps. cbn [hv_vsize hv_meta]. rewrite E1. unfold hv_value. cbn [hv_data].
  change (zrange 0 1) with [0]. cbn [mmap].
  pose proof (mmap_vget R d) as K. change (@mmap Z R (fun h => vget d h) (zrange 0 (vlen d)) = Ok d) in K.
  match goal with |- bind ?e _ = _ => change e with (@mmap Z R (fun h => vget d h) (zrange 0 (vlen d))) end. rewrite K. auto.
Qed.

Lemma hv2_data : forall d : list (list R), valid_tree (vlen d) ps r -> uniform_depth (vlen d) ps r -> rect2 d (size2 d) ->
  exists v, hv2_of A d ps = Ok v /\ is_meta (vlen d) (hv_meta v) /\ hdata_ok v (columns 0%R (size2 d) d).
Proof.
  intros d V U Rd. destruct (meta_ok _ V U) as (m & E & W & E1 & E2 & E3 & E4). unfold hv2_of. change (size1 d) with (vlen d).
  eexists. split; [erewrite E; reflexivity|]. split; [repeat split; auto|]. split; [apply size2_nonneg|]. split; [exact W|]. split; [cbn; lia|].
  unfold hcomps. cbn [hv_vsize hv_meta]. rewrite E1. apply (columns_mmap R 0%R); auto. apply size2_nonneg.
Qed.

Lemma hv3_data : forall d : list (list (list R)), valid_tree (vlen d) ps r -> uniform_depth (vlen d) ps r -> rect3 d (size2 d) (size3 d) ->
  exists v, hv3_of A d ps = Ok v /\ is_meta (vlen d) (hv_meta v) /\ hdata_ok v (columns 0%R (size2 d * size3 d) (map (@concat R) d)).
Proof.
  intros d V U Rd. destruct (meta_ok _ V U) as (m & E & W & E1 & E2 & E3 & E4). unfold hv3_of. change (size1 d) with (vlen d).
  pose proof (size2_nonneg _ d). pose proof (size3_nonneg _ d).
  eexists. split; [erewrite E; reflexivity|]. split; [repeat split; auto|]. split; [cbn; nia|]. split; [exact W|]. split; [cbn; lia|].
  unfold hcomps. cbn [hv_vsize hv_meta]. rewrite E1.
  replace (vlen d) with (vlen (map (@concat R) d)) by (unfold vlen; rewrite map_length; auto).
  apply (columns_mmap R 0%R); [nia|apply rect3_flat; auto|].
  intros h k Hh Hk. apply (flat2_rows R d (size2 d) (size3 d)); auto. unfold vlen in *; rewrite map_length in Hh; auto.
Qed.

Lemma hv4_data : forall d : list (list (list (list R))), valid_tree (vlen d) ps r -> uniform_depth (vlen d) ps r -> rect4 d (size2 d) (size3 d) (size4 d) ->
  exists v, hv4_of A d ps = Ok v /\ is_meta (vlen d) (hv_meta v) /\
    hdata_ok v (columns 0%R (size2 d * size3 d * size4 d) (map (fun x => concat (concat x)) d)).
Proof.
  intros d V U Rd. destruct (meta_ok _ V U) as (m & E & W & E1 & E2 & E3 & E4). unfold hv4_of. change (size1 d) with (vlen d).
  pose proof (size2_nonneg _ d). pose proof (size3_nonneg _ d). pose proof (size4_nonneg _ d).
  assert (0 <= size2 d * size3 d) by nia. assert (0 <= size2 d * size3 d * size4 d) by nia.
  eexists. split; [erewrite E; reflexivity|]. split; [repeat split; auto|]. split; [assumption|]. split; [exact W|]. split; [cbn; lia|].
  unfold hcomps. cbn [hv_vsize hv_meta]. rewrite E1.
  replace (vlen d) with (vlen (map (fun x => concat (concat x)) d)) by (unfold vlen; rewrite map_length; auto).
  apply (columns_mmap R 0%R); [auto|apply rect4_flat; auto|].
  intros h k Hh Hk. apply (flat3_rows R d (size2 d) (size3 d) (size4 d)); auto. unfold vlen in *; rewrite map_length in Hh; auto.
Qed.

(** Spatiotemporal *)
Lemma columns_Forall : forall X (d : X) (Q : X -> Prop) w rows, Q d -> Forall (Forall Q) rows -> Forall (Forall Q) (columns d w rows).
Proof.
  intros X d Q w rows Hd H. unfold columns. apply Forall_map. apply Forall_forall. intros k _. apply Forall_map.
  eapply Forall_impl; [|exact H]. intros row Hr. unfold elt. destruct (nth_in_or_default (Z.to_nat k) row d) as [I| ->]; auto.
  exact (proj1 (Forall_forall _ _) Hr _ I).
Qed.

Lemma columns_rows : forall X (d : list X) (n : Z) w rows, 0 <= w -> rect2 rows w -> Forall (Forall (fun r : list X => vlen r = n)) rows ->
  Forall (Forall (fun r : list X => vlen r = n)) (columns d w rows).
Proof.
  intros X d n w rows Hw R H. unfold columns. apply Forall_map. apply Forall_forall. intros k Hk. apply In_zrange in Hk. apply Forall_map.
  apply Forall_forall. intros row Hr. pose proof (proj1 (Forall_forall _ _) R _ Hr) as E. cbn beta in E.
  apply (proj1 (Forall_forall _ _) (proj1 (Forall_forall _ _) H _ Hr)). unfold elt. apply nth_In. unfold vlen in E. lia.
Qed.

Lemma rect3_rows : forall X (d : list (list (list X))) b c, rect3 d b c -> Forall (Forall (fun r => vlen r = c)) d.
Proof. intros X d b c H. eapply Forall_impl; [|exact H]. intros x [_ K]; exact K. Qed.
Lemma rect4_rows : forall X (d : list (list (list (list X)))) b c e, rect4 d b c e -> Forall (Forall (fun r => vlen r = e)) (map (@concat (list X)) d).
Proof.
  intros X d b c e H. apply Forall_map. eapply Forall_impl; [|exact H]. intros x [_ K]. apply (rect3_concat _ _ _ _ K).
Qed.

Lemma dv2_data : forall d : list (list R), valid_tree (vlen d) ps r -> uniform_depth (vlen d) ps r -> rect2 d (size2 d) -> 1 <= size2 d <= 65535 ->
  exists v, dv2_of A d ps = Ok v /\ is_meta (vlen d) (dv_meta v) /\ dv_osize v = size2 d /\ ddata_ok v [d].
Proof.
  intros d V U Rd Hn. destruct (meta_ok _ V U) as (m & E & W & E1 & E2 & E3 & E4). unfold dv2_of. change (size1 d) with (vlen d).
  eexists. split; [erewrite E; reflexivity|]. split; [repeat split; auto|]. split; auto. split; [cbn; lia|]. split; [exact Hn|]. split; [exact W|]. split; [cbn; lia|].
  split; [|repeat constructor; exact Rd]. cbn [dv_vsize dv_meta]. rewrite E1. unfold dv_row. cbn [dv_data].
  change (zrange 0 1) with [0]. cbn [mmap].
  pose proof (mmap_vget (list R) d) as K. change (@mmap Z (list R) (fun h => vget d h) (zrange 0 (vlen d)) = Ok d) in K.
  match goal with |- bind ?e _ = _ => change e with (@mmap Z (list R) (fun h => vget d h) (zrange 0 (vlen d))) end. rewrite K. auto.
Qed.

Lemma dv3_data : forall d : list (list (list R)), valid_tree (vlen d) ps r -> uniform_depth (vlen d) ps r -> rect3 d (size2 d) (size3 d) -> 1 <= size3 d <= 65535 ->
  exists v, dv3_of A d ps = Ok v /\ is_meta (vlen d) (dv_meta v) /\ dv_osize v = size3 d /\ ddata_ok v (columns [] (size2 d) d).
Proof.
  intros d V U Rd Hn. destruct (meta_ok _ V U) as (m & E & W & E1 & E2 & E3 & E4). unfold dv3_of. change (size1 d) with (vlen d).
  pose proof (size2_nonneg _ d).
  eexists. split; [erewrite E; reflexivity|]. split; [repeat split; auto|]. split; auto. split; [assumption|]. split; [exact Hn|]. split; [exact W|]. split; [cbn; lia|].
  destruct (rect3_concat _ _ _ _ Rd) as [R1 _].
  split; [|apply columns_rows; auto; apply (rect3_rows R d _ _ Rd)]. cbn [dv_vsize dv_meta]. rewrite E1.
  apply (columns_mmap (list R) []); auto.
Qed.

Lemma dv4_data : forall d : list (list (list (list R))), valid_tree (vlen d) ps r -> uniform_depth (vlen d) ps r -> rect4 d (size2 d) (size3 d) (size4 d) ->
  1 <= size4 d <= 65535 ->
  exists v, dv4_of A d ps = Ok v /\ is_meta (vlen d) (dv_meta v) /\ dv_osize v = size4 d /\
    ddata_ok v (columns [] (size2 d * size3 d) (map (@concat (list R)) d)).
Proof.
  intros d V U Rd Hn. destruct (meta_ok _ V U) as (m & E & W & E1 & E2 & E3 & E4). unfold dv4_of. change (size1 d) with (vlen d).
  pose proof (size2_nonneg _ d). pose proof (size3_nonneg _ d).
  eexists. split; [erewrite E; reflexivity|]. split; [repeat split; auto|]. split; auto. split; [cbn; nia|]. split; [exact Hn|]. split; [exact W|]. split; [cbn; lia|].
  assert (R3 : rect3 d (size2 d) (size3 d)). { eapply Forall_impl; [|exact Rd]. intros x [Ex K]. split; auto. apply (rect3_concat _ _ _ _ K). }
  pose proof (rect3_flat _ _ _ _ R3) as R2.
  split; [|apply columns_rows; auto; [nia|apply (rect4_rows R d _ _ _ Rd)]]. cbn [dv_vsize dv_meta]. rewrite E1.
  replace (vlen d) with (vlen (map (@concat (list R)) d)) by (unfold vlen; rewrite map_length; auto).
  apply (columns_mmap (list R) []); [nia|auto|].
  intros h k Hh Hk. apply (flat2_rows (list R) d (size2 d) (size3 d)); auto. unfold vlen in *; rewrite map_length in Hh; auto.
Qed.
End C.
