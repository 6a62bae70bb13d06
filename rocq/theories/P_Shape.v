(** * Property C84: only the flattened data matter.

    For every arithmetic (exact, or the code's own floating point, bit for bit) the qualities, and the normalised qualities, computed from a
    3- or 4-dimensional container are those computed from the 2-dimensional container with the same data flattened in row-major order, also in the
    error cases (any parent vector). Everything computed afterwards (partitions, searches) depends on these tables only. *)
From Coq Require Import Lia.
From Verif Require Import Base BaseFacts Arith Quality Utm Hierarchy Values Qualities SpecData SpecShape DataFacts.

Section M.
Context (A : arith).
Notation val := (num A).

Lemma o_same : forall v v' : ovalues A, ov_vsize v = ov_vsize v' -> ov_osize v = ov_osize v' -> (forall k, 0 <= k < ov_vsize v -> ov_row v k = ov_row v' k) ->
  o_table A v = o_table A v' /\ o_ntable A v = o_ntable A v'.
Proof.
  intros v v' E1 E2 E3. assert (T : oq_computeTable A v = oq_computeTable A v').
  { unfold oq_computeTable. rewrite <- E1, <- E2. f_equal. apply mfold_ext. intros k s Ik. apply In_zrange in Ik. apply mfold_ext. intros i [[a b] c] _. unfold oq_line. rewrite E3 by lia. reflexivity. }
  unfold o_table, o_ntable, oq_compute, oq_ofValues. cbn [oq_values]. rewrite T. destruct (oq_computeTable A v') as [t| |]; cbn [bind]; auto. split; [reflexivity|].
  unfold oq_normalize. cbn [oq_table oq_values]. rewrite E2. destruct (u_get t 0 (ov_osize v' - 1)); cbn [bind]; auto. destruct (u_normalize A t _); reflexivity.
Qed.

Lemma path_loop_ext : forall S path a n (f g : Z -> S -> res S) s, (forall h s, f h s = g h s) -> path_loop path a n f s = path_loop path a n g s.
Proof.
  intros S path a n f g s E. unfold path_loop. destruct (vget path a); cbn [bind]; auto. apply mfold_ext. intros i [s' h] _. rewrite E. reflexivity.
Qed.

Lemma h_same : forall v v' : hvalues A, hv_vsize v = hv_vsize v' -> hv_meta v = hv_meta v' -> (forall h k, 0 <= k < hv_vsize v -> hv_value v h k = hv_value v' h k) ->
  h_table A (Ok v) = h_table A (Ok v') /\ h_ntable A (Ok v) = h_ntable A (Ok v').
Proof.
  intros v v' E1 E2 E3. assert (T : hq_computeTable A v (hv_meta v) = hq_computeTable A v' (hv_meta v')).
  { unfold hq_computeTable. rewrite <- E1, <- E2. apply mfold_ext. intros k s Ik. apply In_zrange in Ik. unfold hq_component. f_equal.
    apply path_loop_ext. intros h [a b]. unfold hq_leaf. rewrite E3 by lia. reflexivity. }
  unfold h_table, h_ntable, hq_compute, hq_ofValues. cbn [hq_values hq_meta bind]. rewrite T, E2. destruct (hq_computeTable A v' (hv_meta v')) as [t| |]; cbn [bind hq_table hq_meta]; auto. split; [reflexivity|].
  unfold hq_normalize. cbn [hq_table hq_values hq_meta]. destruct (vget t (m_root (hv_meta v'))); cbn [bind]; auto. destruct (h_normalize A t _); reflexivity.
Qed.

Lemma d_same : forall v v' : dvalues A, dv_vsize v = dv_vsize v' -> dv_osize v = dv_osize v' -> dv_meta v = dv_meta v' -> (forall h k, 0 <= k < dv_vsize v -> dv_row v h k = dv_row v' h k) ->
  d_table A (Ok v) = d_table A (Ok v') /\ d_ntable A (Ok v) = d_ntable A (Ok v').
Proof.
  intros v v' E1 E0 E2 E3. assert (T : dq_computeTable A v (dv_meta v) = dq_computeTable A v' (dv_meta v')).
  { unfold dq_computeTable. rewrite <- E1, <- E2, <- E0. apply mfold_ext. intros k s Ik. apply In_zrange in Ik. unfold dq_component. rewrite <- E0. f_equal.
    apply path_loop_ext. intros h st. unfold dq_leaf. apply mfold_ext. intros i [[a b] c] _. unfold dq_leafLine. rewrite E3 by lia. reflexivity. }
  unfold d_table, d_ntable, dq_compute, dq_ofValues. cbn [dq_values dq_meta bind]. rewrite T, E2. destruct (dq_computeTable A v' (dv_meta v')) as [t| |]; cbn [bind dq_table dq_meta]; auto. split; [reflexivity|].
  unfold dq_normalize. cbn [dq_table dq_values dq_meta]. rewrite E0. destruct (vget t (m_root (dv_meta v'))) as [ur| |]; cbn [bind]; auto. destruct (u_get ur 0 (dv_osize v' - 1)); cbn [bind]; auto.
  destruct (d_normalize A t _ _ _); reflexivity.
Qed.

Lemma vget_fuel : forall X (l : list X) i, vget l i <> OutOfFuel.
Proof. intros X l i. unfold vget. destruct (i <? 0); [discriminate|]. destruct (nth_error l (Z.to_nat i)); discriminate. Qed.

(** Sizes of flattened vectors. *)
Lemma size2_concat : forall X (d : list (list (list X))), rect3 d (size2 d) (size3 d) -> size2 (concat d) = size3 d.
Proof.
  intros X [|r d] H; [reflexivity|]. cbn [size2 size3 concat] in *. destruct r as [|x r]; [|reflexivity].
  assert (K : concat d = []). { inversion H as [|? ? _ H']; subst. clear H. cbn in H'. induction H' as [|r d [L _] _ IH]; [reflexivity|]. destruct r; [|unfold vlen in L; cbn [length] in L; lia]. cbn [concat app]. exact IH. }
  cbn [app]. rewrite K. reflexivity.
Qed.
Lemma size3_concat : forall X (d : list (list (list (list X)))), rect4 d (size2 d) (size3 d) (size4 d) -> size2 (concat d) = size3 d /\ size3 (concat d) = size4 d.
Proof.
  intros X [|r d] H; [split; reflexivity|]. cbn [size2 size3 size4 concat] in *. destruct r as [|x r]; [|split; reflexivity].
  assert (K : concat d = []). { inversion H as [|? ? _ H']; subst. clear H. cbn in H'. induction H' as [|r d [L _] _ IH]; [reflexivity|]. destruct r; [|unfold vlen in L; cbn [length] in L; lia]. cbn [concat app]. exact IH. }
  cbn [app]. rewrite K. split; reflexivity.
Qed.
Lemma vget_mapped : forall X Y (f : X -> Y) l i, vget (map f l) i = let* x := vget l i in Ok (f x).
Proof.
  intros X Y f l i. unfold vget. rewrite nth_error_map. destruct (i <? 0); [reflexivity|]. destruct (nth_error l (Z.to_nat i)); reflexivity.
Qed.
Lemma size2_mapped : forall X (d : list (list (list X))), rect3 d (size2 d) (size3 d) -> size2 (map (@concat X) d) = size2 d * size3 d.
Proof.
  intros X [|r d] H; [reflexivity|]. cbn [size2 map size3] in *. inversion H as [|? ? [_ R2] _]; subst. apply vlen_concat. exact R2.
Qed.

(** ** Ordered containers *)
Theorem C84_ordered : (forall d : list val, o_table A (ov1_of A d) = o_table A (ov2_of A [d]) /\ o_ntable A (ov1_of A d) = o_ntable A (ov2_of A [d])) /\
  (forall d : list (list (list val)), rect3 d (size2 d) (size3 d) ->
     o_table A (ov3_of A d) = o_table A (ov2_of A (concat d)) /\ o_ntable A (ov3_of A d) = o_ntable A (ov2_of A (concat d))) /\
  (forall d : list (list (list (list val))), rect4 d (size2 d) (size3 d) (size4 d) ->
     o_table A (ov4_of A d) = o_table A (ov2_of A (concat (concat d))) /\ o_ntable A (ov4_of A d) = o_ntable A (ov2_of A (concat (concat d)))).
Proof.
  split; [|split].
  - intro d. apply o_same; [reflexivity|reflexivity|]. intros k Hk. cbn in Hk. assert (k = 0) by lia. subst k. reflexivity.
  - intros d H. destruct (rect3_concat _ _ _ _ H) as [R1 R2]. apply o_same; cbn [ov3_of ov2_of ov_vsize ov_osize].
    + symmetry. apply vlen_concat. exact R1.
    + symmetry. apply size2_concat. exact H.
    + intros k Hk. apply (flat2 (list val)); auto.
  - intros d H. destruct (rect4_concat _ _ _ _ _ H) as [R1 R2]. destruct (rect3_concat _ _ _ _ R2) as [R3 R4]. destruct (size3_concat _ d H) as [S2 S3].
    assert (R5 : rect3 d (size2 d) (size3 d)). { eapply Forall_impl; [|exact H]. intros r [E1 R]. split; auto. apply (rect3_concat _ _ _ _ R). }
    apply o_same; cbn [ov4_of ov2_of ov_vsize ov_osize].
    + unfold size1 at 2. rewrite (vlen_concat _ (concat d) (size3 d) R3), (vlen_concat _ d (size2 d) R1). reflexivity.
    + symmetry. rewrite size2_concat; [exact S3|rewrite S2, S3; exact R2].
    + intros k Hk. apply (flat3 (list val)); auto.
Qed.

(** ** Hierarchical containers: any parent vector. *)
Theorem C84_hier : (forall (d : list val) ps, d <> [] ->
     h_table A (hv1_of A d ps) = h_table A (hv2_of A (map (fun x => [x]) d) ps) /\ h_ntable A (hv1_of A d ps) = h_ntable A (hv2_of A (map (fun x => [x]) d) ps)) /\
  (forall (d : list (list (list val))) ps, rect3 d (size2 d) (size3 d) ->
     h_table A (hv3_of A d ps) = h_table A (hv2_of A (map (@concat val) d) ps) /\ h_ntable A (hv3_of A d ps) = h_ntable A (hv2_of A (map (@concat val) d) ps)) /\
  (forall (d : list (list (list (list val)))) ps, rect4 d (size2 d) (size3 d) (size4 d) ->
     h_table A (hv4_of A d ps) = h_table A (hv2_of A (map (fun x => concat (concat x)) d) ps) /\ h_ntable A (hv4_of A d ps) = h_ntable A (hv2_of A (map (fun x => concat (concat x)) d) ps)).
Proof.
  assert (L : forall X Y (f : X -> Y) l, size1 (map f l) = size1 l) by (intros; unfold size1, vlen; rewrite map_length; reflexivity).
  split; [|split].
  - intros d ps Hd. unfold hv1_of, hv2_of. rewrite L. destruct (meta_build (size1 d) ps) as [m| |]; cbn [bind]; [|split; reflexivity..].
    apply h_same; cbn [hv_vsize hv_meta]; [destruct d; [congruence|reflexivity]|reflexivity|]. intros h k Hk. assert (k = 0) by lia. subst k. cbn [hv_value hv_data].
    unfold vget2. rewrite vget_mapped. destruct (vget d h); reflexivity.
  - intros d ps H. unfold hv3_of, hv2_of. rewrite L. destruct (meta_build (size1 d) ps) as [m| |]; cbn [bind]; [|split; reflexivity..].
    apply h_same; cbn [hv_vsize hv_meta]; [symmetry; apply size2_mapped; exact H|reflexivity|]. intros h k Hk. cbn [hv_value hv_data]. unfold vget2 at 1. rewrite vget_mapped.
    destruct (vget d h) as [r| |] eqn:E; cbn [bind].
    + destruct (proj1 (Forall_forall _ _) H r) as [Lr Rr]; [apply vget_In with h; exact E|]. rewrite <- (flat2 val r (size3 d) k Rr) by (rewrite Lr; lia). unfold vget3. rewrite E. reflexivity.
    + unfold udiv, umod. destruct (size3 d =? 0) eqn:Z0; [|cbn [bind]; unfold vget3; rewrite E; reflexivity]. apply Z.eqb_eq in Z0. nia.
    + exfalso. apply (vget_fuel _ _ _ E).
  - intros d ps H. unfold hv4_of, hv2_of. rewrite L. destruct (meta_build (size1 d) ps) as [m| |]; cbn [bind]; [|split; reflexivity..].
    apply h_same; cbn [hv_vsize hv_meta]; [|reflexivity|].
    + destruct d as [|r d]; [reflexivity|]. inversion H as [|? ? [Lr Rr] _]; subst. cbn [size2 size3 size4 map] in *. destruct (rect3_concat _ _ _ _ Rr) as [R1 R2].
      rewrite (vlen_concat _ (concat r) _ R2), (vlen_concat _ r _ R1). reflexivity.
    + intros h k Hk. cbn [hv_value hv_data]. unfold vget2 at 1. rewrite vget_mapped.
      destruct (vget d h) as [r| |] eqn:E; cbn [bind].
      * destruct (proj1 (Forall_forall _ _) H r) as [Lr Rr]; [apply vget_In with h; exact E|]. rewrite <- (flat3 val r (size3 d) (size4 d) k Rr) by (rewrite Lr; lia). unfold vget4. rewrite E. reflexivity.
      * unfold udiv, umod. pose proof (size2_nonneg _ d). pose proof (size3_nonneg _ d). pose proof (size4_nonneg _ d).
        destruct (size4 d * size3 d =? 0) eqn:Z0; [apply Z.eqb_eq in Z0; nia|]. destruct (size4 d =? 0) eqn:Z1; [apply Z.eqb_eq in Z1; nia|]. destruct (size3 d =? 0) eqn:Z2; [apply Z.eqb_eq in Z2; nia|]. cbn [bind].
        unfold vget4. rewrite E. reflexivity.
      * exfalso. apply (vget_fuel _ _ _ E).
Qed.

(** ** Spatiotemporal containers: any parent vector. *)
Theorem C84_spatio : (forall (d : list (list val)) ps, d <> [] ->
     d_table A (dv2_of A d ps) = d_table A (dv3_of A (map (fun x => [x]) d) ps) /\ d_ntable A (dv2_of A d ps) = d_ntable A (dv3_of A (map (fun x => [x]) d) ps)) /\
  (forall (d : list (list (list (list val)))) ps, rect4 d (size2 d) (size3 d) (size4 d) ->
     d_table A (dv4_of A d ps) = d_table A (dv3_of A (map (@concat (list val)) d) ps) /\ d_ntable A (dv4_of A d ps) = d_ntable A (dv3_of A (map (@concat (list val)) d) ps)).
Proof.
  assert (L : forall X Y (f : X -> Y) l, size1 (map f l) = size1 l) by (intros; unfold size1, vlen; rewrite map_length; reflexivity).
  split.
  - intros d ps Hd. unfold dv2_of, dv3_of. rewrite L. destruct (meta_build (size1 d) ps) as [m| |]; cbn [bind]; [|split; reflexivity..].
    apply d_same; cbn [dv_vsize dv_osize dv_meta]; [destruct d; [congruence|reflexivity]|destruct d; reflexivity|reflexivity|]. intros h k Hk. assert (k = 0) by lia. subst k. cbn [dv_row dv_data].
    unfold vget2. rewrite vget_mapped. destruct (vget d h); reflexivity.
  - intros d ps H. unfold dv4_of, dv3_of. rewrite L. destruct (meta_build (size1 d) ps) as [m| |]; cbn [bind]; [|split; reflexivity..].
    apply d_same; cbn [dv_vsize dv_osize dv_meta]; [| |reflexivity|].
    + destruct d as [|r d]; [reflexivity|]. inversion H as [|? ? [Lr Rr] _]; subst. cbn [size2 size3 size4 map] in *. destruct (rect3_concat _ _ _ _ Rr) as [R1 R2].
      rewrite (vlen_concat _ r _ R1). reflexivity.
    + destruct d as [|r d]; [reflexivity|]. inversion H as [|? ? [Lr Rr] _]; subst. cbn [size2 size3 size4 map] in *. symmetry. apply size2_concat. exact Rr.
    + intros h k Hk. cbn [dv_row dv_data]. unfold vget2 at 1. rewrite vget_mapped.
      destruct (vget d h) as [r| |] eqn:E; cbn [bind].
      * destruct (proj1 (Forall_forall _ _) H r) as [Lr Rr]; [apply vget_In with h; exact E|]. destruct (rect3_concat _ _ _ _ Rr) as [R1 R2].
        rewrite <- (flat2 (list val) r (size3 d) k R1) by (rewrite Lr; lia). unfold vget3. rewrite E. reflexivity.
      * unfold udiv, umod. destruct (size3 d =? 0) eqn:Z0; [|cbn [bind]; unfold vget3; rewrite E; reflexivity]. apply Z.eqb_eq in Z0. nia.
      * exfalso. apply (vget_fuel _ _ _ E).
Qed.
End M.

(** Non-vacuity: 2x2x2 and 2x1x2x2 data that are rectangular; the flattened data; and ragged data, which the theorems exclude and for which the two
    containers really have different shapes. *)
Example C84_nonvacuous :
  let d3 := [[[1; 2]; [3; 4]]; [[5; 6]; [7; 8]]] in let d4 := [[[[1; 2]; [3; 4]]]; [[[5; 6]; [7; 8]]]] in
  rect3 d3 (size2 d3) (size3 d3) /\ rect4 d4 (size2 d4) (size3 d4) (size4 d4) /\ concat d3 = [[1; 2]; [3; 4]; [5; 6]; [7; 8]] /\ map (@concat Z) d3 = [[1; 2; 3; 4]; [5; 6; 7; 8]] /\
  let ragged := [[[1; 2]; [3; 4]]; [[5; 6]]] in ~ rect3 ragged (size2 ragged) (size3 ragged) /\ size1 ragged * size2 ragged <> size1 (concat ragged).
Proof.
  cbn. split; [repeat constructor|]. split; [repeat constructor|]. split; [reflexivity|]. split; [reflexivity|]. split; [|cbn; discriminate].
  intro H. inversion H as [|? ? _ H2]; subst. inversion H2 as [|? ? [L _] _]; subst. discriminate.
Qed.
