(** * Property C85: the number of components in 32-bit words.

    n is the number of components of the data (product of the inner dimensions). In machine words the code sees m = n mod 2^32. *)
From Coq Require Import Lia.
From Verif Require Import Base BaseFacts Arith Quality Utm Hierarchy Values Qualities Aggregation Words SpecData SpecShape DataFacts P_Shape.

Definition first {X} (m : Z) (l : list X) : list X := firstn (Z.to_nat m) l.

Lemma vget_first : forall X (l : list X) m k, 0 <= k < m -> vget (first m l) k = vget l k.
Proof.
  intros X l m k H. unfold vget, first. replace (k <? 0) with false by (symmetry; apply Z.ltb_ge; lia).
  assert (L : (Z.to_nat k < Z.to_nat m)%nat) by lia. revert L. generalize (Z.to_nat k) (Z.to_nat m). clear. intros i n. revert l i.
  induction n as [|n IH]; intros l i L; [lia|]. destruct l as [|x l]; [destruct i; reflexivity|]. destruct i as [|i]; [reflexivity|]. cbn [firstn nth_error]. apply IH. lia.
Qed.
Lemma wrap_small : forall x, 0 <= x < two32 -> wrap x = x.
Proof. intros x H. apply Z.mod_small. exact H. Qed.
Lemma wrap_range : forall x, 0 <= wrap x < two32.
Proof. intro x. apply Z.mod_pos_bound. reflexivity. Qed.
Lemma wrap_le : forall x, 0 <= x -> wrap x <= x.
Proof. intros x H. apply Z.mod_le; [exact H|reflexivity]. Qed.

Section M.
Context (A : arith).
Notation val := (num A).

(** What a table of the first m components is: containers of the base dimension, in unbounded integers. *)
Definition o_of (m osize : Z) (rows : list (list val)) : res (option (utm (quality A))) := o_table A (mkOV A m osize (ON2 A (first m rows))).
Definition h_of (m : Z) (leaves : list (list val)) (ps : list Z) : res (option (list (quality A)) * meta) :=
  h_table A (let* mt := meta_build (size1 leaves) ps in Ok (mkHV A m mt (HN2 A (map (first m) leaves)))).
Definition d_of (m osize : Z) (leaves : list (list (list val))) (ps : list Z) : res (option (list (utm (quality A))) * meta) :=
  d_table A (let* mt := meta_build (size1 leaves) ps in Ok (mkDV A m osize mt (DN3 A (map (first m) leaves)))).

Lemma o_sim : forall (v v' : ovalues A), ov_vsize v = ov_vsize v' -> ov_osize v = ov_osize v' -> (forall k, 0 <= k < ov_vsize v -> ov_row_w A v k = ov_row v' k) ->
  o_table_w A v = if ov_vsize v <? two31 then o_table A v' else UB.
Proof.
  intros v v' E1 E2 E3. unfold o_table_w, for_int. destruct (ov_vsize v <? two31); [|reflexivity].
  assert (T : for_up 0 (ov_vsize v) (fun k st => for_down (ov_osize v) 0 (oq_line_w A v (ov_osize v) k) st) (u_new (ov_osize v) (n_zero A), u_new (ov_osize v) (n_zero A), u_new (ov_osize v) (q_zero A)) =
              for_up 0 (ov_vsize v') (fun k st => for_down (ov_osize v') 0 (oq_line A v' (ov_osize v') k) st) (u_new (ov_osize v') (n_zero A), u_new (ov_osize v') (n_zero A), u_new (ov_osize v') (q_zero A))).
  { rewrite <- E1, <- E2. apply mfold_ext. intros k s Ik. apply In_zrange in Ik. apply mfold_ext. intros i [[a b] c] _. unfold oq_line_w, oq_line. rewrite E3 by lia. reflexivity. }
  rewrite T. clear T. unfold o_table, oq_compute, oq_ofValues. cbn [oq_values]. unfold oq_computeTable. destruct (for_up 0 _ _ _); reflexivity.
Qed.

Lemma h_sim : forall (v v' : hvalues A), hv_vsize v = hv_vsize v' -> hv_meta v = hv_meta v' -> (forall h k, 0 <= k < hv_vsize v -> hv_value_w A v h k = hv_value v' h k) ->
  h_table_w A (Ok v) = if hv_vsize v <? two31 then h_table A (Ok v') else UB.
Proof.
  intros v v' E1 E2 E3. unfold h_table_w, for_int. cbn [bind]. destruct (hv_vsize v <? two31); [|reflexivity].
  unfold h_table, hq_compute, hq_ofValues. cbn [bind hq_values hq_meta]. unfold hq_computeTable. rewrite <- E1, <- E2.
  assert (T : for_up 0 (hv_vsize v) (hq_component_w A v (hv_meta v)) (vrep (m_hsize (hv_meta v)) (q_zero A)) = for_up 0 (hv_vsize v) (hq_component A v' (hv_meta v)) (vrep (m_hsize (hv_meta v)) (q_zero A))).
  { apply mfold_ext. intros k s Ik. apply In_zrange in Ik. unfold hq_component_w, hq_component. f_equal. apply path_loop_ext. intros h [a b]. unfold hq_leaf_w, hq_leaf. rewrite E3 by lia. reflexivity. }
  rewrite T. clear T. destruct (for_up 0 _ _ _); reflexivity.
Qed.

Lemma d_sim : forall (v v' : dvalues A), dv_vsize v = dv_vsize v' -> dv_osize v = dv_osize v' -> dv_meta v = dv_meta v' -> (forall h k, 0 <= k < dv_vsize v -> dv_row v h k = dv_row v' h k) ->
  d_table_w A (Ok v) = if dv_vsize v <? two31 then d_table A (Ok v') else UB.
Proof.
  intros v v' E1 E0 E2 E3. rewrite <- (proj1 (d_same A v v' E1 E0 E2 E3)). unfold d_table_w, for_int. cbn [bind]. destruct (dv_vsize v <? two31); [|reflexivity].
  unfold d_table, dq_compute, dq_ofValues. cbn [bind dq_values dq_meta]. unfold dq_computeTable. destruct (for_up 0 _ _ _); reflexivity.
Qed.

(** ** Ordered *)
Theorem C85_ordered :
  (forall d : list (list (list val)), rect3 d (size2 d) (size3 d) -> size2 d < two32 -> size3 d < two32 ->
     let m := wrap (size1 d * size2 d) in
     o_table_w A (ov3_w A d) = if m <? two31 then o_of m (size3 d) (concat d) else UB) /\
  (forall d : list (list (list (list val))), rect4 d (size2 d) (size3 d) (size4 d) -> size2 d * size3 d < two32 -> size2 d < two32 -> size3 d < two32 -> size4 d < two32 ->
     let m := wrap (size1 d * size2 d * size3 d) in
     o_table_w A (ov4_w A d) = if m <? two31 then o_of m (size4 d) (concat (concat d)) else UB).
Proof.
  split.
  - intros d H H2 H3 m. destruct (rect3_concat _ _ _ _ H) as [R1 R2]. pose proof (size2_nonneg _ d). pose proof (size3_nonneg _ d). unfold o_of. change m with (ov_vsize (ov3_w A d)).
    apply o_sim; [reflexivity|cbn; apply wrap_small; lia|]. cbn [ov3_w ov_vsize]. intros k Hk. cbn [ov_row_w ov_row ov_data ov3_w ov4_w]. rewrite (wrap_small (size2 d)) by lia.
    assert (0 <= size1 d) by apply vlen_nonneg. assert (wrap (size1 d * size2 d) <= size1 d * size2 d) by (apply wrap_le; nia).
    rewrite vget_first by exact Hk. apply (flat2 (list val)); auto. unfold size1 in *. lia.
  - intros d H H23 H2 H3 H4 m. destruct (rect4_concat _ _ _ _ _ H) as [R1 R2]. pose proof (size2_nonneg _ d). pose proof (size3_nonneg _ d). pose proof (size4_nonneg _ d). unfold o_of. change m with (ov_vsize (ov4_w A d)).
    assert (R5 : rect3 d (size2 d) (size3 d)). { eapply Forall_impl; [|exact H]. intros r [E1 R]. split; auto. apply (rect3_concat _ _ _ _ R). }
    apply o_sim; [reflexivity|cbn; apply wrap_small; lia|]. cbn [ov4_w ov_vsize]. intros k Hk. cbn [ov_row_w ov_row ov_data ov3_w ov4_w]. rewrite (wrap_small (size2 d)), (wrap_small (size3 d)) by lia.
    assert (0 <= size1 d) by apply vlen_nonneg. assert (wrap (size1 d * size2 d * size3 d) <= size1 d * size2 d * size3 d) by (apply wrap_le; nia).
    rewrite (wrap_small (size3 d * size2 d)) by nia. rewrite vget_first by exact Hk. apply (flat3 (list val)); auto. unfold size1 in *. lia.
Qed.

(** ** Hierarchical *)
Theorem C85_hier :
  (forall (d : list (list (list val))) ps, rect3 d (size2 d) (size3 d) -> size2 d < two32 -> size3 d < two32 ->
     let m := wrap (size2 d * size3 d) in
     h_table_w A (hv3_w A d ps) = let* _ := meta_build (size1 d) ps in if m <? two31 then h_of m (map (@concat val) d) ps else UB) /\
  (forall (d : list (list (list (list val)))) ps, rect4 d (size2 d) (size3 d) (size4 d) -> size3 d * size4 d < two32 -> size2 d < two32 -> size3 d < two32 -> size4 d < two32 ->
     let m := wrap (size2 d * size3 d * size4 d) in
     h_table_w A (hv4_w A d ps) = let* _ := meta_build (size1 d) ps in if m <? two31 then h_of m (map (fun x => concat (concat x)) d) ps else UB).
Proof.
  assert (L : forall X Y (f : X -> Y) l, size1 (map f l) = size1 l) by (intros; unfold size1, vlen; rewrite map_length; reflexivity).
  split.
  - intros d ps H H2 H3 m. unfold h_of, hv3_w. rewrite L. destruct (meta_build (size1 d) ps) as [mt| |]; cbn [bind]; [|reflexivity..].
    pose proof (size2_nonneg _ d). pose proof (size3_nonneg _ d).
    apply h_sim; [reflexivity|reflexivity|]. cbn [hv_vsize]. intros h k Hk. cbn [hv_value_w hv_value hv_data]. rewrite (wrap_small (size3 d)) by lia.
    assert (wrap (size2 d * size3 d) <= size2 d * size3 d) by (apply wrap_le; nia).
    rewrite map_map. unfold vget2. rewrite vget_mapped.
    destruct (vget d h) as [r| |] eqn:E; cbn [bind].
    + destruct (proj1 (Forall_forall _ _) H r) as [Lr Rr]; [apply vget_In with h; exact E|]. rewrite vget_first by exact Hk. rewrite <- (flat2 val r (size3 d) k Rr) by (rewrite Lr; lia). unfold vget3. rewrite E. reflexivity.
    + unfold udiv, umod. destruct (size3 d =? 0) eqn:Z0; [|cbn [bind]; unfold vget3; rewrite E; reflexivity]. apply Z.eqb_eq in Z0. nia.
    + exfalso. apply (vget_fuel _ _ _ E).
  - intros d ps H H34 H2 H3 H4 m. unfold h_of, hv4_w. rewrite L. destruct (meta_build (size1 d) ps) as [mt| |]; cbn [bind]; [|reflexivity..].
    pose proof (size2_nonneg _ d). pose proof (size3_nonneg _ d). pose proof (size4_nonneg _ d).
    apply h_sim; [reflexivity|reflexivity|]. cbn [hv_vsize]. intros h k Hk. cbn [hv_value_w hv_value hv_data]. rewrite (wrap_small (size3 d)), (wrap_small (size4 d)) by lia.
    assert (wrap (size2 d * size3 d * size4 d) <= size2 d * size3 d * size4 d) by (apply wrap_le; nia).
    rewrite (wrap_small (size4 d * size3 d)) by nia. rewrite map_map. unfold vget2. rewrite vget_mapped.
    destruct (vget d h) as [r| |] eqn:E; cbn [bind].
    + destruct (proj1 (Forall_forall _ _) H r) as [Lr Rr]; [apply vget_In with h; exact E|]. rewrite vget_first by exact Hk. rewrite <- (flat3 val r (size3 d) (size4 d) k Rr) by (rewrite Lr; lia). unfold vget4. rewrite E. reflexivity.
    + unfold udiv, umod. destruct (size4 d * size3 d =? 0) eqn:Z0; [apply Z.eqb_eq in Z0; nia|]. destruct (size4 d =? 0) eqn:Z1; [apply Z.eqb_eq in Z1; nia|]. destruct (size3 d =? 0) eqn:Z2; [apply Z.eqb_eq in Z2; nia|]. cbn [bind].
      unfold vget4. rewrite E. reflexivity.
    + exfalso. apply (vget_fuel _ _ _ E).
Qed.

(** ** Spatiotemporal *)
Theorem C85_spatio : forall (d : list (list (list (list val)))) ps, rect4 d (size2 d) (size3 d) (size4 d) -> size2 d < two32 -> size3 d < two32 -> size4 d < two32 ->
     let m := wrap (size2 d * size3 d) in
     d_table_w A (dv4_w A d ps) = let* _ := meta_build (size1 d) ps in if m <? two31 then d_of m (size4 d) (map (@concat (list val)) d) ps else UB.
Proof.
  assert (L : forall X Y (f : X -> Y) l, size1 (map f l) = size1 l) by (intros; unfold size1, vlen; rewrite map_length; reflexivity).
  intros d ps H H2 H3 H4 m. unfold d_of, dv4_w. rewrite L. destruct (meta_build (size1 d) ps) as [mt| |]; cbn [bind]; [|reflexivity..].
  pose proof (size2_nonneg _ d). pose proof (size3_nonneg _ d). pose proof (size4_nonneg _ d).
  apply d_sim; [reflexivity|cbn; apply wrap_small; lia|reflexivity|]. cbn [dv_vsize]. intros h k Hk. cbn [dv_row dv_data]. rewrite (wrap_small (size3 d)) by lia.
  assert (wrap (size2 d * size3 d) <= size2 d * size3 d) by (apply wrap_le; nia).
  rewrite map_map. unfold vget2. rewrite vget_mapped.
  destruct (vget d h) as [r| |] eqn:E; cbn [bind].
  - destruct (proj1 (Forall_forall _ _) H r) as [Lr Rr]; [apply vget_In with h; exact E|]. destruct (rect3_concat _ _ _ _ Rr) as [R1 R2].
    rewrite vget_first by exact Hk. rewrite <- (flat2 (list val) r (size3 d) k R1) by (rewrite Lr; lia). unfold vget3. rewrite E. reflexivity.
  - unfold udiv, umod. destruct (size3 d =? 0) eqn:Z0; [|cbn [bind]; unfold vget3; rewrite E; reflexivity]. apply Z.eqb_eq in Z0. nia.
  - exfalso. apply (vget_fuel _ _ _ E).
Qed.

(** ** What getI(), getJ(), getK() report: the dimensions modulo 2^32, each in its own place. *)
Theorem C85_dimensions :
  (forall d, ov_I A (ov3_w A d) = size1 d mod two32 /\ ov_J A (ov3_w A d) = size2 d mod two32 /\ ov_osize (ov3_w A d) = size3 d mod two32) /\
  (forall d, ov_I A (ov4_w A d) = size1 d mod two32 /\ ov_J A (ov4_w A d) = size2 d mod two32 /\ ov_K A (ov4_w A d) = size3 d mod two32 /\ ov_osize (ov4_w A d) = size4 d mod two32) /\
  (forall d ps v, hv3_w A d ps = Ok v -> hv_I A v = size2 d mod two32 /\ hv_J A v = size3 d mod two32) /\
  (forall d ps v, hv4_w A d ps = Ok v -> hv_I A v = size2 d mod two32 /\ hv_J A v = size3 d mod two32 /\ hv_K A v = size4 d mod two32) /\
  (forall d ps v, dv4_w A d ps = Ok v -> dv_I A v = size2 d mod two32 /\ dv_J A v = size3 d mod two32 /\ dv_osize v = size4 d mod two32).
Proof.
  repeat split; try reflexivity; unfold hv3_w, hv4_w, dv4_w in *; apply bind_ok in H; destruct H as (m & _ & H); injection H as <-; reflexivity.
Qed.
Print Assumptions C85_dimensions.

(** ** Consequences: fewer than 2^31 components - the machine computes what every other theorem of this development is about. *)
Theorem C85_faithful :
  (forall d : list (list (list val)), rect3 d (size2 d) (size3 d) -> size2 d < two32 -> size3 d < two32 -> size1 d * size2 d < two31 ->
     o_table_w A (ov3_w A d) = o_table A (ov3_of A d)) /\
  (forall d : list (list (list (list val))), rect4 d (size2 d) (size3 d) (size4 d) -> size2 d < two32 -> size3 d < two32 -> size4 d < two32 -> size1 d * size2 d * size3 d < two31 ->
     o_table_w A (ov4_w A d) = o_table A (ov4_of A d)) /\
  (forall (d : list (list (list val))) ps, rect3 d (size2 d) (size3 d) -> size2 d < two32 -> size3 d < two32 -> size2 d * size3 d < two31 ->
     h_table_w A (hv3_w A d ps) = h_table A (hv3_of A d ps)) /\
  (forall (d : list (list (list (list val)))) ps, rect4 d (size2 d) (size3 d) (size4 d) -> size2 d < two32 -> size3 d < two32 -> size4 d < two32 -> size2 d * size3 d * size4 d < two31 ->
     h_table_w A (hv4_w A d ps) = h_table A (hv4_of A d ps)) /\
  (forall (d : list (list (list (list val)))) ps, rect4 d (size2 d) (size3 d) (size4 d) -> size2 d < two32 -> size3 d < two32 -> size4 d < two32 -> size2 d * size3 d < two31 ->
     d_table_w A (dv4_w A d ps) = d_table A (dv4_of A d ps)).
Proof.
  assert (TT : two31 < two32) by reflexivity.
  assert (LT : forall x, x < two31 -> (x <? two31) = true) by (intros; apply Z.ltb_lt; assumption).
  repeat split.
  - intros d H H2 H3 H12. pose proof (size2_nonneg _ d). pose proof (size3_nonneg _ d). assert (0 <= size1 d) by apply vlen_nonneg.
    rewrite (o_sim (ov3_w A d) (ov3_of A d)).
    + cbn [ov3_w ov_vsize]. rewrite wrap_small by nia. rewrite LT by assumption. reflexivity.
    + cbn. apply wrap_small. nia.
    + cbn. apply wrap_small. lia.
    + intros k _. cbn. rewrite wrap_small by lia. reflexivity.
  - intros d H H2 H3 H4 H12. pose proof (size2_nonneg _ d). pose proof (size3_nonneg _ d). pose proof (size4_nonneg _ d). assert (0 <= size1 d) by apply vlen_nonneg.
    rewrite (o_sim (ov4_w A d) (ov4_of A d)).
    + cbn [ov4_w ov_vsize]. rewrite wrap_small by nia. rewrite LT by assumption. reflexivity.
    + cbn. apply wrap_small. nia.
    + cbn. apply wrap_small. lia.
    + cbn [ov4_w ov_vsize]. intros k Hk. rewrite wrap_small in Hk by nia. cbn. rewrite !(wrap_small (size2 d)), !(wrap_small (size3 d)) by lia.
      assert (1 <= size1 d) by nia. assert (size3 d * size2 d <= size1 d * size2 d * size3 d) by nia. rewrite wrap_small by nia. reflexivity.
  - intros d ps H H2 H3 H12. pose proof (size2_nonneg _ d). pose proof (size3_nonneg _ d). unfold hv3_w, hv3_of. destruct (meta_build (size1 d) ps) as [mt| |]; cbn [bind]; [|reflexivity..].
    erewrite h_sim.
    + cbn [hv_vsize]. rewrite wrap_small by nia. rewrite LT by assumption. reflexivity.
    + cbn. apply wrap_small. nia.
    + reflexivity.
    + intros h k _. cbn. rewrite wrap_small by lia. reflexivity.
  - intros d ps H H2 H3 H4 H12. pose proof (size2_nonneg _ d). pose proof (size3_nonneg _ d). pose proof (size4_nonneg _ d). unfold hv4_w, hv4_of. destruct (meta_build (size1 d) ps) as [mt| |]; cbn [bind]; [|reflexivity..].
    erewrite h_sim.
    + cbn [hv_vsize]. rewrite wrap_small by nia. rewrite LT by assumption. reflexivity.
    + cbn. apply wrap_small. nia.
    + reflexivity.
    + cbn [hv_vsize]. intros h k Hk. rewrite wrap_small in Hk by nia. cbn. rewrite !(wrap_small (size3 d)), !(wrap_small (size4 d)) by lia.
      assert (1 <= size2 d) by nia. assert (size4 d * size3 d <= size2 d * size3 d * size4 d) by nia. rewrite wrap_small by nia. reflexivity.
  - intros d ps H H2 H3 H4 H12. pose proof (size2_nonneg _ d). pose proof (size3_nonneg _ d). pose proof (size4_nonneg _ d). unfold dv4_w, dv4_of. destruct (meta_build (size1 d) ps) as [mt| |]; cbn [bind]; [|reflexivity..].
    erewrite d_sim.
    + cbn [dv_vsize]. rewrite wrap_small by nia. rewrite LT by assumption. reflexivity.
    + cbn. apply wrap_small. nia.
    + cbn. apply wrap_small. lia.
    + reflexivity.
    + intros h k _. cbn. rewrite wrap_small by lia. reflexivity.
Qed.

(** ** Too many components, not noticed: with a multiple of 2^32 components (65536 x 65536, say) every gain and loss is zero, whatever the data. *)
Theorem C85_lost : forall d : list (list (list val)), (size1 d * size2 d) mod two32 = 0 ->
  exists t, o_table_w A (ov3_w A d) = Ok (Some t) /\ Forall (fun q => q = q_zero A) (u_data t).
Proof.
  intros d E. unfold o_table_w. cbn [ov3_w ov_vsize ov_osize]. unfold wrap at 1. rewrite E. unfold for_int. cbn. eexists. split; [reflexivity|].
  cbn. unfold vrep. apply Forall_forall. intros x Ix. apply repeat_spec in Ix. exact Ix.
Qed.

(** 65536 x 65536 (x 3 slices) is such an input; and 2 x 65536 x 65537 a 4-dimensional one for which component 65536 is read from the wrong row:
    row [1][0][65536] instead of row [0][0][65536]. *)
Theorem C85_nonvacuous : forall x y : val,
  (let d := vrep 65536 (vrep 65536 [x; y; x]) in rect3 d (size2 d) (size3 d) /\ size2 d = 65536 /\ size3 d = 3 /\ (size1 d * size2 d) mod two32 = 0) /\
  (forall d : list (list (list (list val))), size1 d = 2 -> size2 d = 65536 -> size3 d = 65537 ->
     ov_vsize (ov4_w A d) = 131072 /\ ov_row_w A (ov4_w A d) 65536 = vget3 d 1 0 65536 /\ ov_row (ov4_of A d) 65536 = vget3 d 0 0 65536).
Proof.
  intros x y. split.
  - set (r := [x; y; x]). assert (F : forall X n (z : X) (Q : X -> Prop), Q z -> Forall Q (vrep n z)).
    { intros X n z Q Hz. unfold vrep. apply Forall_forall. intros w Iw. apply repeat_spec in Iw. subst w. exact Hz. }
    assert (S1 : forall X n (z : X), 0 <= n -> size1 (vrep n z) = n) by (intros; unfold size1; apply vlen_vrep; assumption).
    assert (S2 : forall X n k (z : X), 0 < n -> 0 <= k -> size2 (vrep n (vrep k z)) = k).
    { intros X n k z Hn Hk. unfold vrep at 1. destruct (Z.to_nat n) as [|n'] eqn:En; [lia|]. cbn [repeat size2]. apply vlen_vrep. exact Hk. }
    assert (S3 : forall X n k (z : list X), 0 < n -> 0 < k -> size3 (vrep n (vrep k z)) = vlen z).
    { intros X n k z Hn Hk. unfold vrep at 1. destruct (Z.to_nat n) as [|n'] eqn:En; [lia|]. cbn [repeat size3]. unfold vrep. destruct (Z.to_nat k) as [|k'] eqn:Ek; [lia|]. reflexivity. }
    cbn zeta. rewrite S1, S2, S3 by lia. split; [|split; [reflexivity|split; reflexivity]].
    apply F. split; [apply vlen_vrep; lia|]. apply F. reflexivity.
  - intros d E1 E2 E3. cbn [ov4_w ov4_of ov_vsize ov_row_w ov_row ov_data]. rewrite E1, E2, E3. split; [reflexivity|]. split; reflexivity.
Qed.
End M.
