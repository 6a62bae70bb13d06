(** * Property C81: the sums and means of the aggregation classes, in double.

    [DA lg] is the arithmetic of these classes; [near_sum_mean c S T N (sum, mean)] says that both are finite, the sum is within
    c*T of S and the mean within (c + 2^-52) T/N + 2^-1075 of S/N; [exact_sum_mean S N (sum, mean)] that the sum is exactly S and
    the mean is S/N correctly rounded (SpecDouble.v). *)
From Coq Require Import ZArith Reals Lra Lia.
From Flocq Require Import Core BinarySingleNaN.
From Verif Require Import Base BaseFacts Arith Quality Utm UtmProofs Hierarchy SpecTree SpecParts HierarchyFacts TreePath CoverFacts InfoFacts Values SpecValues Partitions Partitioners
  Aggregation SpecAgg Ieee SpecDouble DoubleFacts HNear P_Aggregates P_Ordered.

Lemma F2_map : forall (X Y : Type) (P : X -> Y -> Prop) (f : X -> Y) l, (forall x, In x l -> P x (f x)) -> Forall2 P l (map f l).
Proof. intros X Y P f l. induction l as [|x l IH]; intro H; cbn [map]; constructor; [apply H; left; auto|apply IH; intros; apply H; right; auto]. Qed.

Lemma Rsum_sub : forall (X : Type) (f : X -> R) l, (Rabs (Rsum f l) <= Rsum (fun y => Rabs (f y)) l)%R.
Proof.
  intros X f l. induction l as [|x l IH]; [rewrite !Rsum_nil, Rabs_R0; lra|]. rewrite !Rsum_cons. eapply Rle_trans; [apply Rabs_triang|]. lra.
Qed.

Lemma cell_near : forall lg (X : Type) (f : X -> f64) l N, (forall y, In y l -> is_finite (f y) = true) -> (Z.of_nat (length l) <= 2 ^ 48)%Z ->
  (Rsum (fun y => Rabs (B2R (f y))) l <= bpow radix2 1000)%R -> 1 <= N <= 2 ^ 53 ->
  near_sum_mean (IZR (Z.of_nat (length l)) * bpow radix2 (-52)) (Rsum (fun y => B2R (f y)) l) (Rsum (fun y => Rabs (B2R (f y))) l) N
    (sum_mean (DA lg) (seqsum (DA lg) (map f l)) N).
Proof.
  intros lg X f l N Hf Hl Ht HN. destruct (seq_close lg X f l Hf Hl Ht) as [F E]. apply mean_close; auto.
  - split; [apply Rmult_le_pos; [apply IZR_le; lia|apply bpow_ge_0]|]. apply Rle_trans with (bpow radix2 48 * bpow radix2 (-52))%R.
    + apply Rmult_le_compat_r; [apply bpow_ge_0|]. change (bpow radix2 48) with (IZR (2 ^ 48)). apply IZR_le; auto.
    + rewrite <- bpow_plus. change 1%R with (bpow radix2 0). apply bpow_le. lia.
  - split; auto. apply Rsum_nonneg. intros. apply Rabs_pos.
  - apply Rsum_sub.
Qed.

Lemma cell_int : forall lg (X : Type) (f : X -> f64) l N, (forall y, In y l -> integer64 (f y)) ->
  (Rsum (fun y => Rabs (B2R (f y))) l <= bpow radix2 53)%R -> 1 <= N <= 2 ^ 53 ->
  exact_sum_mean (Rsum (fun y => B2R (f y)) l) N (sum_mean (DA lg) (seqsum (DA lg) (map f l)) N).
Proof.
  intros lg X f l N Hf Ht HN. destruct (seq_int0 lg X f l Hf Ht) as [F E]. apply mean_exact; auto.
  eapply Rle_trans; [apply Rsum_sub|]. eapply Rle_trans; [exact Ht|]. apply bpow_le. lia.
Qed.

Lemma Rsum_part : forall (f : Z -> R) s e n, (forall o, 0 <= f o)%R -> 0 <= s -> e < n -> s <= e -> (Rsum f (zrange s (e + 1)) <= Rsum f (zrange 0 n))%R.
Proof.
  intros f s e n Hf Hs He Hse. rewrite (zrange_app 0 s n), (zrange_app s (e + 1) n), !Rsum_app by lia.
  pose proof (Rsum_nonneg _ f (zrange 0 s) ltac:(auto)). pose proof (Rsum_nonneg _ f (zrange (e + 1) n) ltac:(auto)). lra.
Qed.

(** Value of component (a,b,c) at slice o (at leaf x; at leaf x and slice o). *)
Definition oval {lg} (v : ovalues (DA lg)) (a b c o : Z) : R := B2R (ov_at v a b c o : f64).
Definition hval {lg} (v : hvalues (DA lg)) (a b c x : Z) : R := B2R (hv_at v x a b c : f64).
Definition dval {lg} (v : dvalues (DA lg)) (a b : Z) (xo : Z * Z) : R := B2R (dv_at v (fst xo) a b (snd xo) : f64).

(** ** C81, ordered: finite data. *)
Theorem C81_ordered : forall lg (v : ovalues (DA lg)) I J K (x : opartition (DA lg)), ov_shaped v I J K -> ov_osize v <= 65535 ->
  (forall q, In q (on_parts x) -> 0 <= op_start q <= op_end q /\ op_end q < ov_osize v) ->
  (forall a b c o, is_finite (ov_at v a b c o : f64) = true) ->
  (forall a b c, Rsum (fun o => Rabs (oval v a b c o)) (zrange 0 (ov_osize v)) <= bpow radix2 1000)%R ->
  let cells q := zrange (op_start q) (op_end q + 1) in let size q := op_end q - op_start q + 1 in
  let near q a b c sm := near_sum_mean (IZR (size q) * bpow radix2 (-52)) (Rsum (oval v a b c) (cells q)) (Rsum (fun o => Rabs (oval v a b c o)) (cells q)) (size q) sm in
  (ov_dim v = 1 -> exists l, oagg1 (DA lg) x v = Ok l /\ Forall2 (fun q sm => near q 0 0 0 sm) (on_parts x) l) /\
  (ov_dim v = 2 -> exists l, oagg2 (DA lg) x v = Ok l /\ Forall2 (fun q r => Forall2 (fun a sm => near q a 0 0 sm) (zrange 0 I) r) (on_parts x) l) /\
  (ov_dim v = 3 -> exists l, oagg3 (DA lg) x v = Ok l /\
     Forall2 (fun q r => Forall2 (fun a r => Forall2 (fun b sm => near q a b 0 sm) (zrange 0 J) r) (zrange 0 I) r) (on_parts x) l) /\
  (ov_dim v = 4 -> exists l, oagg4 (DA lg) x v = Ok l /\
     Forall2 (fun q r => Forall2 (fun a r => Forall2 (fun b r => Forall2 (fun c sm => near q a b c sm) (zrange 0 K) r) (zrange 0 J) r) (zrange 0 I) r) (on_parts x) l).
Proof.
  intros lg v I J K x Sh Hn Hp Hf Ht cells size near.
  assert (C : forall q a b c, In q (on_parts x) -> near q a b c (sum_mean (DA lg) (osum v (op_start q) (op_end q) a b c) (op_end q - op_start q + 1))).
  { intros q a b c Hq. destruct (Hp q Hq) as [P1 P2]. unfold near, cells, size, osum.
    assert (Ll : Z.of_nat (length (zrange (op_start q) (op_end q + 1))) = op_end q - op_start q + 1) by (rewrite zrange_length; lia).
    rewrite <- Ll at 1. apply (cell_near lg Z (ov_at v a b c)); auto; try (rewrite Ll); try lia.
    eapply Rle_trans; [|apply (Ht a b c)]. apply (Rsum_part (fun o => Rabs (oval v a b c o))); try lia. intro. apply Rabs_pos. }
  destruct (C43_ordered (DA lg) v I J K x Sh) as (G1 & G2 & G3 & G4).
  { intros q Hq. destruct (Hp q Hq). lia. }
  split; [|split; [|split]]; intro D.
  - eexists. split; [apply G1; auto|]. apply F2_map. auto.
  - eexists. split; [apply G2; auto|]. apply F2_map. intros q Hq. apply F2_map. auto.
  - eexists. split; [apply G3; auto|]. apply F2_map. intros q Hq. apply F2_map. intros a _. apply F2_map. auto.
  - eexists. split; [apply G4; auto|]. apply F2_map. intros q Hq. apply F2_map. intros a _. apply F2_map. intros b _. apply F2_map. auto.
Qed.
Print Assumptions C81_ordered.

(** Integer data (counts): the sums are exact and the means correctly rounded. *)
Theorem C81_ordered_integers : forall lg (v : ovalues (DA lg)) I J K (x : opartition (DA lg)), ov_shaped v I J K -> ov_osize v <= 65535 ->
  (forall q, In q (on_parts x) -> 0 <= op_start q <= op_end q /\ op_end q < ov_osize v) ->
  (forall a b c o, integer64 (ov_at v a b c o)) ->
  (forall a b c, Rsum (fun o => Rabs (oval v a b c o)) (zrange 0 (ov_osize v)) <= bpow radix2 53)%R ->
  let cells q := zrange (op_start q) (op_end q + 1) in let size q := op_end q - op_start q + 1 in
  let ex q a b c sm := exact_sum_mean (Rsum (oval v a b c) (cells q)) (size q) sm in
  (ov_dim v = 1 -> exists l, oagg1 (DA lg) x v = Ok l /\ Forall2 (fun q sm => ex q 0 0 0 sm) (on_parts x) l) /\
  (ov_dim v = 2 -> exists l, oagg2 (DA lg) x v = Ok l /\ Forall2 (fun q r => Forall2 (fun a sm => ex q a 0 0 sm) (zrange 0 I) r) (on_parts x) l) /\
  (ov_dim v = 3 -> exists l, oagg3 (DA lg) x v = Ok l /\
     Forall2 (fun q r => Forall2 (fun a r => Forall2 (fun b sm => ex q a b 0 sm) (zrange 0 J) r) (zrange 0 I) r) (on_parts x) l) /\
  (ov_dim v = 4 -> exists l, oagg4 (DA lg) x v = Ok l /\
     Forall2 (fun q r => Forall2 (fun a r => Forall2 (fun b r => Forall2 (fun c sm => ex q a b c sm) (zrange 0 K) r) (zrange 0 J) r) (zrange 0 I) r) (on_parts x) l).
Proof.
  intros lg v I J K x Sh Hn Hp Hf Ht cells size ex.
  assert (C : forall q a b c, In q (on_parts x) -> ex q a b c (sum_mean (DA lg) (osum v (op_start q) (op_end q) a b c) (op_end q - op_start q + 1))).
  { intros q a b c Hq. destruct (Hp q Hq) as [P1 P2]. unfold ex, cells, size, osum.
    apply (cell_int lg Z (ov_at v a b c)); auto; try lia.
    eapply Rle_trans; [|apply (Ht a b c)]. apply (Rsum_part (fun o => Rabs (oval v a b c o))); try lia. intro. apply Rabs_pos. }
  destruct (C43_ordered (DA lg) v I J K x Sh) as (G1 & G2 & G3 & G4).
  { intros q Hq. destruct (Hp q Hq). lia. }
  split; [|split; [|split]]; intro D.
  - eexists. split; [apply G1; auto|]. apply F2_map. auto.
  - eexists. split; [apply G2; auto|]. apply F2_map. intros q Hq. apply F2_map. auto.
  - eexists. split; [apply G3; auto|]. apply F2_map. intros q Hq. apply F2_map. intros a _. apply F2_map. auto.
  - eexists. split; [apply G4; auto|]. apply F2_map. intros q Hq. apply F2_map. intros a _. apply F2_map. intros b _. apply F2_map. auto.
Qed.
Print Assumptions C81_ordered_integers.

(** ** C81, hierarchical: parts that are not leaves and whose children are all leaves (the others are C44). *)
Lemma leaves_len : forall m h, well_built m -> Z.of_nat (length (leavesof (m_leaves m) (m_parents m) h)) <= m_leaves m.
Proof. intros m h W. pose proof (lv_len m W h). pose proof (wb_L m W). lia. Qed.

Lemma Rsum_leaves : forall m h (f : Z -> R), (forall y, 0 <= f y)%R -> (Rsum f (leavesof (m_leaves m) (m_parents m) h) <= Rsum f (zrange 0 (m_leaves m)))%R.
Proof. intros m h f Hf. unfold leavesof. generalize (zrange 0 (m_leaves m)). intro l.
  induction l as [|y l IH]; cbn [filter]; [lra|]. destruct (belowb _ _ _); rewrite !Rsum_cons; pose proof (Hf y); lra.
Qed.

Lemma Rsum_in_le : forall (X : Type) (f : X -> R) l y, (forall z, In z l -> 0 <= f z)%R -> In y l -> (f y <= Rsum f l)%R.
Proof.
  intros X f l y. induction l as [|z l IH]; intros Hf Hy; [destruct Hy|]. rewrite Rsum_cons.
  pose proof (Hf z ltac:(left; auto)). pose proof (Rsum_nonneg _ f l ltac:(intros; apply Hf; right; auto)).
  destruct Hy as [->|Hy]; [lra|]. specialize (IH ltac:(intros; apply Hf; right; auto) Hy). lra.
Qed.

Theorem C81_hier : forall lg (v : hvalues (DA lg)) I J K (x : hpartition (DA lg)) fuel, hv_shaped v I J K -> well_built (hv_meta v) -> 2 <= m_hsize (hv_meta v) ->
  m_leaves (hv_meta v) <= 2147483647 ->
  (forall q, In q (hn_parts x) -> node (m_parents (hv_meta v)) (hp_h q) /\ shallow (hv_meta v) (hp_h q) /\ m_leaves (hv_meta v) <= hp_h q /\ 1 <= hp_size q <= 2147483647) ->
  (2 <= fuel)%nat -> (forall y a b c, is_finite (hv_at v y a b c : f64) = true) ->
  (forall a b c, Rsum (fun y => Rabs (hval v a b c y)) (zrange 0 (m_leaves (hv_meta v))) <= bpow radix2 1000)%R ->
  let cells q := leavesof (m_leaves (hv_meta v)) (m_parents (hv_meta v)) (hp_h q) in
  let near q a b c sm := near_sum_mean (IZR (vlen (cells q)) * bpow radix2 (-52)) (Rsum (hval v a b c) (cells q)) (Rsum (fun y => Rabs (hval v a b c y)) (cells q)) (hp_size q) sm in
  (hv_dim v = 1 -> exists l, hagg1 (DA lg) fuel x v = Ok l /\ Forall2 (fun q sm => near q 0 0 0 sm) (hn_parts x) l) /\
  (hv_dim v = 2 -> exists l, hagg2 (DA lg) fuel x v = Ok l /\ Forall2 (fun q r => Forall2 (fun a sm => near q a 0 0 sm) (zrange 0 I) r) (hn_parts x) l) /\
  (hv_dim v = 3 -> exists l, hagg3 (DA lg) fuel x v = Ok l /\
     Forall2 (fun q r => Forall2 (fun a r => Forall2 (fun b sm => near q a b 0 sm) (zrange 0 J) r) (zrange 0 I) r) (hn_parts x) l) /\
  (hv_dim v = 4 -> exists l, hagg4 (DA lg) fuel x v = Ok l /\
     Forall2 (fun q r => Forall2 (fun a r => Forall2 (fun b r => Forall2 (fun c sm => near q a b c sm) (zrange 0 K) r) (zrange 0 J) r) (zrange 0 I) r) (hn_parts x) l).
Proof.
  intros lg v I J K x fuel Sh W H2 HL Hp Fu Hf Ht cells near.
  assert (C : forall q a b c, In q (hn_parts x) ->
    near q a b c (sum_mean (DA lg) (if hp_h q <? m_leaves (hv_meta v) then n_zero (DA lg) else hsum v (hp_h q) a b c) (hp_size q))).
  { intros q a b c Hq. destruct (Hp q Hq) as (_ & _ & P1 & P2). destruct (Z.ltb_spec (hp_h q) (m_leaves (hv_meta v))); [lia|].
    unfold near, cells, hsum. pose proof (leaves_len (hv_meta v) (hp_h q) W) as Ll.
    apply (cell_near lg Z (fun y => hv_at v y a b c)); auto; try lia.
    eapply Rle_trans; [|apply (Ht a b c)]. apply (Rsum_leaves (hv_meta v) (hp_h q) (fun y => Rabs (hval v a b c y))). intro. apply Rabs_pos. }
  destruct (C44_hier (DA lg) v I J K x fuel Sh W H2) as (G1 & G2 & G3 & G4); auto; try (intros q Hq; apply Hp; auto).
  split; [|split; [|split]]; intro D.
  - eexists. split; [apply G1; auto|]. apply F2_map. auto.
  - eexists. split; [apply G2; auto|]. apply F2_map. intros q Hq. apply F2_map. auto.
  - eexists. split; [apply G3; auto|]. apply F2_map. intros q Hq. apply F2_map. intros a _. apply F2_map. auto.
  - eexists. split; [apply G4; auto|]. apply F2_map. intros q Hq. apply F2_map. intros a _. apply F2_map. intros b _. apply F2_map. auto.
Qed.
Print Assumptions C81_hier.

(** ** C81, spatiotemporal: as for the hierarchical kind; each slice is summed over the leaves first. *)
Theorem C81_spatio : forall lg (v : dvalues (DA lg)) I J (x : dpartition (DA lg)) fuel, dv_shaped v I J -> well_built (dv_meta v) -> 2 <= m_hsize (dv_meta v) ->
  m_leaves (dv_meta v) <= 2147483647 -> dv_osize v <= 65535 ->
  (forall q, In q (dn_parts x) -> node (m_parents (dv_meta v)) (dp_h q) /\ 0 <= dp_start q <= dp_end q /\ dp_end q < dv_osize v /\
     shallow (dv_meta v) (dp_h q) /\ m_leaves (dv_meta v) <= dp_h q /\ 1 <= dp_hsize q <= 2147483647) ->
  (2 <= fuel)%nat -> (forall y a b o, is_finite (dv_at v y a b o : f64) = true) ->
  (forall a b, Rsum (fun o => Rsum (fun y => Rabs (dval v a b (y, o))) (zrange 0 (m_leaves (dv_meta v)))) (zrange 0 (dv_osize v)) <= bpow radix2 999)%R ->
  let size q := dp_hsize q * (dp_end q - dp_start q + 1) in
  let over q f := Rsum (fun o => Rsum (fun y => f (y, o)) (leavesof (m_leaves (dv_meta v)) (m_parents (dv_meta v)) (dp_h q))) (zrange (dp_start q) (dp_end q + 1)) in
  let k q := vlen (leavesof (m_leaves (dv_meta v)) (m_parents (dv_meta v)) (dp_h q)) + 2 * (dp_end q - dp_start q + 1) in
  let near q a b sm := near_sum_mean (IZR (k q) * bpow radix2 (-52)) (over q (dval v a b)) (over q (fun xo => Rabs (dval v a b xo))) (size q) sm in
  (dv_dim v = 2 -> exists l, dagg2 (DA lg) fuel x v = Ok l /\ Forall2 (fun q sm => near q 0 0 sm) (dn_parts x) l) /\
  (dv_dim v = 3 -> exists l, dagg3 (DA lg) fuel x v = Ok l /\ Forall2 (fun q r => Forall2 (fun a sm => near q a 0 sm) (zrange 0 I) r) (dn_parts x) l) /\
  (dv_dim v = 4 -> exists l, dagg4 (DA lg) fuel x v = Ok l /\
     Forall2 (fun q r => Forall2 (fun a r => Forall2 (fun b sm => near q a b sm) (zrange 0 J) r) (zrange 0 I) r) (dn_parts x) l).
Proof.
  intros lg v I J x fuel Sh W H2 HL Hn Hp Fu Hf Ht size over k near.
  assert (C : forall q a b, In q (dn_parts x) -> near q a b (sum_mean (DA lg)
    (if dp_h q <? m_leaves (dv_meta v) then seqsum (DA lg) (map (fun _ => n_zero (DA lg)) (zrange (dp_start q) (dp_end q + 1))) else dsum v (dp_h q) (dp_start q) (dp_end q) a b)
    (dp_hsize q * (dp_end q - dp_start q + 1)))).
  { intros q a b Hq. destruct (Hp q Hq) as (_ & P1 & P2 & _ & P3 & P4). destruct (Z.ltb_spec (dp_h q) (m_leaves (dv_meta v))); [lia|].
    unfold near, k, over, size, dsum. pose proof (leaves_len (dv_meta v) (dp_h q) W) as Ll. set (lv := leavesof (m_leaves (dv_meta v)) (m_parents (dv_meta v)) (dp_h q)) in *.
    set (zs := zrange (dp_start q) (dp_end q + 1)). set (AB := fun xo => Rabs (dval v a b xo)).
    assert (Lz : Z.of_nat (length zs) = dp_end q - dp_start q + 1) by (unfold zs; rewrite zrange_length; lia).
    assert (A0 : forall xo, (0 <= AB xo)%R) by (intro; apply Rabs_pos).
    assert (T1 : forall o, (Rsum (fun y => AB (y, o)) lv <= Rsum (fun y => AB (y, o)) (zrange 0 (m_leaves (dv_meta v))))%R).
    { intro o. apply (Rsum_leaves (dv_meta v) (dp_h q) (fun y => AB (y, o))). auto. }
    assert (TT : (Rsum (fun o => Rsum (fun y => AB (y, o)) lv) zs <= bpow radix2 999)%R).
    { eapply Rle_trans; [|exact (Ht a b)]. eapply Rle_trans; [apply Rsum_le; intros o _; apply T1|]. fold AB.
      apply (Rsum_part (fun o => Rsum (fun y => AB (y, o)) (zrange 0 (m_leaves (dv_meta v))))); try lia. intro o. apply Rsum_nonneg. auto. }
    assert (T2 : forall o, In o zs -> (Rsum (fun y => AB (y, o)) lv <= bpow radix2 1000)%R).
    { intros o Ho. apply Rle_trans with (bpow radix2 999); [|apply bpow_le; lia]. eapply Rle_trans; [|exact TT].
      apply (Rsum_in_le _ (fun o => Rsum (fun y => AB (y, o)) lv)); auto. intros o' _. apply Rsum_nonneg. intros; auto. }
    set (e := (IZR (vlen lv) * bpow radix2 (-52))%R).
    assert (E0 : (0 <= e <= / 2)%R).
    { unfold e. split; [apply Rmult_le_pos; [apply IZR_le; unfold vlen; lia|apply bpow_ge_0]|].
      apply Rle_trans with (bpow radix2 31 * bpow radix2 (-52))%R.
      - apply Rmult_le_compat_r; [apply bpow_ge_0|]. change (bpow radix2 31) with (IZR 2147483648). apply IZR_le. unfold vlen. lia.
      - rewrite <- bpow_plus. change (/ 2)%R with (bpow radix2 (-1)). apply bpow_le. lia. }
    destruct (seq_close2 lg Z (fun o => seqsum (DA lg) (map (fun y => dv_at v y a b o) lv)) (fun o => Rsum (fun y => dval v a b (y, o)) lv) (fun o => Rsum (fun y => AB (y, o)) lv) e zs) as [F Ec]; auto.
    - lra.
    - intros o Ho. destruct (seq_close lg Z (fun y => dv_at v y a b o) lv) as [F Ec]; [auto|lia|apply (T2 o Ho)|].
      split; [exact F|]. split; [exact Ec|]. apply Rsum_sub.
    - lia.
    - assert (Ek : (IZR (vlen lv + 2 * (dp_end q - dp_start q + 1)) * bpow radix2 (-52) = e + 2 * (IZR (Z.of_nat (length zs)) * bpow radix2 (-52)))%R).
      { unfold e. rewrite plus_IZR, mult_IZR, Lz. ring. }
      rewrite Ek. apply mean_close; auto.
      + assert (0 <= IZR (Z.of_nat (length zs)) * bpow radix2 (-52) <= / 4)%R; [|lra]. split; [apply Rmult_le_pos; [apply IZR_le; lia|apply bpow_ge_0]|].
        apply Rle_trans with (bpow radix2 16 * bpow radix2 (-52))%R.
        * apply Rmult_le_compat_r; [apply bpow_ge_0|]. change (bpow radix2 16) with (IZR 65536). apply IZR_le. lia.
        * rewrite <- bpow_plus. change (/ 4)%R with (bpow radix2 (-2)). apply bpow_le. lia.
      + split; [apply (Rsum_nonneg Z (fun o => Rsum (fun y => AB (y, o)) lv)); intros o _; apply Rsum_nonneg; intros y _; apply A0|]. eapply Rle_trans; [exact TT|]. apply bpow_le. lia.
      + eapply Rle_trans; [apply Rsum_sub|]. apply Rsum_le. intros o _. apply Rsum_sub.
      + split; [nia|]. apply Z.le_trans with (2147483647 * 65535); [apply Z.mul_le_mono_nonneg; lia|lia]. }
  destruct (C45_spatio (DA lg) v I J x fuel Sh W H2) as (G2 & G3 & G4); auto; try (intros q Hq; destruct (Hp q Hq) as (Q1 & Q2 & Q3 & Q4 & _); auto).
  split; [|split]; intro D.
  - eexists. split; [apply G2; auto|]. apply F2_map. auto.
  - eexists. split; [apply G3; auto|]. apply F2_map. intros q Hq. apply F2_map. auto.
  - eexists. split; [apply G4; auto|]. apply F2_map. intros q Hq. apply F2_map. intros a _. apply F2_map. auto.
Qed.
Print Assumptions C81_spatio.

(** Integer data: exact sums, correctly rounded means. *)
Theorem C81_hier_integers : forall lg (v : hvalues (DA lg)) I J K (x : hpartition (DA lg)) fuel, hv_shaped v I J K -> well_built (hv_meta v) -> 2 <= m_hsize (hv_meta v) ->
  (forall q, In q (hn_parts x) -> node (m_parents (hv_meta v)) (hp_h q) /\ shallow (hv_meta v) (hp_h q) /\ m_leaves (hv_meta v) <= hp_h q /\ 1 <= hp_size q <= 2147483647) ->
  (2 <= fuel)%nat -> (forall y a b c, integer64 (hv_at v y a b c)) ->
  (forall a b c, Rsum (fun y => Rabs (hval v a b c y)) (zrange 0 (m_leaves (hv_meta v))) <= bpow radix2 53)%R ->
  let cells q := leavesof (m_leaves (hv_meta v)) (m_parents (hv_meta v)) (hp_h q) in
  let ex q a b c sm := exact_sum_mean (Rsum (hval v a b c) (cells q)) (hp_size q) sm in
  (hv_dim v = 1 -> exists l, hagg1 (DA lg) fuel x v = Ok l /\ Forall2 (fun q sm => ex q 0 0 0 sm) (hn_parts x) l) /\
  (hv_dim v = 2 -> exists l, hagg2 (DA lg) fuel x v = Ok l /\ Forall2 (fun q r => Forall2 (fun a sm => ex q a 0 0 sm) (zrange 0 I) r) (hn_parts x) l) /\
  (hv_dim v = 3 -> exists l, hagg3 (DA lg) fuel x v = Ok l /\
     Forall2 (fun q r => Forall2 (fun a r => Forall2 (fun b sm => ex q a b 0 sm) (zrange 0 J) r) (zrange 0 I) r) (hn_parts x) l) /\
  (hv_dim v = 4 -> exists l, hagg4 (DA lg) fuel x v = Ok l /\
     Forall2 (fun q r => Forall2 (fun a r => Forall2 (fun b r => Forall2 (fun c sm => ex q a b c sm) (zrange 0 K) r) (zrange 0 J) r) (zrange 0 I) r) (hn_parts x) l).
Proof.
  intros lg v I J K x fuel Sh W H2 Hp Fu Hf Ht cells ex.
  assert (C : forall q a b c, In q (hn_parts x) ->
    ex q a b c (sum_mean (DA lg) (if hp_h q <? m_leaves (hv_meta v) then n_zero (DA lg) else hsum v (hp_h q) a b c) (hp_size q))).
  { intros q a b c Hq. destruct (Hp q Hq) as (_ & _ & P1 & P2). destruct (Z.ltb_spec (hp_h q) (m_leaves (hv_meta v))); [lia|].
    unfold ex, cells, hsum. apply (cell_int lg Z (fun y => hv_at v y a b c)); auto; try lia.
    eapply Rle_trans; [|apply (Ht a b c)]. apply (Rsum_leaves (hv_meta v) (hp_h q) (fun y => Rabs (hval v a b c y))). intro. apply Rabs_pos. }
  destruct (C44_hier (DA lg) v I J K x fuel Sh W H2) as (G1 & G2 & G3 & G4); auto; try (intros q Hq; apply Hp; auto).
  split; [|split; [|split]]; intro D.
  - eexists. split; [apply G1; auto|]. apply F2_map. auto.
  - eexists. split; [apply G2; auto|]. apply F2_map. intros q Hq. apply F2_map. auto.
  - eexists. split; [apply G3; auto|]. apply F2_map. intros q Hq. apply F2_map. intros a _. apply F2_map. auto.
  - eexists. split; [apply G4; auto|]. apply F2_map. intros q Hq. apply F2_map. intros a _. apply F2_map. intros b _. apply F2_map. auto.
Qed.
Print Assumptions C81_hier_integers.

Lemma Rsum_int : forall (X : Type) (f : X -> R) l, (forall y, In y l -> exists z, f y = IZR z) -> exists z, Rsum f l = IZR z.
Proof.
  intros X f l. induction l as [|y l IH]; intro H; [exists 0; apply Rsum_nil|]. destruct (IH ltac:(intros; apply H; right; auto)) as [z Ez].
  destruct (H y ltac:(left; auto)) as [w Ew]. exists (w + z). rewrite Rsum_cons, Ez, Ew, plus_IZR. reflexivity.
Qed.

Theorem C81_spatio_integers : forall lg (v : dvalues (DA lg)) I J (x : dpartition (DA lg)) fuel, dv_shaped v I J -> well_built (dv_meta v) -> 2 <= m_hsize (dv_meta v) ->
  dv_osize v <= 65535 ->
  (forall q, In q (dn_parts x) -> node (m_parents (dv_meta v)) (dp_h q) /\ 0 <= dp_start q <= dp_end q /\ dp_end q < dv_osize v /\
     shallow (dv_meta v) (dp_h q) /\ m_leaves (dv_meta v) <= dp_h q /\ 1 <= dp_hsize q <= 2147483647) ->
  (2 <= fuel)%nat -> (forall y a b o, integer64 (dv_at v y a b o)) ->
  (forall a b, Rsum (fun o => Rsum (fun y => Rabs (dval v a b (y, o))) (zrange 0 (m_leaves (dv_meta v)))) (zrange 0 (dv_osize v)) <= bpow radix2 53)%R ->
  let size q := dp_hsize q * (dp_end q - dp_start q + 1) in
  let over q f := Rsum (fun o => Rsum (fun y => f (y, o)) (leavesof (m_leaves (dv_meta v)) (m_parents (dv_meta v)) (dp_h q))) (zrange (dp_start q) (dp_end q + 1)) in
  let ex q a b sm := exact_sum_mean (over q (dval v a b)) (size q) sm in
  (dv_dim v = 2 -> exists l, dagg2 (DA lg) fuel x v = Ok l /\ Forall2 (fun q sm => ex q 0 0 sm) (dn_parts x) l) /\
  (dv_dim v = 3 -> exists l, dagg3 (DA lg) fuel x v = Ok l /\ Forall2 (fun q r => Forall2 (fun a sm => ex q a 0 sm) (zrange 0 I) r) (dn_parts x) l) /\
  (dv_dim v = 4 -> exists l, dagg4 (DA lg) fuel x v = Ok l /\
     Forall2 (fun q r => Forall2 (fun a r => Forall2 (fun b sm => ex q a b sm) (zrange 0 J) r) (zrange 0 I) r) (dn_parts x) l).
Proof.
  intros lg v I J x fuel Sh W H2 Hn Hp Fu Hf Ht size over ex.
  assert (C : forall q a b, In q (dn_parts x) -> ex q a b (sum_mean (DA lg)
    (if dp_h q <? m_leaves (dv_meta v) then seqsum (DA lg) (map (fun _ => n_zero (DA lg)) (zrange (dp_start q) (dp_end q + 1))) else dsum v (dp_h q) (dp_start q) (dp_end q) a b)
    (dp_hsize q * (dp_end q - dp_start q + 1)))).
  { intros q a b Hq. destruct (Hp q Hq) as (_ & P1 & P2 & _ & P3 & P4). destruct (Z.ltb_spec (dp_h q) (m_leaves (dv_meta v))); [lia|].
    unfold ex, over, size, dsum. set (lv := leavesof (m_leaves (dv_meta v)) (m_parents (dv_meta v)) (dp_h q)) in *.
    set (zs := zrange (dp_start q) (dp_end q + 1)). set (AB := fun xo => Rabs (dval v a b xo)).
    assert (A0 : forall xo, (0 <= AB xo)%R) by (intro; apply Rabs_pos).
    assert (TT : (Rsum (fun o => Rsum (fun y => AB (y, o)) lv) zs <= bpow radix2 53)%R).
    { eapply Rle_trans; [|exact (Ht a b)]. eapply Rle_trans; [apply Rsum_le; intros o _; apply (Rsum_leaves (dv_meta v) (dp_h q) (fun y => AB (y, o))); auto|]. fold AB.
      apply (Rsum_part (fun o => Rsum (fun y => AB (y, o)) (zrange 0 (m_leaves (dv_meta v))))); try lia. intro o. apply Rsum_nonneg. auto. }
    assert (K : forall o, In o zs -> is_finite (seqsum (DA lg) (map (fun y => dv_at v y a b o) lv) : f64) = true /\
      B2R (seqsum (DA lg) (map (fun y => dv_at v y a b o) lv) : f64) = Rsum (fun y => dval v a b (y, o)) lv).
    { intros o Ho. apply (seq_int0 lg Z (fun y => dv_at v y a b o) lv); [auto|]. eapply Rle_trans; [|exact TT].
      apply (Rsum_in_le _ (fun o => Rsum (fun y => AB (y, o)) lv)); auto. intros o' _. apply Rsum_nonneg. intros; auto. }
    assert (Es : Rsum (fun o => B2R (seqsum (DA lg) (map (fun y => dv_at v y a b o) lv) : f64)) zs = Rsum (fun o => Rsum (fun y => dval v a b (y, o)) lv) zs).
    { apply Rsum_ext. intros o Ho. apply K; auto. }
    rewrite <- Es. apply (cell_int lg Z (fun o => seqsum (DA lg) (map (fun y => dv_at v y a b o) lv))).
    - intros o Ho. split; [apply K; auto|]. destruct (Rsum_int Z (fun y => dval v a b (y, o)) lv) as [z Ez].
      { intros y _. destruct (Hf y a b o) as [_ G]. exact G. }
      exists z. etransitivity; [apply K; auto|exact Ez].
    - eapply Rle_trans; [|exact TT]. apply Rsum_le. intros o Ho. destruct (K o Ho) as [_ Ko].
      apply Rle_trans with (Rabs (Rsum (fun y => dval v a b (y, o)) lv)); [right; f_equal; exact Ko|apply Rsum_sub].
    - split; [nia|]. apply Z.le_trans with (2147483647 * 65535); [apply Z.mul_le_mono_nonneg; lia|lia]. }
  destruct (C45_spatio (DA lg) v I J x fuel Sh W H2) as (G2 & G3 & G4); auto; try (intros q Hq; destruct (Hp q Hq) as (Q1 & Q2 & Q3 & Q4 & _); auto).
  split; [|split]; intro D.
  - eexists. split; [apply G2; auto|]. apply F2_map. auto.
  - eexists. split; [apply G3; auto|]. apply F2_map. intros q Hq. apply F2_map. auto.
  - eexists. split; [apply G4; auto|]. apply F2_map. intros q Hq. apply F2_map. intros a _. apply F2_map. auto.
Qed.
Print Assumptions C81_spatio_integers.

(** ** C81: the reported sums of the parts of any partition of the time axis add up to the total of the component, up to n 2^-52. *)
Theorem C81_total : forall lg (v : ovalues (DA lg)) l a b c, 0 <= ov_osize v <= 65535 -> tiles 0 (ov_osize v) l ->
  (forall o, is_finite (ov_at v a b c o : f64) = true) ->
  (Rsum (fun o => Rabs (oval v a b c o)) (zrange 0 (ov_osize v)) <= bpow radix2 1000)%R ->
  (Rabs (Rsum (fun se => B2R (osum v (fst se) (snd se) a b c : f64)) l - Rsum (oval v a b c) (zrange 0 (ov_osize v))) <=
   IZR (ov_osize v) * bpow radix2 (-52) * Rsum (fun o => Rabs (oval v a b c o)) (zrange 0 (ov_osize v)))%R.
Proof.
  intros lg v l a b c Hn T Hf Ht. set (n := ov_osize v) in *. set (f := oval v a b c). set (g := fun o => Rabs (f o)).
  assert (G0 : forall o, (0 <= g o)%R) by (intro; apply Rabs_pos).
  assert (K : forall s m l, tiles s m l -> 0 <= s -> m = n -> s <= n ->
    (Rabs (Rsum (fun se => B2R (osum v (fst se) (snd se) a b c : f64)) l - Rsum f (zrange s n)) <= IZR n * bpow radix2 (-52) * Rsum g (zrange s n))%R).
  { clear T l. intros s m l T. induction T as [m|s e m r Hse T IH]; intros Hs Em Hsn; subst m.
    - rewrite zrange_empty by lia. rewrite !Rsum_nil, Rminus_diag_eq, Rabs_R0, Rmult_0_r by auto. lra.
    - assert (Hen : e + 1 <= n) by lia. specialize (IH ltac:(lia) eq_refl Hen). rewrite (zrange_app s (e + 1) n), !Rsum_app, Rsum_cons by lia. cbn [fst snd].
      set (z1 := zrange s (e + 1)) in *. set (z2 := zrange (e + 1) n) in *. set (q := Rsum _ r) in *.
      assert (L1 : Z.of_nat (length z1) = e + 1 - s) by (unfold z1; rewrite zrange_length; lia).
      destruct (seq_close lg Z (ov_at v a b c) z1) as [F E]; auto; try lia.
      { eapply Rle_trans; [|exact Ht]. apply (Rsum_part g); auto; lia. }
      change (Rsum (fun y => B2R (ov_at v a b c y : f64)) z1) with (Rsum f z1) in E. change (Rsum (fun y => Rabs (B2R (ov_at v a b c y : f64))) z1) with (Rsum g z1) in E.
      change (seqsum (DA lg) (map (ov_at v a b c) z1)) with (osum v s e a b c) in E. set (w := B2R (osum v s e a b c : f64)) in *.
      replace (w + q - (Rsum f z1 + Rsum f z2))%R with ((w - Rsum f z1) + (q - Rsum f z2))%R by ring. eapply Rle_trans; [apply Rabs_triang|].
      rewrite Rmult_plus_distr_l. apply Rplus_le_compat; [|exact IH]. eapply Rle_trans; [exact E|].
      apply Rmult_le_compat_r; [apply Rsum_nonneg; auto|]. apply Rmult_le_compat_r; [apply bpow_ge_0|]. apply IZR_le. lia. }
  apply (K 0 n l); auto; lia.
Qed.
Print Assumptions C81_total.
