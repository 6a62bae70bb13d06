(** * Proofs about ordered qualities computed from data: range, normalisation, extremes, scaling, history. *)
From Coq Require Import Reals Lra Lia.
From Verif Require Import Base BaseFacts Arith Quality Utm UtmFacts UtmProofs Hierarchy SpecTree SpecParts SpecInfo SpecData Values
  Qualities Partitions Partitioners OQual OInfo InfoFacts DataFacts NormFacts OReal OProofs LexR OFacts Sim.

Lemma urepr_unique : forall X (u u' : utm X) n f, urepr u n f -> urepr u' n f -> u = u'.
Proof.
  intros X [s e d] [s' e' d'] n f R R'. pose proof R as (Hn & Hs & He & Hl & _). pose proof R' as (_ & Hs' & He' & Hl' & _).
  cbn [u_size u_elements u_data] in *. f_equal; try congruence. apply vget_ext; [congruence|]. intros i Hi. rewrite Hl in Hi.
  destruct (tidx_surj n i (proj1 Hn) Hi) as (a & b & Ha & Hb & <-).
  pose proof (urepr_at _ _ _ _ a b R Ha Hb) as E1. pose proof (urepr_at _ _ _ _ a b R' Ha Hb) as E2.
  cbn [u_data] in E1, E2. rewrite E1, E2. auto.
Qed.

Lemma mrepr_unique : forall X (t t' : list (utm X)) H n f, mrepr t H n f -> mrepr t' H n f -> t = t'.
Proof.
  intros X t t' H n f [L R] [L' R']. apply vget_ext; [lia|]. intros h Hh.
  destruct (R h ltac:(lia)) as (u & E & U). destruct (R' h ltac:(lia)) as (u' & E' & U'). rewrite E, E'.
  f_equal. eapply urepr_unique; eauto.
Qed.

(** ** Normalisation (any arithmetic) *)
Section N.
Context (A : arith).

Lemma oq_normalize_ok : forall v t n f, urepr t n f -> 0 < n -> ov_osize v = n ->
  exists t', oq_normalize A (mkOQ A (Some v) (Some t)) = Ok (mkOQ A (Some v) (Some t')) /\
    urepr t' n (fun i j => q_div A (f i j) (f 0 (n - 1))).
Proof.
  intros v t n f R Hn Ev. unfold oq_normalize. cbn [oq_table oq_values]. rewrite Ev.
  rewrite (urepr_get _ _ _ _ 0 (n - 1) R) by lia. cbn [bind].
  destruct (u_normalize_ok A t n f R Hn) as (t' & E & R'). rewrite E. cbn [bind]. eauto.
Qed.

Lemma o_normalize_prf : forall v (t : utm (quality A)) n mx, 1 <= n <= 65535 -> utm_shape t n -> ov_osize v = n ->
  u_get t 0 (n - 1) = Ok mx ->
  exists t', oq_normalize A (mkOQ A (Some v) (Some t)) = Ok (mkOQ A (Some v) (Some t')) /\ utm_shape t' n /\
    forall i j q, 0 <= i <= j -> j < n -> u_get t i j = Ok q ->
      u_get t' i j = Ok (mkQ (n_div A (gain q) (gain mx)) (n_div A (loss q) (loss mx))).
Proof.
  intros v t n mx Hn S Ev Em. destruct (shape_repr _ t n ltac:(lia) S (q_zero A)) as [f R].
  destruct (oq_normalize_ok v t n f R ltac:(lia) Ev) as (t' & E & R'). exists t'. split; auto. split; [eapply repr_shape; eauto|].
  intros i j q Hi Hj Eq. rewrite (urepr_get _ _ _ _ i j R') by lia. rewrite (urepr_get _ _ _ _ i j R) in Eq by lia.
  rewrite (urepr_get _ _ _ _ 0 (n - 1) R) in Em by lia. inversion Eq; inversion Em; subst. auto.
Qed.

(** History *)
Definition oq_call (c : qcall) (o : oqual A) : res (oqual A) :=
  match c with Compute => oq_compute A o | Normalize => oq_normalize A o end.

Lemma oq_call_values : forall c o o', oq_call c o = Ok o' -> oq_values o' = oq_values o.
Proof.
  intros [] o o' H; cbn [oq_call] in H.
  - unfold oq_compute in H. destruct (oq_values o) eqn:E; [|inversion H; subst; auto].
    destruct (oq_computeTable A o0); cbn [bind] in H; inversion H; auto.
  - unfold oq_normalize in H. destruct (oq_table o); [|discriminate]. destruct (oq_values o) eqn:E; [|discriminate].
    destruct (u_get u 0 (ov_osize o0 - 1)); cbn [bind] in H; try discriminate.
    destruct (u_normalize A u _); cbn [bind] in H; inversion H; auto.
Qed.

Lemma oq_history_prf : forall v cs o, mfold oq_call cs (oq_ofValues A v) = Ok o -> oq_compute A o = oq_compute A (oq_ofValues A v).
Proof.
  intros v cs. assert (G : forall o o', mfold oq_call cs o = Ok o' -> oq_values o' = oq_values o).
  { induction cs as [|c cs IH]; intros o o' H; cbn [mfold] in H; [inversion H; auto|].
    destruct (oq_call c o) as [o1| |] eqn:E; cbn [bind] in H; try discriminate. rewrite (IH _ _ H). eapply oq_call_values; eauto. }
  intros o H. apply G in H. unfold oq_compute. rewrite H. reflexivity.
Qed.
End N.

(** ** Real arithmetic *)
Section R.
Context (P : params).
Notation A := (RP P).

Lemma otable_repr : forall (t : utm (quality A)) n rows, 0 <= n <= 65535 -> otable t n rows ->
  urepr t n (fun i j => @mkQ A (ogain rows i j) (oloss rows i j)).
Proof.
  intros t n rows Hn [S H]. destruct (shape_repr _ t n Hn S (q_zero A)) as [f R].
  eapply urepr_ext; [exact R|]. intros i j Hi Hj. pose proof (urepr_get _ _ _ _ i j R Hi Hj) as E. rewrite H in E by auto. congruence.
Qed.

(** The general situation behind the extreme parameters: a table with entries (G,L). *)
Lemma o_total : forall (t : utm (quality A)) n (G L : Z -> Z -> R) p x, 0 <= n <= 65535 ->
  urepr t n (fun i j => @mkQ A (G i j) (L i j)) -> o_best A t p = Ok x ->
  tiles 0 n (ocoords x) /\ gain (on_quality x) = Rsum (fun ab => G (fst ab) (snd ab)) (ocoords x) /\
  loss (on_quality x) = Rsum (fun ab => L (fst ab) (snd ab)) (ocoords x).
Proof.
  intros t n G L p x Hn R E. destruct (o_best_ok A t n _ p R) as (y & C & T & l & Ey & Ep & O & _ & _ & Eq & _).
  rewrite E in Ey. inversion Ey; subst y. unfold ocoords. rewrite Ep, coords_mkopart. split; [eapply ochain_tiles; eauto; lia|].
  rewrite Eq. rewrite sum_quality_qsum. destruct (qsum_Rsum P (map (fun ab => @mkQ A (G (fst ab) (snd ab)) (L (fst ab) (snd ab))) l)) as [E1 E2].
  rewrite E1, E2, !Rsum_map. auto.
Qed.

Lemma o_no_better : forall (t : utm (quality A)) n (G L : Z -> Z -> R) p x l, 0 <= n <= 65535 ->
  urepr t n (fun i j => @mkQ A (G i j) (L i j)) -> o_best A t p = Ok x -> tiles 0 n l ->
  no_better (pp_num P p) (pp_num P (pp_compl P p)) (gain (on_quality x)) (loss (on_quality x))
    (Rsum (fun ab => G (fst ab) (snd ab)) l) (Rsum (fun ab => L (fst ab) (snd ab)) l).
Proof.
  intros t n G L p x l Hn R E T.
  pose proof (o_optimal_prf P t n p x l _ Hn (repr_shape _ _ _ _ R) E T
    (mmap_urepr A t n _ l R (tiles_In 0 n l T))) as K. rewrite !Rsum_map in K. exact K.
Qed.

Lemma tiles_singles : forall n, 0 <= n -> forall i, 0 <= i <= n -> tiles i n (map (fun k => (k, k)) (zrange i n)).
Proof.
  intros n Hn i Hi. remember (Z.to_nat (n - i)) as k eqn:Ek. revert i Hi Ek. induction k as [|k IH]; intros i Hi Ek.
  - assert (i = n) by lia. subst. rewrite zrange_empty by lia. constructor.
  - rewrite zrange_cons by lia. cbn [map]. constructor; [lia|]. apply IH; lia.
Qed.

Lemma o_extreme0 : forall (t : utm (quality A)) n (G L : Z -> Z -> R) p x, 0 <= n <= 65535 ->
  urepr t n (fun i j => @mkQ A (G i j) (L i j)) -> o_best A t p = Ok x -> pp_num P p = 0%R -> pp_num P (pp_compl P p) = 1%R ->
  (forall i j, 0 <= i <= j -> j < n -> (0 <= L i j)%R) -> (forall i, 0 <= i < n -> L i i = 0%R) ->
  loss (on_quality x) = 0%R /\
  forall l, tiles 0 n l -> Rsum (fun ab => L (fst ab) (snd ab)) l = 0%R -> (Rsum (fun ab => G (fst ab) (snd ab)) l <= gain (on_quality x))%R.
Proof.
  intros t n G L p x Hn R E P0 P1 HL HD. destruct (o_total t n G L p x Hn R E) as (T & _ & EL).
  assert (L0 : (0 <= loss (on_quality x))%R).
  { rewrite EL. apply Rsum_nonneg. intros [a b] K. destruct (tiles_In 0 n _ T a b K). apply HL; cbn [fst snd]; lia. }
  assert (Hz : loss (on_quality x) = 0%R).
  { pose proof (o_no_better t n G L p x _ Hn R E (tiles_singles n (proj1 Hn) 0 ltac:(lia))) as K.
    rewrite (Rsum_zero _ (fun ab => L (fst ab) (snd ab))) in K.
    - rewrite P0, P1 in K. unfold no_better in K. apply Rle_antisym; [|exact L0].
      change (num (RP P)) with Rdefinitions.R in *. destruct K as [K|[K _]]; lra.
    - intros ab K2. apply in_map_iff in K2. destruct K2 as (k & <- & Hk). apply In_zrange in Hk. cbn [fst snd]. apply HD; lia. }
  split; auto. intros l Tl El. pose proof (o_no_better t n G L p x l Hn R E Tl) as K. rewrite El, Hz, P0, P1 in K.
  unfold no_better in K. change (num (RP P)) with Rdefinitions.R in *. lra.
Qed.

Lemma o_extreme1 : forall (t : utm (quality A)) n (G L : Z -> Z -> R) p x, 1 <= n <= 65535 ->
  urepr t n (fun i j => @mkQ A (G i j) (L i j)) -> o_best A t p = Ok x -> pp_num P p = 1%R -> pp_num P (pp_compl P p) = 0%R ->
  (forall l, tiles 0 n l -> (Rsum (fun ab => G (fst ab) (snd ab)) l <= G 0%Z (n - 1)%Z)%R) ->
  gain (on_quality x) = G 0 (n - 1).
Proof.
  intros t n G L p x Hn R E P0 P1 HG. destruct (o_total t n G L p x ltac:(lia) R E) as (T & EG & _).
  pose proof (HG _ T) as K. rewrite <- EG in K.
  assert (T1 : tiles 0 n [(0, n - 1)]). { constructor; [lia|]. replace (n - 1 + 1) with n by lia. constructor. }
  pose proof (o_no_better t n G L p x _ ltac:(lia) R E T1) as K2. unfold Rsum in K2. cbn [map fold_right fst snd] in K2.
  rewrite P0, P1 in K2. unfold no_better in K2. change (num (RP P)) with Rdefinitions.R in *. lra.
Qed.

(** Everything for computed data. *)
Variables (v : ovalues A) (rows : list (list R)).
Hypothesis D : odata_ok v rows.
Notation n := (ov_osize v).

Lemma o_compute_data : exists t, oq_compute A (oq_ofValues A v) = Ok (mkOQ A (Some v) (Some t)) /\ otable t n rows.
Proof. destruct D as (Hv & Hn & Hr). apply o_compute_prf; auto. Qed.

Lemma D_n : 0 <= n <= 65535. Proof. apply D. Qed.
Lemma D_len : Forall (fun r : list R => vlen r = n) rows. Proof. apply D. Qed.

Lemma oloss_diag : forall i, 0 <= i < n -> ogain rows i i = 0%R /\ oloss rows i i = 0%R.
Proof.
  intros i Hi. unfold ogain, oloss. split; apply Rsum_zero; intros r Hr;
    (assert (Hl : vlen r = n) by exact (proj1 (Forall_forall _ _) D_len r Hr);
     rewrite (slice_one R 0%R) by (rewrite Hl; lia)); [apply gain_of_single|apply loss_of_single].
Qed.

Hypothesis NN : Forall nonneg rows.

Lemma o_whole : forall l, tiles 0 n l ->
  (Rsum (fun ab => ogain rows (fst ab) (snd ab)) l <= ogain rows 0 (n - 1))%R /\
  (Rsum (fun ab => oloss rows (fst ab) (snd ab)) l <= oloss rows 0 (n - 1))%R.
Proof.
  intros l T. apply (otiles_gain rows n D_len NN); try lia. replace (n - 1 + 1) with n by lia. auto.
Qed.

Lemma o_part_whole : forall i j, 0 <= i <= j -> j < n ->
  (ogain rows i j <= ogain rows 0 (n - 1))%R /\ (oloss rows i j <= oloss rows 0 (n - 1))%R.
Proof.
  intros i j Hi Hj. assert (T : tiles 0 n (map (fun k => (k, k)) (zrange 0 i) ++ (i, j) :: map (fun k => (k, k)) (zrange (j + 1) n))).
  { assert (G : forall k, 0 <= k <= i -> tiles k n (map (fun k => (k, k)) (zrange k i) ++ (i, j) :: map (fun k => (k, k)) (zrange (j + 1) n))).
    { intros k Hk. remember (Z.to_nat (i - k)) as d eqn:Ed. revert k Hk Ed. induction d as [|d IH]; intros k Hk Ed.
      - assert (k = i) by lia. subst k. rewrite zrange_empty by lia. cbn [map app]. constructor; [lia|]. apply tiles_singles; lia.
      - rewrite zrange_cons by lia. cbn [map app]. constructor; [lia|]. apply IH; lia. }
    apply G. lia. }
  destruct (o_whole _ T) as [K1 K2]. rewrite Rsum_app, Rsum_cons in K1, K2. cbn [fst snd] in K1, K2.
  assert (Z1 : forall l, (0 <= Rsum (fun ab : Z * Z => ogain rows (fst ab) (snd ab)) l)%R).
  { intro l. apply Rsum_nonneg. intros. eapply ogain_nonneg; [apply D_len|auto]. }
  assert (Z2 : forall l, (0 <= Rsum (fun ab : Z * Z => oloss rows (fst ab) (snd ab)) l)%R).
  { intro l. apply Rsum_nonneg. intros. eapply oloss_nonneg; [apply D_len|auto]. }
  pose proof (Z1 (map (fun k => (k, k)) (zrange 0 i))). pose proof (Z1 (map (fun k => (k, k)) (zrange (j + 1) n))).
  pose proof (Z2 (map (fun k => (k, k)) (zrange 0 i))). pose proof (Z2 (map (fun k => (k, k)) (zrange (j + 1) n))). lra.
Qed.
End R.

(** ** Normalised tables and scaling *)
Section T.
Context (P : params).
Notation A := (RP P).

Lemma otable_norm_repr : forall (t : utm (quality A)) n rows, 0 <= n <= 65535 -> otable_norm t n rows ->
  urepr t n (fun i j => @mkQ A (ogain rows i j / ogain rows 0 (n - 1))%R (oloss rows i j / oloss rows 0 (n - 1))%R).
Proof.
  intros t n rows Hn [S H]. destruct (shape_repr _ t n Hn S (q_zero A)) as [f R].
  eapply urepr_ext; [exact R|]. intros i j Hi Hj. pose proof (urepr_get _ _ _ _ i j R Hi Hj) as E. rewrite H in E by auto. congruence.
Qed.

Lemma o_normalized : forall (v : ovalues A) rows t, odata_ok v rows -> 1 <= ov_osize v -> otable t (ov_osize v) rows ->
  exists t', oq_normalize A (mkOQ A (Some v) (Some t)) = Ok (mkOQ A (Some v) (Some t')) /\ otable_norm t' (ov_osize v) rows.
Proof.
  intros v rows t D Hn T. pose proof (D_n P v rows D) as B. pose proof (otable_repr P t _ rows B T) as R.
  destruct (oq_normalize_ok A v t _ _ R ltac:(lia) eq_refl) as (t' & E & R'). exists t'. split; auto.
  split; [eapply repr_shape; eauto|]. intros i j Hi Hj. rewrite (urepr_get _ _ _ _ i j R') by auto. reflexivity.
Qed.

Lemma ratio_range : forall a b : R, (0 <= a <= b)%R -> (b <> 0)%R -> (0 <= a / b <= 1)%R.
Proof.
  intros a b [H1 H2] H3. assert (0 < b)%R by lra. split.
  - apply Rmult_le_pos; auto. left. apply Rinv_0_lt_compat; auto.
  - apply (Rmult_le_reg_r b); auto. unfold Rdiv. rewrite Rmult_assoc, Rinv_l by auto. lra.
Qed.

Lemma o_norm_range : forall (v : ovalues A) rows, odata_ok v rows -> Forall nonneg rows ->
  (ogain rows 0 (ov_osize v - 1) <> 0)%R -> (oloss rows 0 (ov_osize v - 1) <> 0)%R ->
  forall i j, 0 <= i <= j -> j < ov_osize v ->
  (0 <= ogain rows i j / ogain rows 0 (ov_osize v - 1) <= 1)%R /\ (0 <= oloss rows i j / oloss rows 0 (ov_osize v - 1) <= 1)%R.
Proof.
  intros v rows D NN G0 L0 i j Hi Hj. pose proof (D_len P v rows D) as HL.
  destruct (o_part_whole P v rows D NN i j Hi Hj) as [K1 K2].
  split; apply ratio_range; auto; split; auto; [eapply ogain_nonneg|eapply oloss_nonneg]; eauto.
Qed.

(** Extremes *)
Lemma o_zero_data : forall (v : ovalues A) rows t p x, odata_ok v rows -> Forall nonneg rows -> otable t (ov_osize v) rows ->
  o_best A t p = Ok x -> pp_num P p = 0%R -> pp_num P (pp_compl P p) = 1%R ->
  loss (on_quality x) = 0%R /\
  forall l, tiles 0 (ov_osize v) l -> Rsum (fun ab => oloss rows (fst ab) (snd ab)) l = 0%R ->
    (Rsum (fun ab => ogain rows (fst ab) (snd ab)) l <= gain (on_quality x))%R.
Proof.
  intros v rows t p x D NN T E P0 P1. pose proof (D_n P v rows D) as B.
  apply (o_extreme0 P t _ _ _ p x B (otable_repr P t _ rows B T)); auto.
  - intros i j _ _. eapply oloss_nonneg; [apply (D_len P v rows D)|auto].
  - intros i Hi. apply (oloss_diag P v rows D); auto.
Qed.

Lemma o_one_data : forall (v : ovalues A) rows t p x, odata_ok v rows -> Forall nonneg rows -> 1 <= ov_osize v -> otable t (ov_osize v) rows ->
  o_best A t p = Ok x -> pp_num P p = 1%R -> pp_num P (pp_compl P p) = 0%R ->
  gain (on_quality x) = ogain rows 0 (ov_osize v - 1).
Proof.
  intros v rows t p x D NN Hn T E P0 P1. pose proof (D_n P v rows D) as B.
  apply (o_extreme1 P t (ov_osize v) _ _ p x ltac:(lia) (otable_repr P t _ rows B T)); auto.
  intros l Tl. apply (o_whole P v rows D NN); auto.
Qed.

Lemma Rsum_div : forall X (f : X -> R) c l, Rsum (fun x => f x / c)%R l = (Rsum f l / c)%R.
Proof.
  intros X f c l. unfold Rdiv. rewrite (Rmult_comm (Rsum f l)). rewrite <- Rsum_scal. apply Rsum_ext. intros. apply Rmult_comm.
Qed.

Lemma o_zero_norm : forall (v : ovalues A) rows t p x, odata_ok v rows -> Forall nonneg rows -> otable_norm t (ov_osize v) rows ->
  (ogain rows 0 (ov_osize v - 1) <> 0)%R -> (oloss rows 0 (ov_osize v - 1) <> 0)%R ->
  o_best A t p = Ok x -> pp_num P p = 0%R -> pp_num P (pp_compl P p) = 1%R ->
  loss (on_quality x) = 0%R /\
  forall l, tiles 0 (ov_osize v) l -> Rsum (fun ab => oloss rows (fst ab) (snd ab)) l = 0%R ->
    (Rsum (fun ab => ogain rows (fst ab) (snd ab)) l <= gain (on_quality x) * ogain rows 0 (ov_osize v - 1))%R.
Proof.
  intros v rows t p x D NN T G0 L0 E P0 P1. pose proof (D_n P v rows D) as B. pose proof (D_len P v rows D) as HL.
  destruct (o_extreme0 P t _ _ _ p x B (otable_norm_repr t _ rows B T) E P0 P1) as [K1 K2].
  - intros i j Hi Hj. apply (o_norm_range v rows D NN G0 L0 i j Hi Hj).
  - intros i Hi. rewrite (proj2 (oloss_diag P v rows D i Hi)). unfold Rdiv. ring.
  - split; auto. intros l Tl El. specialize (K2 l Tl).
    rewrite (Rsum_div _ (fun ab => oloss rows (fst ab) (snd ab))), (Rsum_div _ (fun ab => ogain rows (fst ab) (snd ab))), El in K2.
    specialize (K2 ltac:(unfold Rdiv; ring)). assert (0 <= ogain rows 0 (ov_osize v - 1))%R by (eapply ogain_nonneg; eauto).
    apply (Rmult_le_compat_r (ogain rows 0 (ov_osize v - 1))) in K2; auto.
    unfold Rdiv in K2. rewrite Rmult_assoc, Rinv_l, Rmult_1_r in K2 by auto. exact K2.
Qed.

Lemma o_one_norm : forall (v : ovalues A) rows t p x, odata_ok v rows -> Forall nonneg rows -> 1 <= ov_osize v -> otable_norm t (ov_osize v) rows ->
  (ogain rows 0 (ov_osize v - 1) <> 0)%R ->
  o_best A t p = Ok x -> pp_num P p = 1%R -> pp_num P (pp_compl P p) = 0%R -> gain (on_quality x) = 1%R.
Proof.
  intros v rows t p x D NN Hn T G0 E P0 P1. pose proof (D_n P v rows D) as B. pose proof (D_len P v rows D) as HL.
  rewrite (o_extreme1 P t (ov_osize v) _ _ p x ltac:(lia) (otable_norm_repr t _ rows B T) E P0 P1).
  - unfold Rdiv. apply Rinv_r; auto.
  - intros l Tl. rewrite (Rsum_div _ (fun ab => ogain rows (fst ab) (snd ab))).
    assert (0 <= ogain rows 0 (ov_osize v - 1))%R by (eapply ogain_nonneg; eauto).
    unfold Rdiv. apply Rmult_le_compat_r; [left; apply Rinv_0_lt_compat; lra|]. apply (o_whole P v rows D NN); auto.
Qed.

(** Idempotence *)
Lemma oq_normalize_twice_prf : forall (v : ovalues A) (t : utm (quality A)) n mx o, 1 <= n <= 65535 -> utm_shape t n -> ov_osize v = n ->
  u_get t 0 (n - 1) = Ok mx -> (gain mx <> 0)%R -> (loss mx <> 0)%R ->
  oq_normalize A (mkOQ A (Some v) (Some t)) = Ok o -> oq_normalize A o = Ok o.
Proof.
  intros v t n mx o Hn S Ev Em Hg Hl E. destruct (shape_repr _ t n ltac:(lia) S (q_zero A)) as [f R].
  destruct (oq_normalize_ok A v t n f R ltac:(lia) Ev) as (t' & E' & R'). rewrite E in E'. inversion E'; subst o.
  destruct (oq_normalize_ok A v t' n _ R' ltac:(lia) Ev) as (t2 & E2 & R2). rewrite E2. f_equal. f_equal. f_equal.
  eapply urepr_unique; [exact R2|]. eapply urepr_ext; [exact R'|]. intros i j Hi Hj. unfold q_div. cbn [gain loss RP n_div].
  rewrite (urepr_get _ _ _ _ 0 (n - 1) R) in Em by lia. inversion Em; subst mx. f_equal; change (num (RP P)) with Rdefinitions.R in *; field; auto.
Qed.

(** Scaling *)
Definition tscale (c : R) (t : tradeoff A) : tradeoff A :=
  @mkT A (@mkQ A (c * gain (t_quality t))%R (c * loss (t_quality t))%R) (c * t_value t)%R.

Lemma tscale_set : forall c g l p, tscale c (t_set A (@mkQ A g l) p) = t_set A (@mkQ A (c * g)%R (c * l)%R) p.
Proof. intros. unfold tscale, t_set, pic. cbn. f_equal. ring. Qed.

Lemma Rltb_scale : forall c a b, (0 < c)%R -> Rltb (c * a) (c * b) = Rltb a b.
Proof.
  intros c a b Hc. unfold Rltb. destruct (Rlt_dec (c * a) (c * b)) as [H|H], (Rlt_dec a b) as [H'|H']; auto; exfalso.
  - apply H'. eapply Rmult_lt_reg_l; eauto.
  - apply H. apply Rmult_lt_compat_l; auto.
Qed.
Lemma Reqb_scale : forall c a b, (0 < c)%R -> Reqb (c * a) (c * b) = Reqb a b.
Proof.
  intros c a b Hc. unfold Reqb. destruct (Req_EM_T (c * a) (c * b)) as [H|H], (Req_EM_T a b) as [H'|H']; auto; exfalso.
  - apply H'. eapply Rmult_eq_reg_l; eauto. lra.
  - subst; auto.
Qed.

Lemma tscale_hom : forall c, (0 < c)%R -> thom A A (tscale c).
Proof.
  intros c Hc. constructor.
  - intros [[g l] v] [[g' l'] v']. unfold tscale, t_add, q_add. cbn. f_equal; [f_equal|]; ring.
  - unfold tscale, t_zero, q_zero. cbn. f_equal; [f_equal|]; ring.
  - intros [[g l] v] [[g' l'] v']. unfold tscale, t_gtb. cbn. rewrite !Rltb_scale, !Reqb_scale by auto. auto.
  - intros [[g l] v] [[g' l'] v']. unfold tscale, t_ltb, t_gtb, t_eqb. cbn. rewrite !Rltb_scale, !Reqb_scale by auto. auto.
Qed.

Lemma o_scaled_best : forall (t t' : utm (quality A)) n (G L : Z -> Z -> R) c p x x', (0 < c)%R ->
  urepr t n (fun i j => @mkQ A (G i j) (L i j)) -> urepr t' n (fun i j => @mkQ A (c * G i j)%R (c * L i j)%R) ->
  o_best A t p = Ok x -> o_best A t' p = Ok x' -> ocoords x' = ocoords x.
Proof.
  intros t t' n G L c p x x' Hc R R' E E'.
  refine (o_sim A A (tscale c) (tscale_hom c Hc) p p n _ _ _ t t' x x' R R' E E').
  intros i j Hi Hj. apply tscale_set.
Qed.

Lemma slice_map : forall X Y (f : X -> Y) r i j, slice (map f r) i j = map f (slice r i j).
Proof. intros. unfold slice. rewrite skipn_map, firstn_map. auto. Qed.

Lemma ogain_scaled : forall c rows i j, (0 < c)%R -> Forall nonneg rows ->
  ogain (scaled c rows) i j = (c * ogain rows i j)%R /\ oloss (scaled c rows) i j = (c * oloss rows i j)%R.
Proof.
  intros c rows i j Hc NN. unfold ogain, oloss, scaled. rewrite !Rsum_map, <- !Rsum_scal.
  split; apply Rsum_ext; intros r Hr; rewrite slice_map; (assert (nonneg (slice r i j)) by (apply nonneg_slice; exact (proj1 (Forall_forall _ _) NN r Hr)));
    [apply gain_scal|apply loss_scal]; auto.
Qed.

Lemma o_scaled_table : forall (t t' : utm (quality A)) n rows c, 0 <= n <= 65535 -> (0 < c)%R -> Forall nonneg rows ->
  otable t n rows -> otable t' n (scaled c rows) ->
  urepr t n (fun i j => @mkQ A (ogain rows i j) (oloss rows i j)) /\
  urepr t' n (fun i j => @mkQ A (c * ogain rows i j)%R (c * oloss rows i j)%R).
Proof.
  intros t t' n rows c Hn Hc NN T T'. split; [apply otable_repr; auto|].
  eapply urepr_ext; [apply (otable_repr P t' n (scaled c rows) Hn T')|]. intros i j Hi Hj.
  destruct (ogain_scaled c rows i j Hc NN) as [-> ->]. auto.
Qed.

Lemma o_scaled_norm : forall (t t' : utm (quality A)) n rows c, 0 <= n <= 65535 -> (0 < c)%R -> Forall nonneg rows ->
  (ogain rows 0 (n - 1) <> 0)%R -> (oloss rows 0 (n - 1) <> 0)%R ->
  otable_norm t n rows -> otable_norm t' n (scaled c rows) -> t' = t.
Proof.
  intros t t' n rows c Hn Hc NN G0 L0 T T'. eapply urepr_unique; [apply (otable_norm_repr t' n _ Hn T')|].
  eapply urepr_ext; [apply (otable_norm_repr t n _ Hn T)|]. intros i j Hi Hj. cbv beta.
  destruct (ogain_scaled c rows i j Hc NN) as [-> ->]. destruct (ogain_scaled c rows 0 (n - 1) Hc NN) as [-> ->].
  f_equal; change (num (RP P)) with Rdefinitions.R in *; field; split; auto; lra.
Qed.
End T.
