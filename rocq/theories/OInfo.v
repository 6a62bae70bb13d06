(** * Ordered qualities in exact arithmetic. *)
From Coq Require Import Reals Lra Lia Permutation.
From Verif Require Import Base BaseFacts Arith Quality Utm UtmFacts UtmProofs Hierarchy SpecTree SpecParts SpecInfo SpecData
  InfoFacts Values Qualities LexR OQual.

Lemma mmap_length : forall I Y (f : I -> res Y) l ys, mmap f l = Ok ys -> length ys = length l.
Proof. intros I Y f l ys H. apply mmap_Forall2 in H. symmetry. revert ys H; induction l as [|x l IH]; intros ys H; inversion H; subst; simpl; auto. Qed.

Lemma mmap_nth : forall I Y (f : I -> res Y) l ys k x, mmap f l = Ok ys -> nth_error l k = Some x ->
  exists y, nth_error ys k = Some y /\ f x = Ok y.
Proof.
  intros I Y f l ys k x H. apply mmap_Forall2 in H. revert k. induction H as [|a b l ys E H IH]; intros [|k] Hk; simpl in *; try discriminate.
  - inversion Hk; subst. eauto.
  - apply IH; auto.
Qed.

Lemma mmap_zrange : forall Y (f : Z -> res Y) n ys d, 0 <= n -> mmap f (zrange 0 n) = Ok ys ->
  vlen ys = n /\ (forall k, 0 <= k < n -> f k = Ok (elt d ys k)) /\ ys = map (elt d ys) (zrange 0 n).
Proof.
  intros Y f n ys d Hn H. assert (Hl : vlen ys = n). { unfold vlen. rewrite (mmap_length _ _ _ _ _ H), zrange_length. lia. }
  assert (K : forall k, 0 <= k < n -> f k = Ok (elt d ys k)).
  { intros k Hk. assert (E : vget (zrange 0 n) k = Ok k) by (rewrite vget_zrange by lia; f_equal; lia).
    apply vget_nth in E. destruct E as [_ E]. destruct (mmap_nth _ _ _ _ _ _ _ H E) as [y [E1 E2]].
    rewrite E2. f_equal. unfold elt. symmetry. apply nth_error_nth; auto. }
  split; auto. split; auto. assert (E : mmap f (zrange 0 n) = Ok (map (elt d ys) (zrange 0 n))).
  { apply mmap_map. intros x Hx. apply K. apply In_zrange in Hx; auto. }
  congruence.
Qed.

Lemma elt_vget : forall X (d : X) l i, 0 <= i < vlen l -> vget l i = Ok (elt d l i).
Proof. intros X d l i H. apply vget_nth. split; [lia|]. unfold elt. apply nth_error_nth'. unfold vlen in H; lia. Qed.

Lemma list_elt : forall X (d : X) l, l = map (elt d l) (zrange 0 (vlen l)).
Proof.
  intros X d l. apply vget_ext. { unfold vlen. rewrite map_length, zrange_length. lia. }
  intros i Hi. rewrite (elt_vget _ d) by auto. symmetry. apply vget_map. rewrite vget_zrange by lia. f_equal; lia.
Qed.

Lemma skipn_zrange : forall k a b, skipn k (zrange a b) = zrange (a + Z.of_nat k) b.
Proof.
  induction k as [|k IH]; intros a b. { simpl. rewrite Z.add_0_r. auto. }
  destruct (Z_lt_le_dec a b).
  - rewrite zrange_cons by lia. simpl skipn. rewrite IH. f_equal. lia.
  - rewrite zrange_empty by lia. simpl. rewrite zrange_empty by lia. auto.
Qed.
Lemma firstn_zrange : forall k a b, a + Z.of_nat k <= b -> firstn k (zrange a b) = zrange a (a + Z.of_nat k).
Proof.
  induction k as [|k IH]; intros a b H. { simpl. rewrite zrange_empty by lia. auto. }
  rewrite zrange_cons by lia. simpl firstn. rewrite IH by lia. rewrite (zrange_cons a) by lia. f_equal. f_equal. lia.
Qed.

Lemma slice_elt : forall X (d : X) r i j, 0 <= i <= j + 1 -> j < vlen r -> slice r i j = map (elt d r) (zrange i (j + 1)).
Proof.
  intros X d r i j Hi Hj. unfold slice. rewrite (list_elt _ d r) at 1. rewrite skipn_map, firstn_map.
  rewrite skipn_zrange, firstn_zrange by lia. f_equal. f_equal; lia.
Qed.

Lemma slice_length : forall X (r : list X) i j, 0 <= i <= j + 1 -> j < vlen r -> vlen (slice r i j) = j - i + 1.
Proof.
  intros X r i j Hi Hj. destruct r as [|d r].
  - unfold vlen in Hj. simpl in Hj. unfold slice. rewrite skipn_nil, firstn_nil. unfold vlen; simpl. lia.
  - rewrite (slice_elt _ d) by auto. unfold vlen. rewrite map_length, zrange_length. lia.
Qed.

Lemma slice_app : forall X (r : list X) i c j, 0 <= i <= c + 1 -> c <= j -> j < vlen r -> slice r i j = slice r i c ++ slice r (c + 1) j.
Proof.
  intros X r i c j Hi Hc Hj. destruct r as [|d r].
  - unfold slice. rewrite !skipn_nil, !firstn_nil. auto.
  - rewrite !(slice_elt _ d) by lia. rewrite <- map_app. f_equal. apply zrange_app. lia.
Qed.

Lemma slice_In : forall X (r : list X) i j x, In x (slice r i j) -> In x r.
Proof.
  intros X r i j x H. unfold slice in H.
  rewrite <- (firstn_skipn (Z.to_nat i) r). apply in_or_app. right.
  rewrite <- (firstn_skipn (Z.to_nat (j - i + 1)) (skipn (Z.to_nat i) r)). apply in_or_app; auto.
Qed.

Lemma slice_one : forall X (d : X) r i, 0 <= i < vlen r -> slice r i i = [elt d r i].
Proof. intros X d r i H. rewrite (slice_elt _ d) by lia. rewrite zrange_snoc by lia. rewrite zrange_empty by lia. auto. Qed.

Section R.
Context (P : params).
Notation A := (RP P).

Ltac req := match goal with |- @eq _ ?a ?b => change (@eq R a b) end; change (num A) with R in *; lra.

Lemma er_xlog2 : forall v : R, entropyReduction A v 0%R = xlog2 v.
Proof.
  intros v. unfold entropyReduction, entropy, c_ln2, xlog2, log2. cbn [RP num n_ltb n_zero n_sub n_div n_mul n_log n_ofZ].
  unfold Rltb. destruct (Rlt_dec 0 v); auto. change (num A) with R. unfold Rdiv. rewrite Rminus_0_r. rewrite Rmult_assoc. auto.
Qed.

Lemma rs_Rsum : forall (x : Z -> R) i j, i <= j -> rs A x i j = Rsum x (zrange i (j + 1)).
Proof.
  intros x i j H. remember (Z.to_nat (j - i)) as k eqn:Ek. revert i H Ek. induction k as [|k IH]; intros i H Ek.
  - assert (i = j) by lia. subst i. rewrite rs_diag. rewrite zrange_snoc by lia. rewrite zrange_empty by lia.
    rewrite app_nil_l, Rsum_cons, Rsum_nil. lra.
  - rewrite rs_step by lia. rewrite IH by lia. rewrite (zrange_cons i) by lia. rewrite Rsum_cons.
    cbn [RP n_add]. change (num A) with R. lra.
Qed.

Lemma er_gain : forall l : list R, entropyReduction A (total l) (Rsum xlog2 l) = gain_of l.
Proof.
  intro l. unfold entropyReduction, gain_of, entropy, c_ln2, log2. cbn [RP num n_ltb n_zero n_sub n_div n_mul n_log n_ofZ].
  unfold Rltb. destruct (Rlt_dec 0 (total l)); auto. change (num A) with R. unfold Rdiv. rewrite Rmult_assoc. auto.
Qed.
Lemma dv_loss : forall l : list R, divergence A (vlen l) (total l) (Rsum xlog2 l) = loss_of l.
Proof.
  intro l. unfold divergence. rewrite er_gain. unfold loss_of, log2, c_ln2. cbn [RP num n_sub n_div n_mul n_log n_ofZ].
  change (num A) with R. unfold Rdiv. rewrite Rmult_assoc. auto.
Qed.

Variable (v : ovalues A).
Variables (rows : list (list R)).
Hypothesis Hv : 0 <= ov_vsize v.
Hypothesis Hn : 0 <= ov_osize v <= 65535.
Hypothesis Hr : orows v rows.
Notation n := (ov_osize v).

Definition ox (k o : Z) : R := elt 0%R (elt [] rows k) o.

Lemma ox_rows : forall k, 0 <= k < ov_vsize v -> exists r, ov_row v k = Ok r /\ vrepr r n (ox k).
Proof.
  intros k Hk. destruct Hr as [E F]. destruct (mmap_zrange (list R) (ov_row v) _ rows [] Hv E) as (L & K & _).
  exists (elt [] rows k). split; [apply K; auto|].
  assert (In (elt [] rows k) rows). { unfold elt. apply nth_In. unfold vlen in L. lia. }
  assert (Hl : vlen (elt [] rows k) = n) by exact (proj1 (Forall_forall _ _) F _ H). split; auto. intros i Hi. apply (elt_vget R). rewrite Hl; lia.
Qed.

Lemma ocell_info : forall i j, 0 <= i <= j -> j < n -> oqcell A v ox i j = @mkQ A (ogain rows i j) (oloss rows i j).
Proof.
  intros i j Hi Hj. unfold oqcell, ogain, oloss. destruct Hr as [E F].
  destruct (mmap_zrange (list R) (ov_row v) _ rows [] Hv E) as (Ll & K & Em). rewrite Em at 1 2. rewrite !Rsum_map. clear Em.
  assert (Hs : forall k, In k (zrange 0 (ov_vsize v)) -> slice (elt [] rows k) i j = map (ox k) (zrange i (j + 1))).
  { intros k Hk. apply In_zrange in Hk. assert (In (elt [] rows k) rows) by (unfold elt; apply nth_In; unfold vlen in Ll; lia).
    assert (Hl : vlen (elt [] rows k) = n) by exact (proj1 (Forall_forall _ _) F _ H). apply (slice_elt R); lia. }
  assert (G : forall l c, (forall k, In k l -> slice (elt [] rows k) i j = map (ox k) (zrange i (j + 1))) ->
    fold_left (fun c k => ocomp A ox k i j c) l c =
    @mkQ A (gain c + Rsum (fun k => gain_of (slice (elt [] rows k) i j)) l)%R (loss c + Rsum (fun k => loss_of (slice (elt [] rows k) i j)) l)%R).
  { clear Hs. intro l. induction l as [|k l IH]; intros c Hs; cbn [fold_left].
    - rewrite !Rsum_nil. destruct c as [g s]. cbn [gain loss]. f_equal; req.
    - rewrite IH by (intros; apply Hs; right; auto). rewrite !Rsum_cons.
      assert (O : ocomp A ox k i j c = @mkQ A (gain c + gain_of (slice (elt [] rows k) i j))%R (loss c + loss_of (slice (elt [] rows k) i j))%R).
      { rewrite Hs by (left; auto). unfold ocomp. destruct (Z.ltb_spec i j).
        - assert (E1 : rs A (ox k) i j = total (map (ox k) (zrange i (j + 1)))).
          { rewrite rs_Rsum by lia. unfold total. rewrite Rsum_map. auto. }
          assert (E2 : rs A (ent A ox k) i j = Rsum xlog2 (map (ox k) (zrange i (j + 1)))).
          { rewrite rs_Rsum by lia. rewrite Rsum_map. apply Rsum_ext. intros o _. unfold ent. apply er_xlog2. }
          rewrite E1, E2, er_gain.
          replace (j - i + 1) with (vlen (map (ox k) (zrange i (j + 1)))) by (unfold vlen; rewrite map_length, zrange_length; lia).
          rewrite dv_loss. reflexivity.
        - assert (i = j) by lia. subst j. rewrite zrange_snoc by lia. rewrite zrange_empty by lia. cbn [app map].
          rewrite gain_of_single, loss_of_single. destruct c as [g s]. cbn [gain loss]. f_equal; req. }
      rewrite O. cbn [gain loss]. f_equal; req. }
  rewrite G by auto. cbn [gain loss q_zero RP n_zero]. f_equal; req.
Qed.

Lemma o_compute_prf : exists t, oq_compute A (oq_ofValues A v) = Ok (mkOQ A (Some v) (Some t)) /\ otable t n rows.
Proof.
  destruct (oq_table_ok A v n ox Hn eq_refl ox_rows Hv) as [t [E R]]. exists t. unfold oq_compute, oq_ofValues. cbn [oq_values].
  rewrite E. cbn [bind]. split; auto. split. { eapply repr_shape; eauto. }
  intros i j Hi Hj. rewrite (urepr_get _ _ _ _ i j R) by auto. rewrite ocell_info by auto. auto.
Qed.
End R.

(** ** Consequences for non-negative data. *)
Lemma tiles_slices : forall (r : list R) i n l, tiles i n l -> 0 <= i -> n <= vlen r ->
  slice r i (n - 1) = concat (map (fun ab => slice r (fst ab) (snd ab)) l).
Proof.
  intros r i n l T. induction T as [n|a e n l Ha T IH]; intros Hi Hn.
  - unfold slice. replace (Z.to_nat (n - 1 - n + 1)) with O by lia. auto.
  - cbn [map concat fst snd]. rewrite <- IH by lia. apply slice_app; lia.
Qed.

Lemma nonneg_slice : forall r i j, nonneg r -> nonneg (slice r i j).
Proof. intros r i j H. apply Forall_forall. intros x Hx. exact (proj1 (Forall_forall _ _) H x (slice_In _ _ _ _ _ Hx)). Qed.

Section Facts.
Variables (rows : list (list R)) (n : Z).
Hypothesis Hl : Forall (fun r => vlen r = n) rows.
Hypothesis Hp : Forall nonneg rows.

Lemma row_ok : forall r, In r rows -> vlen r = n /\ nonneg r.
Proof. intros r H. split; [exact (proj1 (Forall_forall _ _) Hl r H)|exact (proj1 (Forall_forall _ _) Hp r H)]. Qed.

Lemma ogain_nonneg : forall i j, (0 <= ogain rows i j)%R.
Proof. intros. apply Rsum_nonneg. intros r Hr. apply gain_of_nonneg. apply nonneg_slice. apply row_ok; auto. Qed.
Lemma oloss_nonneg : forall i j, (0 <= oloss rows i j)%R.
Proof. intros. apply Rsum_nonneg. intros r Hr. apply loss_of_nonneg. apply nonneg_slice. apply row_ok; auto. Qed.

Lemma otiles_gain : forall i e l, tiles i (e + 1) l -> 0 <= i -> e < n ->
  (Rsum (fun ab => ogain rows (fst ab) (snd ab)) l <= ogain rows i e)%R /\
  (Rsum (fun ab => oloss rows (fst ab) (snd ab)) l <= oloss rows i e)%R.
Proof.
  intros i e l T Hi He. unfold ogain, oloss.
  rewrite (Rsum_swap _ _ (fun ab r => gain_of (slice r (fst ab) (snd ab)))).
  rewrite (Rsum_swap _ _ (fun ab r => loss_of (slice r (fst ab) (snd ab)))).
  assert (K : forall r, In r rows -> nonneg (concat (map (fun ab => slice r (fst ab) (snd ab)) l)) /\
     slice r i e = concat (map (fun ab => slice r (fst ab) (snd ab)) l)).
  { intros r Hr. destruct (row_ok r Hr) as [L N]. split.
    - apply nonneg_concat. apply Forall_map. apply Forall_forall. intros ab _. apply nonneg_slice; auto.
    - rewrite <- (tiles_slices r i (e + 1) l T) by lia. f_equal. lia. }
  split; apply Rsum_le; intros r Hr; destruct (K r Hr) as [N ->].
  - rewrite <- (Rsum_map _ _ gain_of (fun ab => slice r (fst ab) (snd ab))). apply gain_concat; auto.
  - rewrite <- (Rsum_map _ _ loss_of (fun ab => slice r (fst ab) (snd ab))). apply loss_concat; auto.
Qed.

Lemma oloss_zero : forall i j, (oloss rows i j = 0)%R <->
  (forall r x y, In r rows -> In x (slice r i j) -> In y (slice r i j) -> x = y).
Proof.
  intros i j. unfold oloss. split.
  - intros E r x y Hr. apply loss_of_zero. { apply nonneg_slice. apply row_ok; auto. }
    apply (Rsum_zero_inv _ (fun r => loss_of (slice r i j)) rows); auto.
    intros r' Hr'. apply loss_of_nonneg. apply nonneg_slice. apply row_ok; auto.
  - intro H. apply Rsum_zero. intros r Hr. destruct (slice r i j) as [|v s] eqn:Es; [apply loss_of_nil|].
    apply (loss_of_const v).
    + intros x Hx. apply (H r); auto; rewrite Es; [exact Hx|left; auto].
    + assert (N : nonneg (v :: s)) by (rewrite <- Es; apply nonneg_slice; apply row_ok; auto). inversion N; auto.
Qed.
End Facts.

Lemma otable_cells : forall P (t : utm (quality (RP P))) n rows l ql, otable t n rows -> tiles 0 n l ->
  mmap (fun ab => u_get t (fst ab) (snd ab)) l = Ok ql ->
  Rsum (@gain (RP P)) ql = Rsum (fun ab => ogain rows (fst ab) (snd ab)) l /\
  Rsum (@loss (RP P)) ql = Rsum (fun ab => oloss rows (fst ab) (snd ab)) l.
Proof.
  intros P t n rows l ql [_ T] Tl E.
  assert (B : forall a b, In (a, b) l -> 0 <= a <= b /\ b < n).
  { assert (G : forall i m l, tiles i m l -> forall a b, In (a, b) l -> i <= a <= b /\ b < m).
    { intros i m l0 T0. induction T0; intros a' b' [K|K] || intros a' b' []; [inversion K; lia|].
      specialize (IHT0 _ _ K). lia. }
    intros a b H. specialize (G _ _ _ Tl a b H). lia. }
  rewrite (mmap_map _ _ _ (fun ab => @mkQ (RP P) (ogain rows (fst ab) (snd ab)) (oloss rows (fst ab) (snd ab)))) in E.
  - assert (Q : ql = map (fun ab => @mkQ (RP P) (ogain rows (fst ab) (snd ab)) (oloss rows (fst ab) (snd ab))) l) by congruence.
    subst ql. split; [apply (Rsum_map _ _ (@gain (RP P)))|apply (Rsum_map _ _ (@loss (RP P)))].
  - intros [a b] H. destruct (B a b H). apply T; auto.
Qed.
