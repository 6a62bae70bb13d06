(** * Property C67: slicerprvcounter (R/lpaggreg_pjdump.R). *)
From Coq Require Import Lia Permutation Reals Lra.
From Verif Require Import Base BaseFacts Arith SpecParts InfoFacts RHelpers SpecMacro MacroFacts HMacroFacts Slicer SpecSlicer SlicerFacts P_Slicer CounterFacts.

Section Counter.
Context (trace : list drow) (n : Z) (t0 t1 : R).
Hypothesis Hspan : trace_span trace t0 t1.
Hypothesis Hsteps : forall r t p, In p (steps trace r t) -> row_ok (fst p) /\ (0 < dr_dur (fst p))%R.
Let st := ((t1 - t0) / IZR n)%R.
Let rows := map dr_rate (sl_lead (map (dr_shift t0) trace)).
Let h := sl_join st n rows.

Lemma crow_ok : forall r t p, In p (steps trace r t) -> row_ok (crow_of t0 p).
Proof. intros r t p I. destruct (Hsteps r t p I) as ((H & E) & _). unfold row_ok, crow_of. cbn. split; lra. Qed.

Lemma step_in : forall r t p, In p (steps trace r t) -> In (fst p) trace.
Proof. intros r t [w x] I. unfold steps in I. apply in_combine_l in I. apply filter_In in I. tauto. Qed.

Lemma step_span : forall r t p, In p (steps trace r t) -> (t0 < t1)%R.
Proof.
  intros r t p I. destruct (Hsteps r t p I) as ((H & E) & P). destruct Hspan as (_ & _ & Hb). pose proof (Hb _ (step_in r t p I)). lra.
Qed.

Lemma In_hc : forall w k, In (w, k) h <-> exists p, In p (steps trace (dr_res w) (dr_type w)) /\ w = crow_of t0 p /\ inside t0 t1 n (fst p) k.
Proof.
  intros w k. unfold h. rewrite In_join. unfold rows. rewrite In_rows. split.
  - intros ((p & I & ->) & Hk & J). exists p. split; auto. split; auto. apply joined_meets in J; [|eapply crow_ok; eauto].
    destruct (Hsteps _ _ p I) as (Ho & _). apply (meets_inside t0 t1 n (fst p) k (fun _ => crow_of t0 p)) in J; auto. eapply step_span; eauto.
  - intros (p & I & E & J). assert (Hk : 1 <= k <= n) by apply J. split; [exists p; auto|]. split; auto. rewrite E in *. apply joined_meets; [eapply crow_ok; eauto|].
    destruct (Hsteps _ _ p I) as (Ho & _). apply (meets_inside t0 t1 n (fst p) k (fun _ => crow_of t0 p)); auto. eapply step_span; eauto.
Qed.

Lemma group_mean : forall r k t, 1 <= k <= n -> (t0 <= t1)%R ->
  w_mean st (filter (fun x => if dec3 (jkey x) (r, k, t) then true else false) h) = mean_rate trace r t (slice_lo t0 t1 n k) (slice_hi t0 t1 n k).
Proof.
  intros r k t Hk Ht. assert (Hst : (0 <= st)%R). { unfold st, Rdiv. apply Rmult_le_pos; [lra|]. left. apply Rinv_0_lt_compat. apply IZR_lt. lia. }
  unfold w_mean, mean_rate. unfold h. rewrite !join_sum by auto. cbn [fst snd]. change (fun w => (dr_res w =? r) && (dr_type w =? t)) with (of_rt r t). unfold rows. rewrite !rows_filter, !Rsum_map.
  assert (T : forall p, In p (steps trace r t) -> (if joined st (crow_of t0 p) k then t_in_ts st (crow_of t0 p) k else 0%R) = overlap (dr_start (fst p)) (dr_end (fst p)) (slice_lo t0 t1 n k) (slice_hi t0 t1 n k)).
  { intros p I. rewrite tints_overlap; [|eapply crow_ok; eauto|auto]. unfold st. destruct (slice_shift t0 t1 n k) as [-> ->]. cbn. apply overlap_shift. }
  rewrite <- (Rsum_ext _ _ _ _ T). apply (f_equal (fun z => z / _)%R). apply Rsum_ext. intros p I. rewrite <- T by auto. destruct (joined st (crow_of t0 p) k).
  - unfold rate. cbn. reflexivity.
  - unfold rate. lra.
Qed.

Definition cm : list srow :=
  map (fun kk => let g := filter (fun x => if dec3 (jkey x) kk then true else false) h in
                 let '(r, k, t) := kk in mkSR r k t (ts_start st k) (ts_end st k) (w_mean st g) (w_mean st g)) (nodup dec3 (map jkey h)).

Lemma In_cm : forall y, In y cm <-> measured trace t0 t1 n (sr_res y) (sr_type y) (sr_slice y) /\
  sr_lo y = (slice_lo t0 t1 n (sr_slice y) - t0)%R /\ sr_hi y = (slice_hi t0 t1 n (sr_slice y) - t0)%R /\
  sr_sum y = mean_rate trace (sr_res y) (sr_type y) (slice_lo t0 t1 n (sr_slice y)) (slice_hi t0 t1 n (sr_slice y)) /\ sr_norm y = sr_sum y.
Proof.
  assert (KH : forall r k t, In (r, k, t) (map jkey h) <-> measured trace t0 t1 n r t k).
  { intros r k t. rewrite in_map_iff. unfold measured. split.
    - intros ([w k'] & E & I). unfold jkey in E. cbn in E. injection E as <- <- <-. apply In_hc in I. destruct I as (p & I & E & J). exists p. auto.
    - intros (p & I & J). destruct (steps_rt _ _ _ _ I) as [E1 E2]. exists (crow_of t0 p, k). split; [unfold jkey; cbn; congruence|]. apply In_hc. exists p. split; [cbn; rewrite E1, E2; auto|auto]. }
  intro y. unfold cm. rewrite in_map_iff. split.
  - intros ([[r k] t] & <- & I). rewrite nodup_In in I. apply KH in I. cbn [sr_res sr_slice sr_type sr_lo sr_hi sr_sum sr_norm]. split; auto. destruct (slice_shift t0 t1 n k) as [Q1 Q2].
    destruct I as (p & I & J). rewrite group_mean by (try apply J; pose proof (step_span _ _ _ I); lra). auto.
  - intros (M & E1 & E2 & E3 & E4). exists (sr_res y, sr_slice y, sr_type y). split.
    + destruct (slice_shift t0 t1 n (sr_slice y)) as [Q1 Q2]. destruct y as [r k t a b c d]. cbn [sr_res sr_slice sr_type sr_lo sr_hi sr_sum sr_norm] in *. destruct M as (p & I & J).
      cbn [sr_res sr_slice sr_type]. rewrite group_mean by (try apply J; pose proof (step_span _ _ _ I); lra). subst. unfold st. rewrite Q1, Q2. reflexivity.
    + rewrite nodup_In. apply KH. auto.
Qed.

Lemma NoDup_cm : NoDup (map sr_key cm).
Proof. unfold cm. rewrite map_map. rewrite (map_ext _ (fun x => x)) by (intros [[? ?] ?]; reflexivity). rewrite map_id. apply NoDup_nodup. Qed.
End Counter.

(** The steps of the trace have positive durations, equal to End-Start, or the model leaves the result open. *)
Lemma counter_guard : forall trace t0, forallb (fun w => Rltb 0 (dr_dur w) && Reqb (dr_dur w) (dr_end w - dr_start w)) (sl_lead (map (dr_shift t0) trace)) = true <->
  forall r t p, In p (steps trace r t) -> row_ok (fst p) /\ (0 < dr_dur (fst p))%R.
Proof.
  intros trace t0. rewrite forallb_forall.
  assert (L : forall w, In w (sl_lead (map (dr_shift t0) trace)) <-> exists p, In p (steps trace (dr_res w) (dr_type w)) /\ w = lead1 (dr_shift t0 (fst p), dr_shift t0 (snd p))).
  { intro w. transitivity (In w (filter (of_rt (dr_res w) (dr_type w)) (sl_lead (map (dr_shift t0) trace)))).
    - rewrite filter_In. unfold of_rt. rewrite !Z.eqb_refl. tauto.
    - rewrite lead_filter, filter_map_swap. change (fun x => of_rt (dr_res w) (dr_type w) (dr_shift t0 x)) with (of_rt (dr_res w) (dr_type w)). rewrite tl_map, combine_map2, map_map, in_map_iff.
      split; intros (p & A & B); exists p; auto. }
  split.
  - intros H r t p I. destruct (steps_rt _ _ _ _ I) as [E1 E2]. specialize (H (lead1 (dr_shift t0 (fst p), dr_shift t0 (snd p)))). rewrite L in H. cbn in H. rewrite E1, E2 in H.
    specialize (H ltac:(exists p; auto)). apply andb_true_iff in H. destruct H as [H1 H2]. unfold Rltb, Reqb in *. destruct (Rlt_dec 0 (dr_dur (fst p))); [|discriminate].
    destruct (Req_EM_T _ _); [|discriminate]. unfold row_ok. repeat split; auto; lra.
  - intros H w I. apply L in I. destruct I as (p & I & ->). destruct (H _ _ p I) as ((H1 & H2) & H3). cbn. unfold Rltb, Reqb. destruct (Rlt_dec _ _); [|exfalso; auto].
    destruct (Req_EM_T _ _); auto. exfalso. lra.
Qed.

Lemma counter_unfold : forall trace n t0 t1, trace_span trace t0 t1 ->
  r_slicercounter trace n =
  if forallb (fun w => Rltb 0 (dr_dur w) && Reqb (dr_dur w) (dr_end w - dr_start w)) (sl_lead (map (dr_shift t0) trace)) then
    let* o := sl_fill (cm trace n t0 t1) in
    let total := fun t => Rsum sr_norm (filter (fun x => sr_type x =? t) o) in
    if existsb (fun x => Reqb (total (sr_type x)) 0) o then UB
    else Ok (map (fun x => mkSR (sr_res x) (sr_slice x) (sr_type x) (sr_lo x) (sr_hi x) (sr_sum x) (sr_norm x / total (sr_type x))) o)
  else UB.
Proof.
  intros trace n t0 t1 Hspan. destruct Hspan as ((w0 & I0 & E0) & (w1 & I1 & E1) & Hb).
  assert (Emin : r_min (map dr_start trace) = Ok t0).
  { apply r_min_is; [apply in_map_iff; exists w0; split; [exact E0|exact I0]|]. intros x Ix. apply in_map_iff in Ix. destruct Ix as (w & <- & I). exact (proj1 (Hb w I)). }
  assert (Emax : r_max (map dr_end (map (dr_shift t0) trace)) = Ok (t1 - t0)%R).
  { rewrite !map_map. apply r_max_is; [apply in_map_iff; exists w1; split; auto; cbn; lra|]. intros x Ix. apply in_map_iff in Ix. destruct Ix as (w & <- & I). cbn. pose proof (proj2 (Hb w I)). lra. }
  unfold r_slicercounter. rewrite Emin. cbn [bind]. rewrite Emax. cbn [bind]. reflexivity.
Qed.

(** ** The result of slicerprvcounter

    One row per resource, slice and type, among those measured, up to the last slice [K] with a measure. Mean is the mean rate in the slice, weighted by time, but 0 when that is
    negative or when there is no measure in the slice; Normalized is Mean divided by the sum of the Means of the same type. *)
Theorem C67_counter : forall trace n t0 t1 o, trace_span trace t0 t1 -> r_slicercounter trace n = Ok o ->
  NoDup (map sr_key o) /\ exists K, (exists r t, measured trace t0 t1 n r t K) /\ (forall r t k, measured trace t0 t1 n r t k -> k <= K) /\
    forall x, In x o <->
      (exists t k, measured trace t0 t1 n (sr_res x) t k) /\ (exists r k, measured trace t0 t1 n r (sr_type x) k) /\ 1 <= sr_slice x <= K /\
      (measured trace t0 t1 n (sr_res x) (sr_type x) (sr_slice x) ->
         sr_lo x = (slice_lo t0 t1 n (sr_slice x) - t0)%R /\ sr_hi x = (slice_hi t0 t1 n (sr_slice x) - t0)%R /\
         sr_sum x = Rmax 0 (mean_rate trace (sr_res x) (sr_type x) (slice_lo t0 t1 n (sr_slice x)) (slice_hi t0 t1 n (sr_slice x)))) /\
      (~ measured trace t0 t1 n (sr_res x) (sr_type x) (sr_slice x) -> sr_lo x = 0%R /\ sr_hi x = 0%R /\ sr_sum x = 0%R) /\
      sr_norm x = (sr_sum x / sum_where (fun y => sr_type y =? sr_type x) sr_sum o)%R.
Proof.
  intros trace n t0 t1 o Hs E. rewrite (counter_unfold trace n t0 t1 Hs) in E. destruct (forallb _ _) eqn:G; [|discriminate]. pose proof (proj1 (counter_guard trace t0) G) as Hp. clear G.
  set (m := cm trace n t0 t1) in *. pose proof (In_cm trace n t0 t1 Hs Hp) as Im. fold m in Im. pose proof (NoDup_cm trace n t0 t1) as Nm. fold m in Nm.
  assert (Em : m <> []) by (intro K; rewrite K in E; discriminate).
  assert (Pm : forall y, In y m -> 1 <= sr_slice y). { intros y I. apply Im in I. destruct I as ((p & _ & (B & _)) & _). lia. }
  destruct (fill_prf m Em Nm Pm) as (F & EF & NF & IF). rewrite EF in E. cbn [bind] in E. destruct (existsb _ F) eqn:Ex; [discriminate|]. injection E as <-.
  set (total := fun t => Rsum sr_norm (filter (fun x => sr_type x =? t) F)) in *.
  set (g := fun x => mkSR (sr_res x) (sr_slice x) (sr_type x) (sr_lo x) (sr_hi x) (sr_sum x) (sr_norm x / total (sr_type x))).
  assert (Fn : forall x, In x F -> sr_norm x = sr_sum x).
  { intros x I. apply IF in I. destruct I as (_ & [(y & Iy & _ & _ & _ & -> & ->)|(_ & _ & _ & -> & ->)]); auto. apply Im in Iy. destruct Iy as (_ & _ & _ & _ & ->). reflexivity. }
  assert (Et : forall t, sum_where (fun y => sr_type y =? t) sr_sum (map g F) = total t).
  { intro t. unfold sum_where, total. rewrite filter_map_swap, Rsum_map. cbn. apply Rsum_ext. intros x I. apply filter_In in I. symmetry. apply Fn. tauto. }
  split.
  { rewrite map_map. exact NF. }
  assert (Km : forall r t k, measured trace t0 t1 n r t k -> exists y, In y m /\ sr_res y = r /\ sr_slice y = k /\ sr_type y = t).
  { intros r t k M. exists (mkSR r k t (slice_lo t0 t1 n k - t0) (slice_hi t0 t1 n k - t0) (mean_rate trace r t (slice_lo t0 t1 n k) (slice_hi t0 t1 n k)) (mean_rate trace r t (slice_lo t0 t1 n k) (slice_hi t0 t1 n k))).
    split; auto. apply Im. cbn. auto. }
  exists (last_slice m). split.
  { pose proof (last_slice_in m Em Pm) as L. apply in_map_iff in L. destruct L as (y & <- & I). apply Im in I. destruct I as (M & _). eauto. }
  split.
  { intros r t k M. destruct (Km r t k M) as (y & Iy & _ & <- & _). apply last_slice_ge; auto. }
  assert (Gr : forall x, In (sr_key x) (grid m) <-> (exists t k, measured trace t0 t1 n (sr_res x) t k) /\ (exists r k, measured trace t0 t1 n r (sr_type x) k) /\ 1 <= sr_slice x <= last_slice m).
  { intro x. unfold sr_key. rewrite In_grid, !in_map_iff. split.
    - intros ((y & E1 & I1) & B & (y' & E2 & I2)). apply Im in I1. apply Im in I2. destruct I1 as (M1 & _), I2 as (M2 & _). rewrite E1 in M1. rewrite E2 in M2. split; eauto.
    - intros ((t & k & M1) & (r & k' & M2) & B). destruct (Km _ _ _ M1) as (y & Iy & Ey & _), (Km _ _ _ M2) as (y' & Iy' & _ & _ & Ey'). split; [exists y; auto|]. split; auto. exists y'. auto. }
  assert (KK : forall x, In (sr_key x) (map sr_key m) <-> measured trace t0 t1 n (sr_res x) (sr_type x) (sr_slice x)).
  { intro x. rewrite in_map_iff. split.
    - intros (y & Ey & I). apply Im in I. destruct I as (M & _). unfold sr_key in Ey. injection Ey as E3 E4 E5. rewrite <- E3, <- E4, <- E5. auto.
    - intro M. destruct (Km _ _ _ M) as (y & Iy & F1 & F2 & F3). exists y. split; auto. unfold sr_key. congruence. }
  assert (HiLo : forall y, In y m -> (0 <= sr_lo y)%R /\ (0 <= sr_hi y)%R).
  { intros y I. apply Im in I. destruct I as ((p & Ip & (B & _)) & -> & -> & _). pose proof (step_span trace t0 t1 Hs Hp _ _ _ Ip).
    destruct (slice_shift t0 t1 n (sr_slice y)) as [<- <-]. assert (0 < (t1 - t0) / IZR n)%R by (apply Rdiv_lt_0_compat; [lra|apply IZR_lt; lia]).
    unfold ts_start, ts_end. split; apply Rmult_le_pos; try lra; apply IZR_le; lia. }
  assert (FF : forall x, filled m x <->
      (measured trace t0 t1 n (sr_res x) (sr_type x) (sr_slice x) ->
         sr_lo x = (slice_lo t0 t1 n (sr_slice x) - t0)%R /\ sr_hi x = (slice_hi t0 t1 n (sr_slice x) - t0)%R /\
         sr_sum x = Rmax 0 (mean_rate trace (sr_res x) (sr_type x) (slice_lo t0 t1 n (sr_slice x)) (slice_hi t0 t1 n (sr_slice x)))) /\
      (~ measured trace t0 t1 n (sr_res x) (sr_type x) (sr_slice x) -> sr_lo x = 0%R /\ sr_hi x = 0%R /\ sr_sum x = 0%R) /\ sr_norm x = sr_sum x).
  { intro x. unfold filled. rewrite KK. split.
    - intros [(y & Iy & Ey & -> & -> & -> & ->)|(H & -> & -> & -> & ->)].
      + destruct (HiLo y Iy) as [P1 P2]. rewrite !Rmax_0 by auto. apply Im in Iy. destruct Iy as (M & -> & -> & E4 & ->). unfold sr_key in Ey. injection Ey as E1 E2 E3. rewrite E1, E2, E3 in *.
        rewrite E4. split; auto. split; auto. intro N. contradiction.
      + split; [intro; contradiction|]. auto.
    - intros (A1 & A2 & En). destruct (Classical_Prop.classic (measured trace t0 t1 n (sr_res x) (sr_type x) (sr_slice x))) as [M|M].
      + left. destruct (Km _ _ _ M) as (y & Iy & E1 & E2 & E3). exists y. split; auto. split; [unfold sr_key; congruence|]. destruct (HiLo y Iy) as [P1 P2]. rewrite (Rmax_0 (sr_lo y)), (Rmax_0 (sr_hi y)) by auto.
        apply Im in Iy. destruct Iy as (_ & -> & -> & -> & ->). destruct (A1 M) as (-> & -> & A5). rewrite En, A5. rewrite E1, E2, E3. auto. 
      + right. destruct (A2 M) as (-> & -> & A5). rewrite En, A5. auto. }
  intro x. rewrite Et. rewrite in_map_iff. split.
  - intros (x0 & <- & I). pose proof (Fn x0 I) as En. apply IF in I. rewrite Gr, FF in I. destruct I as ((G1 & G2 & B) & A1 & A2 & _). cbn. rewrite En. auto 10.
  - intros (G1 & G2 & B & A1 & A2 & A3). exists (mkSR (sr_res x) (sr_slice x) (sr_type x) (sr_lo x) (sr_hi x) (sr_sum x) (sr_sum x)). split.
    + destruct x as [r k t a b c d]. cbn [sr_res sr_slice sr_type sr_lo sr_hi sr_sum sr_norm] in *. rewrite A3. reflexivity.
    + apply IF. rewrite Gr, FF. cbn. auto 10.
Qed.
Print Assumptions C67_counter.

(** The Normalized values are fractions: for every type they add up to 1. *)
Theorem C67_fractions : forall trace n t0 t1 o, trace_span trace t0 t1 -> r_slicercounter trace n = Ok o ->
  (forall x, In x o -> (0 <= sr_norm x <= 1)%R) /\ forall t, In t (map sr_type o) -> sum_where (fun x => sr_type x =? t) sr_norm o = 1%R.
Proof.
  intros trace n t0 t1 o Hs E. destruct (C67_counter trace n t0 t1 o Hs E) as (N & K & _ & _ & Io).
  assert (P : forall x, In x o -> (0 <= sr_sum x)%R).
  { intros x I. apply Io in I. destruct I as (_ & _ & _ & A1 & A2 & _). destruct (Classical_Prop.classic (measured trace t0 t1 n (sr_res x) (sr_type x) (sr_slice x))) as [M|M].
    - destruct (A1 M) as (_ & _ & ->). apply Rmax_l. - destruct (A2 M) as (_ & _ & ->). lra. }
  set (total := fun t => sum_where (fun y => sr_type y =? t) sr_sum o).
  assert (Z0 : forall x, In x o -> (0 < total (sr_type x))%R).
  { intros x I. assert (H : (0 <= total (sr_type x))%R) by (apply Rsum_nonneg; intros y Iy; apply filter_In in Iy; apply P; tauto).
    assert (H2 : total (sr_type x) <> 0%R).
    { intro Hz. clear Io N. rewrite (counter_unfold trace n t0 t1 Hs) in E. destruct (forallb _ _) eqn:G; [|discriminate]. pose proof (proj1 (counter_guard trace t0) G) as Hp.
      set (m := cm trace n t0 t1) in *. pose proof (In_cm trace n t0 t1 Hs Hp) as Im. fold m in Im. pose proof (NoDup_cm trace n t0 t1) as Nm. fold m in Nm.
      assert (Em : m <> []) by (intro K0; rewrite K0 in E; discriminate).
      assert (Pm : forall y, In y m -> 1 <= sr_slice y). { intros y Iy. apply Im in Iy. destruct Iy as ((p & _ & (B & _)) & _). lia. }
      destruct (fill_prf m Em Nm Pm) as (F & EF & NF & IF). rewrite EF in E. cbn [bind] in E. destruct (existsb _ F) eqn:Ex; [discriminate|]. injection E as <-.
      assert (Fn : forall x, In x F -> sr_norm x = sr_sum x).
      { intros x' I'. apply IF in I'. destruct I' as (_ & [(y & Iy & _ & _ & _ & -> & ->)|(_ & _ & _ & -> & ->)]); auto. apply Im in Iy. destruct Iy as (_ & _ & _ & _ & ->). reflexivity. }
      apply in_map_iff in I. destruct I as (x0 & <- & I). rewrite <- Bool.not_true_iff_false in Ex. apply Ex. apply existsb_exists. exists x0. split; auto. unfold Reqb. destruct (Req_EM_T _ _); auto. exfalso. apply n0. clear n0.
      unfold total, sum_where in Hz. rewrite filter_map_swap, Rsum_map in Hz. cbn in Hz. rewrite <- Hz. apply Rsum_ext. intros y Iy. apply filter_In in Iy. apply Fn. tauto. }
    lra. }
  assert (Nn : forall x, In x o -> sr_norm x = (sr_sum x / total (sr_type x))%R) by (intros x I; apply Io in I; tauto).
  split.
  - intros x I. rewrite (Nn x I). pose proof (Z0 x I) as Pt. pose proof (P x I) as Px. split.
    + unfold Rdiv. apply Rmult_le_pos; auto. left. apply Rinv_0_lt_compat. auto.
    + apply Rmult_le_reg_r with (total (sr_type x)); auto. unfold Rdiv. rewrite Rmult_assoc, Rinv_l, Rmult_1_r, Rmult_1_l by lra.
      unfold total, sum_where. assert (J : In x (filter (fun y => sr_type y =? sr_type x) o)) by (apply filter_In; split; auto; apply Z.eqb_refl).
      apply in_split in J. destruct J as (l1 & l2 & El). rewrite El, Rsum_app, Rsum_cons.
      assert (Q : forall y, In y (l1 ++ x :: l2) -> (0 <= sr_sum y)%R) by (intros y Iy; rewrite <- El in Iy; apply filter_In in Iy; apply P; tauto).
      assert (0 <= Rsum sr_sum l1)%R by (apply Rsum_nonneg; intros y Iy; apply Q, in_app_iff; auto).
      assert (0 <= Rsum sr_sum l2)%R by (apply Rsum_nonneg; intros y Iy; apply Q, in_app_iff; cbn; auto). lra.
  - intros t I. apply in_map_iff in I. destruct I as (x & <- & I). pose proof (Z0 x I) as Pt. unfold sum_where.
    rewrite (Rsum_ext _ sr_norm (fun y => (/ total (sr_type x) * sr_sum y)%R)).
    + rewrite (Rsum_scal _ sr_sum). change (Rsum sr_sum (filter (fun x0 => sr_type x0 =? sr_type x) o)) with (total (sr_type x)). apply Rinv_l. lra.
    + intros y Iy. apply filter_In in Iy. destruct Iy as [Iy Ey]. apply Z.eqb_eq in Ey. rewrite (Nn y Iy), Ey. unfold Rdiv. lra.
Qed.
Print Assumptions C67_fractions.

(** A row with a duration is inside some slice. *)
Lemma some_slice : forall t0 t1 n w, 1 <= n -> (t0 <= dr_start w)%R -> (dr_end w <= t1)%R -> (dr_start w < dr_end w)%R -> exists k, inside t0 t1 n w k.
Proof.
  intros t0 t1 n w Hn H0 H1 Hd. apply Classical_Prop.NNPP. intro No. assert (Pn : (0 < IZR n)%R) by (apply IZR_lt; lia). assert (Ps : (0 < (t1 - t0) / IZR n)%R) by (apply Rdiv_lt_0_compat; lra).
  assert (Q : Rsum (fun k => overlap (dr_start w) (dr_end w) (slice_lo t0 t1 n k) (slice_lo t0 t1 n (k + 1))) (zrange 1 (n + 1)) = 0%R).
  { apply Rsum_zero. intros k I. apply In_zrange in I. rewrite <- slice_next. unfold overlap, Rmax, Rmin.
    assert (L : (slice_lo t0 t1 n k < slice_hi t0 t1 n k)%R) by (unfold slice_lo, slice_hi; rewrite minus_IZR; unfold Rdiv in *; lra).
    set (lo := slice_lo t0 t1 n k) in *. set (hi := slice_hi t0 t1 n k) in *.
    assert (M : ~ (lo < dr_end w /\ dr_start w < hi)%R).
    { intros [M1 M2]. apply No. exists k. split; [lia|]. fold lo hi. exists ((Rmax (dr_start w) lo + Rmin (dr_end w) hi) / 2)%R. unfold Rmax, Rmin. repeat (destruct (Rle_dec _ _)); lra. }
    repeat (destruct (Rle_dec _ _)); try lra; exfalso; apply M; lra. }
  rewrite (overlap_tiles (fun k => slice_lo t0 t1 n k)) in Q; [|lra|lia|].
  - rewrite overlap_all in Q; [lra| |lra|].
    + unfold slice_lo. replace (1 - 1) with 0 by lia. unfold Rdiv. lra.
    + replace (slice_lo t0 t1 n (n + 1)) with t1; auto. unfold slice_lo. replace (n + 1 - 1) with n by lia. field. lra.
  - intros k _. unfold slice_lo. replace (k + 1 - 1) with k by lia. rewrite minus_IZR. unfold Rdiv in *. lra.
Qed.

(** The function succeeds on every trace with positive, consistent durations, values that are not negative, and for every type that is measured at all, one value that is not zero. *)
Theorem C67_defined : forall trace n t0 t1, trace_span trace t0 t1 -> 1 <= n ->
  (forall r t p, In p (steps trace r t) -> row_ok (fst p) /\ (0 < dr_dur (fst p))%R /\ (0 <= dr_num (snd p))%R) ->
  (exists r t p, In p (steps trace r t)) ->
  (forall r t p, In p (steps trace r t) -> exists r' p', In p' (steps trace r' t) /\ (0 < dr_num (snd p'))%R) ->
  exists o, r_slicercounter trace n = Ok o.
Proof.
  intros trace n t0 t1 Hs Hn Hp0 He Hpos. rewrite (counter_unfold trace n t0 t1 Hs).
  assert (Hp : forall r t p, In p (steps trace r t) -> row_ok (fst p) /\ (0 < dr_dur (fst p))%R) by (intros r t p I; destruct (Hp0 r t p I) as (A & B & _); auto).
  rewrite (proj2 (counter_guard trace t0) Hp). set (m := cm trace n t0 t1) in *. pose proof (In_cm trace n t0 t1 Hs Hp) as Im. fold m in Im. pose proof (NoDup_cm trace n t0 t1) as Nm. fold m in Nm.
  assert (Sl : forall r t p, In p (steps trace r t) -> exists k, inside t0 t1 n (fst p) k).
  { intros r t p I. destruct (Hp r t p I) as ((A & B) & C). destruct Hs as (_ & _ & Hb). pose proof (Hb _ (step_in trace r t p I)). apply some_slice; auto; lra. }
  assert (Km : forall r t k, measured trace t0 t1 n r t k -> exists y, In y m /\ sr_res y = r /\ sr_slice y = k /\ sr_type y = t).
  { intros r t k M. exists (mkSR r k t (slice_lo t0 t1 n k - t0) (slice_hi t0 t1 n k - t0) (mean_rate trace r t (slice_lo t0 t1 n k) (slice_hi t0 t1 n k)) (mean_rate trace r t (slice_lo t0 t1 n k) (slice_hi t0 t1 n k))).
    split; auto. apply Im. cbn. auto. }
  assert (Em : m <> []). { destruct He as (r & t & p & I). destruct (Sl r t p I) as (k & J). destruct (Km r t k) as (y & Iy & _); [exists p; auto|]. intro E. rewrite E in Iy. destruct Iy. }
  assert (Pm : forall y, In y m -> 1 <= sr_slice y). { intros y Iy. apply Im in Iy. destruct Iy as ((p & _ & (B & _)) & _). lia. }
  destruct (fill_prf m Em Nm Pm) as (F & EF & NF & IF). rewrite EF. cbn [bind]. destruct (existsb _ F) eqn:Ex; [exfalso|eauto].
  apply existsb_exists in Ex. destruct Ex as (x & Ix & Eq). unfold Reqb in Eq. destruct (Req_EM_T _ _) as [Ez|]; [|discriminate]. clear Eq.
  assert (Pz : forall y, In y (filter (fun y => sr_type y =? sr_type x) F) -> (0 <= sr_norm y)%R).
  { intros y Iy. apply filter_In in Iy. destruct Iy as [Iy _]. apply IF in Iy. destruct Iy as (_ & [(z & _ & _ & _ & _ & _ & ->)|(_ & _ & _ & _ & ->)]); [apply Rmax_l|lra]. }
  pose proof (Rsum_zero_inv _ _ _ Pz Ez) as AllZ.
  assert (Ty : exists r p, In p (steps trace r (sr_type x))).
  { apply IF in Ix. destruct Ix as (G & _). unfold sr_key in G. apply In_grid in G. destruct G as (_ & _ & G). apply in_map_iff in G. destruct G as (y & Ey & Iy). apply Im in Iy. destruct Iy as ((p & Ip & _) & _). rewrite Ey in Ip. eauto. }
  destruct Ty as (r0 & p0 & Ip0). destruct (Hpos _ _ _ Ip0) as (r & p & Ip & Pp). destruct (Sl _ _ _ Ip) as (k & J).
  destruct (Km r (sr_type x) k) as (y & Iy & Er & Ek & Et); [exists p; auto|].
  assert (X : exists z, In z F /\ sr_type z = sr_type x /\ sr_norm z = Rmax 0 (sr_norm y)).
  { exists (mkSR r k (sr_type x) (Rmax 0 (sr_lo y)) (Rmax 0 (sr_hi y)) (Rmax 0 (sr_sum y)) (Rmax 0 (sr_norm y))). split; auto. apply IF. split.
    - unfold sr_key. cbn. apply In_grid. split; [rewrite <- Er; apply in_map; auto|]. split; [|rewrite <- Et; apply in_map; auto]. rewrite <- Ek. split; [apply Pm; auto|apply last_slice_ge; auto].
    - left. exists y. cbn. split; auto. split; [unfold sr_key; cbn; congruence|auto]. }
  destruct X as (z & Iz & Ez1 & Ez2). specialize (AllZ z). rewrite Ez2 in AllZ. specialize (AllZ ltac:(apply filter_In; split; auto; apply Z.eqb_eq; auto)).
  assert (Py : (0 < sr_norm y)%R).
  { apply Im in Iy. destruct Iy as (_ & _ & _ & Es & ->). rewrite Es, Er, Ek, Et. unfold mean_rate.
    destruct (Hp _ _ _ Ip) as ((A & B) & C). pose proof (step_span trace t0 t1 Hs Hp _ _ _ Ip) as Ht.
    assert (O1 : (0 < overlap (dr_start (fst p)) (dr_end (fst p)) (slice_lo t0 t1 n k) (slice_hi t0 t1 n k))%R).
    { destruct J as (Bk & u & H1 & H2). assert (Pn : (0 < IZR n)%R) by (apply IZR_lt; lia). assert (Ps : (0 < (t1 - t0) / IZR n)%R) by (apply Rdiv_lt_0_compat; lra).
      unfold overlap, Rmax, Rmin. repeat (destruct (Rle_dec _ _)); lra. }
    assert (POS : forall g : drow * drow -> R, (forall q, In q (steps trace r (sr_type x)) -> (0 <= g q)%R) -> (0 < g p)%R -> (0 < Rsum g (steps trace r (sr_type x)))%R).
    { intros g Gp Gq. pose proof (Rsum_nonneg _ g _ Gp) as Q. destruct (Rle_lt_or_eq_dec _ _ Q) as [|Q0]; auto. exfalso. pose proof (Rsum_zero_inv _ g _ Gp (eq_sym Q0) p Ip). lra. }
    apply Rdiv_lt_0_compat; apply POS.
    - intros q Iq. destruct (Hp0 _ _ _ Iq) as (_ & C1 & C2). unfold rate. apply Rmult_le_pos; [|apply overlap_nonneg]. unfold Rdiv. apply Rmult_le_pos; auto. left. apply Rinv_0_lt_compat. auto.
    - unfold rate. apply Rmult_lt_0_compat; auto. apply Rdiv_lt_0_compat; auto.
    - intros. apply overlap_nonneg.
    - auto. }
  rewrite Rmax_0 in AllZ by lra. lra.
Qed.
Print Assumptions C67_defined.

(** ** The hypotheses are met *)
Definition ex_cnt (r t : Z) (s e v : R) : drow := mkDR NVariable r t s e (e - s) 0 v.
Definition ex_counters : list drow := [ex_cnt 1 1 0 1 0; ex_cnt 1 1 1 2 4; ex_cnt 1 1 2 3 2].

Lemma ex_counters_span : trace_span ex_counters 0 3.
Proof.
  split; [exists (ex_cnt 1 1 0 1 0); cbn; auto|]. split; [exists (ex_cnt 1 1 2 3 2); cbn; auto 6|]. intros w [<-|[<-|[<-|[]]]]; cbn; lra.
Qed.

Lemma ex_steps : forall r t, steps ex_counters r t = if (r =? 1) && (t =? 1) then [(ex_cnt 1 1 0 1 0, ex_cnt 1 1 1 2 4); (ex_cnt 1 1 1 2 4, ex_cnt 1 1 2 3 2)] else [].
Proof.
  intros r t. unfold steps, ex_counters. cbn [filter dr_res dr_type ex_cnt]. rewrite (Z.eqb_sym 1 r), (Z.eqb_sym 1 t). destruct ((r =? 1) && (t =? 1)); reflexivity.
Qed.

(** Three measures, cut into three slices: the last row only gives its value to the row before, and there is no third slice in the result. *)
Example C67_nonvacuous : trace_span ex_counters 0 3 /\
  (forall r t p, In p (steps ex_counters r t) -> row_ok (fst p) /\ (0 < dr_dur (fst p))%R /\ (0 <= dr_num (snd p))%R) /\
  (forall r t p, In p (steps ex_counters r t) -> exists r' p', In p' (steps ex_counters r' t) /\ (0 < dr_num (snd p'))%R) /\
  exists o, r_slicercounter ex_counters 3 = Ok o /\ In (mkSR 1 1 1 0 1 4 (4 / 6)) o /\ In (mkSR 1 2 1 1 2 2 (2 / 6)) o /\ forall x, In x o -> sr_slice x <= 2.
Proof.
  split; [apply ex_counters_span|].
  assert (H1 : forall r t p, In p (steps ex_counters r t) -> row_ok (fst p) /\ (0 < dr_dur (fst p))%R /\ (0 <= dr_num (snd p))%R).
  { intros r t p I. rewrite ex_steps in I. destruct (_ && _); [|destruct I]. destruct I as [<-|[<-|[]]]; unfold row_ok; cbn; lra. }
  assert (H2 : forall r t p, In p (steps ex_counters r t) -> exists r' p', In p' (steps ex_counters r' t) /\ (0 < dr_num (snd p'))%R).
  { intros r t p I. exists r, (ex_cnt 1 1 0 1 0, ex_cnt 1 1 1 2 4). rewrite ex_steps in *. destruct (_ && _); [|destruct I]. cbn. split; auto; lra. }
  split; auto. split; auto. destruct (C67_defined ex_counters 3 0 3 ex_counters_span ltac:(lia) H1) as (o & E); auto.
  { exists 1, 1, (ex_cnt 1 1 0 1 0, ex_cnt 1 1 1 2 4). rewrite ex_steps. cbn. auto. }
  exists o. split; auto. destruct (C67_counter ex_counters 3 0 3 o ex_counters_span E) as (N & K & (rK & tK & MK) & Km & Io).
  assert (U : forall r t k, measured ex_counters 0 3 3 r t k <-> r = 1 /\ t = 1 /\ 1 <= k <= 2).
  { intros r t k. unfold measured. rewrite ex_steps. split.
    - intros (p & I & ((B1 & B2) & u & J1 & J2)). destruct (r =? 1) eqn:Er; [|destruct I]. destruct (t =? 1) eqn:Et; [|destruct I]. apply Z.eqb_eq in Er. apply Z.eqb_eq in Et. cbn [andb] in I. split; auto. split; auto.
      unfold slice_lo, slice_hi in J2. rewrite minus_IZR in J2. assert (Q : (IZR k < 3)%R) by (destruct I as [<-|[<-|[]]]; cbn in *; lra). apply lt_IZR in Q. lia.
    - intros (-> & -> & B). cbn [Z.eqb Pos.eqb andb]. assert (K12 : k = 1 \/ k = 2) by lia. destruct K12 as [->| ->].
      + exists (ex_cnt 1 1 0 1 0, ex_cnt 1 1 1 2 4). split; [left; auto|]. split; [lia|]. exists 0.5%R. unfold slice_lo, slice_hi. cbn. lra.
      + exists (ex_cnt 1 1 1 2 4, ex_cnt 1 1 2 3 2). split; [right; left; auto|]. split; [lia|]. exists 1.5%R. unfold slice_lo, slice_hi. cbn. lra. }
  assert (K = 2) as -> by (pose proof (Km 1 1 2 ltac:(apply U; lia)); apply U in MK; lia).
  assert (Me : forall k, k = 1 \/ k = 2 -> mean_rate ex_counters 1 1 (slice_lo 0 3 3 k) (slice_hi 0 3 3 k) = (if k =? 1 then 4 else 2)%R).
  { intros k Hk. unfold mean_rate. rewrite ex_steps. cbn [Z.eqb Pos.eqb andb]. rewrite !Rsum_cons, !Rsum_nil. unfold rate, slice_lo, slice_hi, overlap, Rmax, Rmin.
    destruct Hk as [->| ->]; cbn; repeat (destruct (Rle_dec _ _)); lra. }
  assert (Kx : forall x, In x o -> x = mkSR 1 1 1 (sr_lo x) (sr_hi x) 4 (sr_norm x) \/ x = mkSR 1 2 1 (sr_lo x) (sr_hi x) 2 (sr_norm x)).
  { intros x I. apply Io in I. destruct I as ((t & k & M1) & (r & k' & M2) & B & A1 & _ & _). apply U in M1. apply U in M2. destruct M1 as (Er & _), M2 as (_ & Et & _). rewrite Er, Et in *.
    destruct (A1 ltac:(apply U; lia)) as (_ & _ & Es). assert (K12 : sr_slice x = 1 \/ sr_slice x = 2) by lia. rewrite (Me _ K12) in Es.
    destruct x as [r' k0 t' a b c d]. cbn in *. subst. destruct K12 as [->| ->]; cbn; rewrite Rmax_0 by lra; auto. }
  assert (Ex : forall k, k = 1 \/ k = 2 -> exists d, In (mkSR 1 k 1 (IZR (k - 1)) (IZR k) (if k =? 1 then 4 else 2) d) o).
  { intros k Hk. set (s := (if k =? 1 then 4 else 2)%R). exists (s / sum_where (fun y => (sr_type y =? 1)%Z) sr_sum o)%R. apply Io. cbn [sr_res sr_slice sr_type sr_lo sr_hi sr_sum sr_norm].
    split; [exists 1, 1; apply U; lia|]. split; [exists 1, 1; apply U; lia|]. split; [lia|]. split; [|split; [intro H; exfalso; apply H; apply U; lia|reflexivity]].
    intros _. rewrite (Me k Hk). fold s. unfold slice_lo, slice_hi. rewrite minus_IZR. split; [lra|]. split; [lra|]. rewrite Rmax_0; auto. unfold s. destruct (k =? 1); lra. }
  assert (Tot : sum_where (fun y => sr_type y =? 1) sr_sum o = 6%R).
  { destruct (Ex 1 ltac:(auto)) as (d1 & I1), (Ex 2 ltac:(auto)) as (d2 & I2). cbn [Z.eqb Pos.eqb] in I1, I2.
    assert (P : Permutation o [mkSR 1 1 1 (IZR (1 - 1)) 1 4 d1; mkSR 1 2 1 (IZR (2 - 1)) 2 2 d2]).
    { apply NoDup_Permutation; [apply (NoDup_map_inv sr_key); auto|repeat constructor; cbn; intuition congruence|].
      assert (Uq : forall x y, In x o -> In y o -> sr_key x = sr_key y -> x = y).
      { intros x y Ix Iy Ek. pose proof (filter_key_one _ _ dec3 sr_key o x N Ix) as F1. pose proof (filter_key_one _ _ dec3 sr_key o y N Iy) as F2. rewrite Ek in F1. congruence. }
      intro x. split.
      - intro I. destruct (Kx x I) as [Hx|Hx]; [left|right; left]; apply Uq; auto; rewrite Hx; reflexivity.
      - intros [<-|[<-|[]]]; auto. }
    unfold sum_where. rewrite Rsum_filter, (Rsum_perm _ _ _ _ P). cbn. lra. }
  assert (Ex2 : forall k, k = 1 \/ k = 2 -> In (mkSR 1 k 1 (IZR (k - 1)) (IZR k) (if k =? 1 then 4 else 2) ((if k =? 1 then 4 else 2) / 6)) o).
  { intros k Hk. destruct (Ex k Hk) as (d & I). pose proof I as I'. apply Io in I'. cbn [sr_res sr_slice sr_type sr_lo sr_hi sr_sum sr_norm] in I'. destruct I' as (_ & _ & _ & _ & _ & Ed). rewrite Tot in Ed. rewrite <- Ed. exact I. }
  split; [exact (Ex2 1 ltac:(auto))|]. split; [exact (Ex2 2 ltac:(auto))|]. intros x I. apply Io in I. lia.
Qed.
