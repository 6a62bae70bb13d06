(** * Property C66: slicerstate (R/lpaggreg_pjdump.R). *)
From Coq Require Import Lia Permutation Reals Lra.
From Verif Require Import Base BaseFacts Arith SpecParts InfoFacts RHelpers SpecMacro MacroFacts HMacroFacts Slicer SpecSlicer SlicerFacts.

Lemma Rmax_0 : forall x, (0 <= x)%R -> Rmax 0 x = x.
Proof. intros. unfold Rmax. destruct (Rle_dec 0 x); lra. Qed.

Lemma filter_map_sh : forall X Y (f : X -> Y) (P : Y -> bool) (g : Y -> R) l, Rsum g (filter P (map f l)) = Rsum (fun x => g (f x)) (filter (fun x => P (f x)) l).
Proof. intros. rewrite filter_map_swap, Rsum_map. reflexivity. Qed.

Definition sh (t0 : R) (w : drow) : drow := dr_shift t0 (dr_typed w).

Lemma sh_ok : forall t0 w, row_ok w -> row_ok (sh t0 w).
Proof. intros t0 w (H & E). unfold row_ok, sh, dr_shift, dr_typed. cbn. split; lra. Qed.

Section State.
Context (trace : list drow) (n : Z) (t0 t1 : R).
Hypothesis Hspan : trace_span trace t0 t1.
Hypothesis Hrows : forall w, In w trace -> row_ok w.
Hypothesis Ht : (t0 < t1)%R.
Hypothesis Hn : 1 <= n.
Let st := ((t1 - t0) / IZR n)%R.
Let h := sl_join st n (map (sh t0) trace).

Lemma st_pos : (0 < st)%R.
Proof. unfold st. apply Rdiv_lt_0_compat; [lra|]. apply IZR_lt. lia. Qed.

Lemma In_h : forall w' k, In (w', k) h <-> exists w, In w trace /\ w' = sh t0 w /\ inside t0 t1 n w k.
Proof.
  intros w' k. unfold h. rewrite In_join, in_map_iff. split.
  - intros ((w & <- & I) & Hk & J). exists w. split; auto. split; auto. apply joined_meets in J; [|apply sh_ok; auto].
    apply (meets_inside t0 t1 n w k (sh t0)) in J; auto.
  - intros (w & I & -> & J). assert (Hk : 1 <= k <= n) by apply J. split; [exists w; auto|]. split; auto. apply joined_meets; [apply sh_ok; auto|]. apply (meets_inside t0 t1 n w k (sh t0)); auto.
Qed.

Lemma cell_sum : forall r k v, 1 <= k <= n ->
  r_sum (map (fun x => t_in_ts st (fst x) (snd x)) (filter (fun x => if dec3 (jkey x) (r, k, v) then true else false) h)) =
  time_in trace r v (slice_lo t0 t1 n k) (slice_hi t0 t1 n k).
Proof.
  intros r k v Hk. unfold r_sum. rewrite Rsum_map. unfold h. rewrite (join_sum st n _ (fun x => t_in_ts st (fst x) (snd x))) by auto. cbn [fst snd].
  rewrite filter_map_sh. unfold time_in.
  change (fun x => (dr_res (sh t0 x) =? r) && (dr_type (sh t0 x) =? v)) with (fun w => (dr_res w =? r) && (dr_state w =? v)).
  apply Rsum_ext. intros w I. apply filter_In in I. destruct I as [I _]. rewrite tints_overlap; [|apply sh_ok; auto|pose proof st_pos; lra].
  unfold st. destruct (slice_shift t0 t1 n k) as [-> ->]. cbn. apply overlap_shift.
Qed.

Lemma time_in_nonneg : forall r v lo hi, (0 <= time_in trace r v lo hi)%R.
Proof. intros. apply Rsum_nonneg. intros. apply overlap_nonneg. Qed.

(** Outside of the cells of [h] no time is spent. *)
Lemma time_in_none : forall r k v, 1 <= k <= n -> ~ (exists w, In w trace /\ dr_res w = r /\ dr_state w = v /\ inside t0 t1 n w k) ->
  time_in trace r v (slice_lo t0 t1 n k) (slice_hi t0 t1 n k) = 0%R.
Proof.
  intros r k v Hk H. rewrite <- cell_sum by auto. unfold r_sum. rewrite Rsum_map.
  match goal with |- Rsum _ ?l = _ => assert (E : l = []) end; [|rewrite E; reflexivity].
  apply filter_key_none. intro I. apply in_map_iff in I. destruct I as ([w' k'] & E & I). apply In_h in I. destruct I as (w & I & -> & J).
  unfold jkey in E. cbn in E. injection E as E1 E2 E3. subst. apply H. exists w. auto.
Qed.

Hypothesis Hsome : exists w k, In w trace /\ inside t0 t1 n w k.

Lemma h_nonempty : h <> [].
Proof. destruct Hsome as (w & k & I & J). intro E. assert (K : In (sh t0 w, k) h) by (apply In_h; exists w; auto). rewrite E in K. destruct K. Qed.

Lemma slicer_starts : exists a, r_slicerstate trace n = sl_fill (map (fun '(r, k, t, s) => mkSR r k t (ts_start st k) (ts_end st k) s (s / (t1 - t0))) a) /\ NoDup (map fst a) /\
  forall r k v s, In (r, k, v, s) a <-> (exists w, In w trace /\ dr_res w = r /\ dr_state w = v /\ inside t0 t1 n w k) /\ s = time_in trace r v (slice_lo t0 t1 n k) (slice_hi t0 t1 n k).
Proof.
  destruct Hspan as ((w0 & I0 & E0) & (w1 & I1 & E1) & Hb).
  assert (Emin : r_min (map dr_start (map dr_typed trace)) = Ok t0).
  { rewrite map_map. apply r_min_is; [apply in_map_iff; exists w0; split; [exact E0|exact I0]|]. intros x Ix. apply in_map_iff in Ix. destruct Ix as (w & <- & I). exact (proj1 (Hb w I)). }
  assert (Emax : r_max (map dr_end (map (dr_shift t0) (map dr_typed trace))) = Ok (t1 - t0)%R).
  { rewrite !map_map. apply r_max_is; [apply in_map_iff; exists w1; split; auto; cbn; lra|]. intros x Ix. apply in_map_iff in Ix. destruct Ix as (w & <- & I). cbn. pose proof (proj2 (Hb w I)). lra. }
  unfold r_slicerstate. rewrite Emin. cbn [bind]. rewrite Emax. cbn [bind]. fold st. rewrite map_map.
  change (map (fun x => dr_shift t0 (dr_typed x)) trace) with (map (sh t0) trace). fold h.
  pose proof h_nonempty as Hh. destruct (aggregate_ok dec3 (fun x : drow * Z => (dr_res (fst x), snd x, dr_type (fst x))) (fun x => t_in_ts st (fst x) (snd x)) r_sum h Hh) as (a & Ea & Na & Ia).
  exists a. split; [|split; auto].
  - destruct h as [|x0 h0] eqn:Eh; [congruence|]. rewrite Ea. reflexivity.
  - intros r k v s. rewrite Ia. split.
    + intros (([w' k'] & I & E) & ->). cbn [fst snd] in E. apply In_h in I. destruct I as (w & I & -> & J). cbn in E. injection E as <- <- <-.
      split; [exists w; auto|]. apply cell_sum. apply J.
    + intros ((w & I & <- & <- & J) & ->). split; [exists (sh t0 w, k); split; auto; apply In_h; exists w; auto|]. symmetry. apply cell_sum. apply J.
Qed.
End State.

Definition some_inside (trace : list drow) (t0 t1 : R) (n : Z) (P : drow -> Prop) : Prop := exists w k, In w trace /\ P w /\ inside t0 t1 n w k.

(** ** The result of slicerstate

    One row per resource, slice and state, among those seen inside a slice, up to the last slice [K] in which something is seen; Sum is the time the resource spends in the
    state within the slice, Normalized the same divided by the length of the trace. TsStart and TsEnd are the bounds of the slice relative to the beginning of the trace
    only where the resource has the state inside the slice, and 0 elsewhere. *)
Theorem C66_slicerstate : forall trace n t0 t1, trace_span trace t0 t1 -> (forall w, In w trace -> row_ok w) -> (t0 < t1)%R ->
  (exists w k, In w trace /\ inside t0 t1 n w k) ->
  exists o K, r_slicerstate trace n = Ok o /\ NoDup (map sr_key o) /\
    (exists w, In w trace /\ inside t0 t1 n w K) /\ (forall w k, In w trace -> inside t0 t1 n w k -> k <= K) /\
    forall x, In x o <->
      (exists w k, In w trace /\ dr_res w = sr_res x /\ inside t0 t1 n w k) /\
      (exists w k, In w trace /\ dr_state w = sr_type x /\ inside t0 t1 n w k) /\
      1 <= sr_slice x <= K /\
      sr_sum x = time_in trace (sr_res x) (sr_type x) (slice_lo t0 t1 n (sr_slice x)) (slice_hi t0 t1 n (sr_slice x)) /\
      sr_norm x = (sr_sum x / (t1 - t0))%R /\
      ((exists w, In w trace /\ dr_res w = sr_res x /\ dr_state w = sr_type x /\ inside t0 t1 n w (sr_slice x)) ->
         sr_lo x = (slice_lo t0 t1 n (sr_slice x) - t0)%R /\ sr_hi x = (slice_hi t0 t1 n (sr_slice x) - t0)%R) /\
      (~ (exists w, In w trace /\ dr_res w = sr_res x /\ dr_state w = sr_type x /\ inside t0 t1 n w (sr_slice x)) -> sr_lo x = 0%R /\ sr_hi x = 0%R).
Proof.
  intros trace n t0 t1 Hs Hr Ht He. assert (Hn : 1 <= n) by (destruct He as (w & k & _ & (B & _)); lia).
  destruct (slicer_starts trace n t0 t1 Hs Hr Ht Hn He) as (a & Ea & Na & Ia). rewrite Ea. clear Ea.
  set (st := ((t1 - t0) / IZR n)%R) in *. pose proof (st_pos n t0 t1 Ht Hn) as Hst. fold st in Hst.
  set (f := fun '(r, k, t, s) => mkSR r k t (ts_start st k) (ts_end st k) s (s / (t1 - t0))). set (m := map f a).
  assert (Im : forall y, In y m <-> exists w, In w trace /\ dr_res w = sr_res y /\ dr_state w = sr_type y /\ inside t0 t1 n w (sr_slice y) /\
     sr_lo y = ts_start st (sr_slice y) /\ sr_hi y = ts_end st (sr_slice y) /\ sr_sum y = time_in trace (sr_res y) (sr_type y) (slice_lo t0 t1 n (sr_slice y)) (slice_hi t0 t1 n (sr_slice y)) /\
     sr_norm y = (sr_sum y / (t1 - t0))%R).
  { intro y. unfold m. rewrite in_map_iff. split.
    - intros ([[[r k] v] s] & <- & I). apply Ia in I. destruct I as ((w & I & E1 & E2 & J) & ->). exists w. cbn. auto 10.
    - intros (w & I & E1 & E2 & J & E3 & E4 & E5 & E6). exists (sr_res y, sr_slice y, sr_type y, sr_sum y). split.
      + destruct y. cbn in *. subst. reflexivity.
      + apply Ia. split; auto. exists w. auto. }
  assert (Nm : NoDup (map sr_key m)).
  { unfold m. rewrite map_map. rewrite (map_ext _ fst) by (intros [[[? ?] ?] ?]; reflexivity). exact Na. }
  assert (Pm : forall y, In y m -> 1 <= sr_slice y). { intros y I. apply Im in I. destruct I as (w & _ & _ & _ & (B & _) & _). lia. }
  assert (Km : forall w k, In w trace -> inside t0 t1 n w k -> exists y, In y m /\ sr_res y = dr_res w /\ sr_slice y = k /\ sr_type y = dr_state w).
  { intros w k I J. exists (f (dr_res w, k, dr_state w, time_in trace (dr_res w) (dr_state w) (slice_lo t0 t1 n k) (slice_hi t0 t1 n k))). split; [|cbn; auto].
    apply Im. exists w. cbn. auto 10. }
  assert (Em : m <> []). { destruct He as (w & k & I & J). destruct (Km w k I J) as (y & Iy & _). intro E. rewrite E in Iy. destruct Iy. }
  destruct (fill_prf m Em Nm Pm) as (o & Eo & No & Io). exists o, (last_slice m).
  split; [exact Eo|]. split; [exact No|].
  assert (Lo : forall k, 1 <= k -> (0 <= ts_start st k)%R) by (intros k B; unfold ts_start; apply Rmult_le_pos; [apply IZR_le; lia|lra]).
  assert (Hi : forall k, 1 <= k -> (0 <= ts_end st k)%R) by (intros k B; unfold ts_end; apply Rmult_le_pos; [apply IZR_le; lia|lra]).
  split.
  { pose proof (last_slice_in m Em Pm) as L. apply in_map_iff in L. destruct L as (y & <- & I). apply Im in I. destruct I as (w & I & _ & _ & J & _). exists w. auto. }
  split.
  { intros w k I J. destruct (Km w k I J) as (y & Iy & _ & <- & _). apply last_slice_ge; auto. }
  assert (KN : last_slice m <= n). { pose proof (last_slice_in m Em Pm) as L. apply in_map_iff in L. destruct L as (y & <- & I). apply Im in I. destruct I as (w & _ & _ & _ & (B & _) & _). lia. }
  assert (Gr : forall x, In (sr_key x) (grid m) <-> (exists w k, In w trace /\ dr_res w = sr_res x /\ inside t0 t1 n w k) /\
      (exists w k, In w trace /\ dr_state w = sr_type x /\ inside t0 t1 n w k) /\ 1 <= sr_slice x <= last_slice m).
  { intro x. unfold sr_key. rewrite In_grid, !in_map_iff. split.
    - intros ((y & E1 & I1) & B & (y' & E2 & I2)). apply Im in I1. apply Im in I2. destruct I1 as (w & I1 & R1 & _ & J1 & _), I2 as (w' & I2 & _ & R2 & J2 & _).
      split; [exists w, (sr_slice y); split; auto; split; [congruence|auto]|]. split; [exists w', (sr_slice y'); split; auto; split; [congruence|auto]|auto].
    - intros ((w & k & I1 & E1 & J1) & (w' & k' & I2 & E2 & J2) & B). destruct (Km w k I1 J1) as (y & Iy & Ey & _), (Km w' k' I2 J2) as (y' & Iy' & _ & _ & Ey').
      split; [exists y; split; auto; congruence|]. split; auto. exists y'. split; auto; congruence. }
  intro x. rewrite Io, Gr.
  assert (KK : In (sr_key x) (map sr_key m) <-> exists w, In w trace /\ dr_res w = sr_res x /\ dr_state w = sr_type x /\ inside t0 t1 n w (sr_slice x)).
  { rewrite in_map_iff. split.
    - intros (y & E & I). apply Im in I. destruct I as (w & I & E1 & E2 & J & _). unfold sr_key in E. injection E as E3 E4 E5. exists w. rewrite <- E3, <- E4, <- E5. auto.
    - intros (w & I & E1 & E2 & J). destruct (Km w _ I J) as (y & Iy & F1 & F2 & F3). exists y. split; auto. unfold sr_key. congruence. }
  split.
  - intros ((G1 & G2 & B) & F). split; auto. split; auto. split; auto. destruct F as [(y & Iy & Ey & -> & -> & -> & ->)|(H & -> & -> & -> & ->)].
    + assert (J : In (sr_key x) (map sr_key m)) by (rewrite <- Ey; apply in_map; auto). apply KK in J. apply Im in Iy. destruct Iy as (w & I & E1 & E2 & In_ & -> & -> & -> & ->).
      unfold sr_key in Ey. injection Ey as F1 F2 F3. rewrite F1, F2, F3.
      rewrite (Rmax_0 (time_in _ _ _ _ _)) by apply time_in_nonneg. rewrite (Rmax_0 (ts_start _ _)), (Rmax_0 (ts_end _ _)) by (auto; apply Lo || apply Hi; lia).
      split; auto. split.
      { apply Rmax_0. unfold Rdiv. apply Rmult_le_pos; [apply time_in_nonneg|]. left. apply Rinv_0_lt_compat. lra. }
      split; [intros _; apply slice_shift|]. intro Hno. contradiction.
    + assert (Hno : ~ exists w, In w trace /\ dr_res w = sr_res x /\ dr_state w = sr_type x /\ inside t0 t1 n w (sr_slice x)) by (intro Q; apply H, KK; auto).
      split; [symmetry; apply time_in_none; auto; lia|]. split; [unfold Rdiv; lra|]. split; [intro Q; contradiction|auto].
  - intros (G1 & G2 & B & E1 & E2 & A1 & A2). split; [auto|]. destruct (in_dec dec3 (sr_key x) (map sr_key m)) as [J|J].
    + left. apply in_map_iff in J. destruct J as (y & Ey & Iy). exists y. split; auto. split; auto.
      assert (J : In (sr_key x) (map sr_key m)) by (rewrite <- Ey; apply in_map; auto). apply KK in J. destruct (A1 J) as [-> ->]. rewrite E2.
      apply Im in Iy. destruct Iy as (w & I & _ & _ & In_ & -> & -> & E6 & ->). unfold sr_key in Ey. injection Ey as F1 F2 F3. rewrite E6, F1, F2, F3, E1.
      rewrite !(Rmax_0 (time_in _ _ _ _ _)) by apply time_in_nonneg. rewrite (Rmax_0 (ts_start _ _)), (Rmax_0 (ts_end _ _)) by (auto; apply Lo || apply Hi; lia).
      destruct (slice_shift t0 t1 n (sr_slice x)) as [Q1 Q2]. fold st in Q1, Q2. rewrite Q1, Q2. repeat split; auto. symmetry. apply Rmax_0. unfold Rdiv. apply Rmult_le_pos; [apply time_in_nonneg|]. left. apply Rinv_0_lt_compat. lra.
    + right. split; auto. assert (Hno : ~ exists w, In w trace /\ dr_res w = sr_res x /\ dr_state w = sr_type x /\ inside t0 t1 n w (sr_slice x)) by (intro Q; apply J, KK; auto).
      destruct (A2 Hno) as [-> ->]. rewrite E2, E1. rewrite time_in_none by (auto; lia). repeat split; auto. unfold Rdiv; lra.
Qed.
Print Assumptions C66_slicerstate.

(** When no row of the trace is inside a slice (for example when all rows are instants at the bounds of the slices), slicerstate stops with an error. *)
Theorem C66_nothing : forall trace n t0 t1, trace_span trace t0 t1 -> (forall w, In w trace -> row_ok w) ->
  (forall w k, In w trace -> ~ inside t0 t1 n w k) -> (t0 < t1)%R -> r_slicerstate trace n = UB.
Proof.
  intros trace n t0 t1 Hspan Hr Hno Ht. destruct Hspan as ((w0 & I0 & E0) & (w1 & I1 & E1) & Hb).
  assert (Emin : r_min (map dr_start (map dr_typed trace)) = Ok t0).
  { rewrite map_map. apply r_min_is; [apply in_map_iff; exists w0; split; [exact E0|exact I0]|]. intros x Ix. apply in_map_iff in Ix. destruct Ix as (w & <- & I). exact (proj1 (Hb w I)). }
  assert (Emax : r_max (map dr_end (map (dr_shift t0) (map dr_typed trace))) = Ok (t1 - t0)%R).
  { rewrite !map_map. apply r_max_is; [apply in_map_iff; exists w1; split; auto; cbn; lra|]. intros x Ix. apply in_map_iff in Ix. destruct Ix as (w & <- & I). cbn. pose proof (proj2 (Hb w I)). lra. }
  unfold r_slicerstate. rewrite Emin. cbn [bind]. rewrite Emax. cbn [bind]. rewrite map_map.
  change (map (fun x => dr_shift t0 (dr_typed x)) trace) with (map (sh t0) trace).
  destruct (sl_join _ _ _) as [|[w' k] h] eqn:Eh; auto. exfalso.
  assert (K : In (w', k) (sl_join ((t1 - t0) / IZR n) n (map (sh t0) trace))) by (rewrite Eh; left; auto).
  apply In_join in K. destruct K as (Iw & Hk & J). apply in_map_iff in Iw. destruct Iw as (w & <- & I). apply (Hno w k I).
  apply (meets_inside t0 t1 n w k (sh t0)); auto. apply joined_meets; auto. apply sh_ok; auto.
Qed.
Print Assumptions C66_nothing.

Lemma slicer_some : forall trace n t0 t1 o, trace_span trace t0 t1 -> (forall w, In w trace -> row_ok w) -> (t0 < t1)%R -> r_slicerstate trace n = Ok o ->
  exists w k, In w trace /\ inside t0 t1 n w k.
Proof.
  intros trace n t0 t1 o Hs Hr Ht E. apply Classical_Prop.NNPP. intro H. rewrite (C66_nothing trace n t0 t1) in E; auto; [discriminate|].
  intros w k I J. apply H. exists w, k. auto.
Qed.

Definition sr_of (r v : Z) (x : srow) : bool := (sr_res x =? r) && (sr_type x =? v).

Lemma slices_of : forall trace n t0 t1 o r v, trace_span trace t0 t1 -> (forall w, In w trace -> row_ok w) -> (t0 < t1)%R -> r_slicerstate trace n = Ok o ->
  Rsum sr_sum (filter (sr_of r v) o) = Rsum (fun k => time_in trace r v (slice_lo t0 t1 n k) (slice_hi t0 t1 n k)) (SpecR.upto n).
Proof.
  intros trace n t0 t1 o r v Hs Hr Ht E. pose proof (slicer_some _ _ _ _ _ Hs Hr Ht E) as He. assert (Hn : 1 <= n) by (destruct He as (w & k & _ & (B & _)); lia).
  destruct (C66_slicerstate trace n t0 t1 Hs Hr Ht He) as (o' & K & E' & N & (wK & IK & JK) & Kmax & Io). rewrite E in E'. injection E' as <-.
  set (f := fun k => time_in trace r v (slice_lo t0 t1 n k) (slice_hi t0 t1 n k)).
  assert (Eq : Rsum sr_sum (filter (sr_of r v) o) = Rsum f (map sr_slice (filter (sr_of r v) o))).
  { rewrite Rsum_map. apply Rsum_ext. intros x I. apply filter_In in I. destruct I as [I C]. apply Io in I. destruct I as (_ & _ & _ & -> & _). unfold sr_of in C. apply andb_true_iff in C. rewrite !Z.eqb_eq in C. destruct C as [-> ->]. reflexivity. }
  rewrite Eq. clear Eq.
  destruct (Classical_Prop.classic ((exists w k, In w trace /\ dr_res w = r /\ inside t0 t1 n w k) /\ (exists w k, In w trace /\ dr_state w = v /\ inside t0 t1 n w k))) as [[S1 S2]|S].
  - assert (P : Permutation (map sr_slice (filter (sr_of r v) o)) (SpecR.upto K)).
    { apply NoDup_Permutation; [|apply NoDup_zrange|].
      - apply (NoDup_map_inv (fun k => (r, k, v))). rewrite map_map. rewrite (map_ext_in _ sr_key).
        + clear -N. induction o as [|x o IH]; cbn; [constructor|]. cbn in N. inversion N as [|? ? Hx N']; subst. destruct (sr_of r v x); cbn; auto. constructor; auto.
          intro J. apply Hx. apply in_map_iff in J. destruct J as (y & Ey & J). apply filter_In in J. rewrite <- Ey. apply in_map. tauto.
        + intros x I. apply filter_In in I. destruct I as [_ C]. unfold sr_of in C. apply andb_true_iff in C. rewrite !Z.eqb_eq in C. destruct C as [<- <-]. reflexivity.
      - intro k. rewrite in_map_iff, In_upto. split.
        + intros (x & <- & I). apply filter_In in I. destruct I as [I _]. apply Io in I. tauto.
        + intro B.
          assert (X : exists x, In x o /\ sr_key x = (r, k, v)).
          { destruct (Classical_Prop.classic (exists w, In w trace /\ dr_res w = r /\ dr_state w = v /\ inside t0 t1 n w k)) as [Q|Q].
            - exists (mkSR r k v (slice_lo t0 t1 n k - t0) (slice_hi t0 t1 n k - t0) (f k) (f k / (t1 - t0))). split; auto. apply Io. cbn. repeat split; auto; try lia; tauto.
            - exists (mkSR r k v 0 0 (f k) (f k / (t1 - t0))). split; auto. apply Io. cbn. repeat split; auto; try lia; tauto. }
          destruct X as (x & I & Ex). exists x. unfold sr_key in Ex. injection Ex as E1 E2 E3. split; auto. apply filter_In. split; auto. unfold sr_of. rewrite E1, E3, !Z.eqb_refl. reflexivity. }
    rewrite (Rsum_perm _ _ _ _ P). assert (B : 1 <= K <= n) by apply JK. unfold SpecR.upto. rewrite (zrange_app 1 (K + 1) (n + 1)) by lia. rewrite Rsum_app.
    rewrite (Rsum_zero _ f (zrange (K + 1) (n + 1))); [lra|]. intros k I. apply In_zrange in I. unfold f. apply time_in_none; auto; [lia|].
    intros (w & Iw & _ & _ & J). specialize (Kmax w k Iw J). lia.
  - replace (filter (sr_of r v) o) with (@nil srow).
    + cbn [map]. rewrite Rsum_nil. symmetry. apply Rsum_zero. intros k I. apply In_upto in I. unfold f. apply time_in_none; auto.
      intros (w & Iw & Er & Ev & J). apply S. split; exists w, k; auto.
    + symmetry. destruct (filter (sr_of r v) o) as [|x l] eqn:El; auto. exfalso. assert (I : In x (filter (sr_of r v) o)) by (rewrite El; left; auto).
      apply filter_In in I. destruct I as [I C]. apply Io in I. unfold sr_of in C. apply andb_true_iff in C. rewrite !Z.eqb_eq in C. destruct C as [<- <-]. destruct I as (S1 & S2 & _). apply S. auto.
Qed.

Lemma slice_next : forall t0 t1 n k, slice_hi t0 t1 n k = slice_lo t0 t1 n (k + 1).
Proof. intros. unfold slice_hi, slice_lo. replace (k + 1 - 1) with k by lia. reflexivity. Qed.

(** No time is lost: over the slices, the times of a resource in a state add up to the total duration of its rows with that state. *)
Theorem C66_conserved : forall trace n t0 t1 o r v, trace_span trace t0 t1 -> (forall w, In w trace -> row_ok w) -> (t0 < t1)%R -> r_slicerstate trace n = Ok o ->
  sum_where (fun x => (sr_res x =? r) && (sr_type x =? v)) sr_sum o = sum_where (fun w => (dr_res w =? r) && (dr_state w =? v)) dr_dur trace /\
  (sum_where (fun x => (sr_res x =? r) && (sr_type x =? v)) sr_norm o * (t1 - t0) = sum_where (fun w => (dr_res w =? r) && (dr_state w =? v)) dr_dur trace)%R.
Proof.
  intros trace n t0 t1 o r v Hs Hr Ht E. pose proof (slices_of trace n t0 t1 o r v Hs Hr Ht E) as Q.
  assert (Hn : 1 <= n) by (destruct (slicer_some _ _ _ _ _ Hs Hr Ht E) as (w & k & _ & (B & _)); lia).
  assert (A1 : sum_where (fun x => (sr_res x =? r) && (sr_type x =? v)) sr_sum o = sum_where (fun w => (dr_res w =? r) && (dr_state w =? v)) dr_dur trace).
  { unfold sum_where. change (fun x => (sr_res x =? r) && (sr_type x =? v)) with (sr_of r v). rewrite Q. unfold time_in. rewrite Rsum_swap. apply Rsum_ext. intros w I. apply filter_In in I. destruct I as [I _].
    destruct (Hr w I) as [Hw Hd]. destruct Hs as (_ & _ & Hb). specialize (Hb w I).
    rewrite (Rsum_ext _ _ (fun k => overlap (dr_start w) (dr_end w) (slice_lo t0 t1 n k) (slice_lo t0 t1 n (k + 1)))) by (intros; rewrite slice_next; auto).
    unfold SpecR.upto. assert (Pn : (0 < IZR n)%R) by (apply IZR_lt; lia).
    rewrite (overlap_tiles (fun k => slice_lo t0 t1 n k)); [|auto|lia|].
    - rewrite Hd. apply overlap_all; auto.
      + unfold slice_lo. replace (1 - 1) with 0 by lia. unfold Rdiv. lra.
      + unfold slice_lo. replace (n + 1 - 1) with n by lia. unfold Rdiv. rewrite Rmult_assoc, Rinv_r by lra. lra.
    - intros k _. unfold slice_lo. replace (k + 1 - 1) with k by lia. rewrite minus_IZR. assert ((0 < (t1 - t0) / IZR n)%R) by (apply Rdiv_lt_0_compat; lra). unfold Rdiv in *. lra. }
  split; auto. rewrite <- A1. unfold sum_where. rewrite <- (Rmult_comm (t1 - t0)), <- Rsum_scal. apply Rsum_ext. intros x I. apply filter_In in I. destruct I as [I _].
  destruct (C66_slicerstate trace n t0 t1 Hs Hr Ht (slicer_some _ _ _ _ _ Hs Hr Ht E)) as (o' & K & E' & _ & _ & _ & Io). rewrite E in E'. injection E' as <-. apply Io in I.
  destruct I as (_ & _ & _ & _ & -> & _). field. lra.
Qed.
Print Assumptions C66_conserved.

(** All slices are there when the trace ends with a row that has a duration. *)
Theorem C66_all_slices : forall trace n t0 t1 w, trace_span trace t0 t1 -> (forall w, In w trace -> row_ok w) -> (t0 < t1)%R -> 1 <= n ->
  In w trace -> dr_end w = t1 -> (dr_start w < dr_end w)%R ->
  exists o, r_slicerstate trace n = Ok o /\ forall k, In k (map sr_slice o) <-> 1 <= k <= n.
Proof.
  intros trace n t0 t1 w Hs Hr Ht Hn I Ee Hd.
  assert (Pn : (0 < IZR n)%R) by (apply IZR_lt; lia). assert (Ps : (0 < (t1 - t0) / IZR n)%R) by (apply Rdiv_lt_0_compat; lra).
  assert (J : inside t0 t1 n w n).
  { split; [lia|]. destruct (Rle_dec (dr_start w) (slice_lo t0 t1 n n)) as [B|B].
    - exists ((slice_lo t0 t1 n n + t1) / 2)%R. assert (slice_lo t0 t1 n n < t1)%R by (replace (slice_lo t0 t1 n n) with (t1 - (t1 - t0) / IZR n)%R by (unfold slice_lo; rewrite minus_IZR; field; lra); lra).
      assert (slice_hi t0 t1 n n = t1) as -> by (unfold slice_hi; field; lra). lra.
    - exists ((dr_start w + t1) / 2)%R. assert (slice_hi t0 t1 n n = t1) as -> by (unfold slice_hi; field; lra). lra. }
  destruct (C66_slicerstate trace n t0 t1 Hs Hr Ht) as (o & K & E & N & (wK & IK & JK) & Kmax & Io); [exists w, n; auto|].
  exists o. split; auto. assert (K = n) as -> by (pose proof (Kmax w n I J); pose proof (proj1 JK); lia).
  intro k. rewrite in_map_iff. split.
  - intros (x & <- & Ix). apply Io in Ix. tauto.
  - intro B. set (f := time_in trace (dr_res w) (dr_state w) (slice_lo t0 t1 n k) (slice_hi t0 t1 n k)).
    destruct (Classical_Prop.classic (exists w', In w' trace /\ dr_res w' = dr_res w /\ dr_state w' = dr_state w /\ inside t0 t1 n w' k)) as [Q|Q].
    + exists (mkSR (dr_res w) k (dr_state w) (slice_lo t0 t1 n k - t0) (slice_hi t0 t1 n k - t0) f (f / (t1 - t0))). split; auto. apply Io. cbn. repeat split; auto; try lia; try tauto; exists w, n; auto.
    + exists (mkSR (dr_res w) k (dr_state w) 0 0 f (f / (t1 - t0))). split; auto. apply Io. cbn. repeat split; auto; try lia; try tauto; exists w, n; auto.
Qed.
Print Assumptions C66_all_slices.

(** A resource that is in one state at a time spends at most the length of a slice in a slice. *)
Theorem C66_full : forall trace n t0 t1 o r k, trace_span trace t0 t1 -> (forall w, In w trace -> row_ok w) -> (t0 < t1)%R -> r_slicerstate trace n = Ok o ->
  one_at_a_time trace r ->
  (sum_where (fun x => (sr_res x =? r) && (sr_slice x =? k)) sr_sum o <= (t1 - t0) / IZR n)%R /\
  (sum_where (fun x => (sr_res x =? r) && (sr_slice x =? k)) sr_norm o <= / IZR n)%R.
Proof.
  intros trace n t0 t1 o r k Hs Hr Ht E Hone. pose proof (slicer_some _ _ _ _ _ Hs Hr Ht E) as He. assert (Hn : 1 <= n) by (destruct He as (w & k' & _ & (B & _)); lia).
  assert (Pn : (0 < IZR n)%R) by (apply IZR_lt; lia). assert (Ps : (0 < (t1 - t0) / IZR n)%R) by (apply Rdiv_lt_0_compat; lra).
  destruct (C66_slicerstate trace n t0 t1 Hs Hr Ht He) as (o' & K & E' & N & _ & _ & Io). rewrite E in E'. injection E' as <-.
  set (rows := filter (fun x => (sr_res x =? r) && (sr_slice x =? k)) o).
  assert (A1 : (Rsum sr_sum rows <= (t1 - t0) / IZR n)%R).
  { apply Rle_trans with (Rsum (fun w => overlap (dr_start w) (dr_end w) (slice_lo t0 t1 n k) (slice_hi t0 t1 n k)) (filter (fun w => dr_res w =? r) trace)).
    - assert (Nt : NoDup (map sr_type rows)).
      { apply (NoDup_map_inv (fun v => (r, k, v))). rewrite map_map. rewrite (map_ext_in _ sr_key).
        + unfold rows. clear -N. induction o as [|x o IH]; cbn; [constructor|]. cbn in N. inversion N as [|? ? Hx N']; subst. destruct (_ && _); cbn; auto. constructor; auto.
          intro J. apply Hx. apply in_map_iff in J. destruct J as (y & Ey & J). apply filter_In in J. rewrite <- Ey. apply in_map. tauto.
        + intros x I. apply filter_In in I. destruct I as [_ C]. apply andb_true_iff in C. rewrite !Z.eqb_eq in C. destruct C as [<- <-]. reflexivity. }
      rewrite (Rsum_ext _ sr_sum (fun x => Rsum (fun w => if dr_state w =? sr_type x then overlap (dr_start w) (dr_end w) (slice_lo t0 t1 n k) (slice_hi t0 t1 n k) else 0%R) (filter (fun w => dr_res w =? r) trace))).
      2: { intros x I. apply filter_In in I. destruct I as [I C]. apply andb_true_iff in C. rewrite !Z.eqb_eq in C. destruct C as [C1 C2]. apply Io in I. destruct I as (_ & _ & _ & -> & _). rewrite C1, C2.
           unfold time_in. rewrite !Rsum_filter. apply Rsum_ext. intros w _. destruct (dr_res w =? r), (dr_state w =? sr_type x); reflexivity. }
      rewrite Rsum_swap. apply Rsum_le. intros w _. set (c := overlap _ _ _ _). assert (Hc : (0 <= c)%R) by apply overlap_nonneg.
      rewrite <- (Rsum_map _ _ (fun v => if dr_state w =? v then c else 0%R) sr_type).
      rewrite (Rsum_ext _ _ (fun v => if v =? dr_state w then c else 0%R)) by (intros v _; rewrite Z.eqb_sym; reflexivity).
      rewrite (Rsum_pick (fun _ => c)) by auto. destruct (existsb _ _); lra.
    - replace ((t1 - t0) / IZR n)%R with (slice_hi t0 t1 n k - slice_lo t0 t1 n k)%R by (unfold slice_hi, slice_lo; rewrite minus_IZR; field; lra).
      apply overlap_disjoint.
      + unfold slice_hi, slice_lo. rewrite minus_IZR. unfold Rdiv in *. lra.
      + intros w I. apply filter_In in I. apply Hr. tauto.
      + clear -Hone. unfold one_at_a_time in Hone. induction Hone as [|w l Hw Hl IH]; cbn; [constructor|]. destruct (Z.eqb_spec (dr_res w) r) as [Ew|Ew]; auto. constructor; auto.
        rewrite Forall_forall in *. intros x Ix. apply filter_In in Ix. rewrite Z.eqb_eq in Ix. apply Hw; tauto. }
  split; [exact A1|]. unfold sum_where. fold rows.
  rewrite (Rsum_ext _ sr_norm (fun x => (/ (t1 - t0) * sr_sum x)%R)) by (intros x I; apply filter_In in I; destruct I as [I _]; apply Io in I; destruct I as (_ & _ & _ & _ & -> & _); field; lra).
  rewrite (Rsum_scal _ sr_sum (/ (t1 - t0))). apply Rmult_le_reg_l with (t1 - t0)%R; [lra|]. rewrite <- Rmult_assoc, Rinv_r, Rmult_1_l by lra. exact A1.
Qed.
Print Assumptions C66_full.

(** ** The hypotheses are met, and what happens without them *)
Definition ex_row (r v : Z) (s e : R) : drow := mkDR NState r 0 s e (e - s) v 0.
Definition ex_trace : list drow := [ex_row 1 1 10 13; ex_row 1 2 13 14; ex_row 2 1 11 12].

Example C66_nonvacuous : trace_span ex_trace 10 14 /\ (forall w, In w ex_trace -> row_ok w) /\ (10 < 14)%R /\ one_at_a_time ex_trace 1 /\
  (exists w, In w ex_trace /\ dr_end w = 14%R /\ (dr_start w < dr_end w)%R) /\
  exists o, r_slicerstate ex_trace 2 = Ok o /\ (forall k, In k (map sr_slice o) <-> 1 <= k <= 2) /\
    sum_where (fun x => (sr_res x =? 1) && (sr_type x =? 1)) sr_sum o = 3%R /\ In (mkSR 1 2 1 2 4 1 (1 / 4)) o /\ In (mkSR 2 1 2 0 0 0 0) o.
Proof.
  assert (S : trace_span ex_trace 10 14).
  { split; [exists (ex_row 1 1 10 13); cbn; auto|]. split; [exists (ex_row 1 2 13 14); cbn; auto|].
    intros w [<-|[<-|[<-|[]]]]; cbn; lra. }
  assert (O : forall w, In w ex_trace -> row_ok w) by (intros w [<-|[<-|[<-|[]]]]; unfold row_ok; cbn; lra).
  assert (T : (10 < 14)%R) by lra.
  assert (L : exists w, In w ex_trace /\ dr_end w = 14%R /\ (dr_start w < dr_end w)%R) by (exists (ex_row 1 2 13 14); cbn; repeat split; auto; lra).
  split; auto. split; auto. split; auto. split.
  { unfold one_at_a_time, ex_trace. constructor; [|constructor; [|constructor; [|constructor]]]; apply Forall_forall; intros w I; repeat (destruct I as [<-|I]; [cbn; intros; first [lia|left; lra]|]); destruct I. }
  split; auto. destruct L as (w & I & Ee & Hd).
  destruct (C66_all_slices ex_trace 2 10 14 w S O T ltac:(lia) I Ee Hd) as (o & E & Ks). exists o. split; auto. split; auto.
  destruct (C66_conserved ex_trace 2 10 14 o 1 1 S O T E) as [C _]. split; [rewrite C; cbn; lra|].
  destruct (C66_slicerstate ex_trace 2 10 14 S O T (slicer_some _ _ _ _ _ S O T E)) as (o' & K & E' & _ & _ & Km & Io). rewrite E in E'. injection E' as <-.
  assert (J1 : inside 10 14 2 (ex_row 1 1 10 13) 2) by (split; [lia|]; exists 12.5%R; unfold slice_lo, slice_hi; cbn; lra).
  assert (J2 : inside 10 14 2 (ex_row 2 1 11 12) 1) by (split; [lia|]; exists 11.5%R; unfold slice_lo, slice_hi; cbn; lra).
  assert (J3 : inside 10 14 2 (ex_row 1 2 13 14) 2) by (split; [lia|]; exists 13.5%R; unfold slice_lo, slice_hi; cbn; lra).
  assert (K2 : 2 <= K) by (apply (Km (ex_row 1 1 10 13)); cbn; auto).
  split; apply Io; cbn [sr_res sr_slice sr_type sr_lo sr_hi sr_sum sr_norm].
  - split; [exists (ex_row 1 1 10 13), 2; cbn; auto|]. split; [exists (ex_row 1 1 10 13), 2; cbn; auto|]. split; [lia|]. split.
    { unfold time_in, slice_lo, slice_hi, overlap, Rmax, Rmin. cbn. repeat (destruct (Rle_dec _ _)); lra. }
    split; [lra|]. split; [intros _; unfold slice_lo, slice_hi; cbn; lra|].
    intro H. exfalso. apply H. exists (ex_row 1 1 10 13). cbn. auto.
  - split; [exists (ex_row 2 1 11 12), 1; cbn; auto 6|]. split; [exists (ex_row 1 2 13 14), 2; cbn; auto|]. split; [lia|]. split; [reflexivity|]. split; [lra|]. split; [|auto].
    intros (w' & [<-|[<-|[<-|[]]]] & H1 & H2 & _); cbn in H1, H2; lia.
Qed.

(** A trace that ends with an instant gets fewer slices than asked for: here 2 instead of 4; and a resource with only that instant is missing. *)
Example C66_missing_slices : exists o, trace_span [ex_row 1 1 0 1; ex_row 2 1 2 2] 0 2 /\ r_slicerstate [ex_row 1 1 0 1; ex_row 2 1 2 2] 4 = Ok o /\
  (forall x, In x o -> sr_slice x <= 2 /\ sr_res x = 1) /\ In 2 (map sr_slice o).
Proof.
  assert (S : trace_span [ex_row 1 1 0 1; ex_row 2 1 2 2] 0 2).
  { split; [exists (ex_row 1 1 0 1); cbn; auto|]. split; [exists (ex_row 2 1 2 2); cbn; auto|]. intros w [<-|[<-|[]]]; cbn; lra. }
  assert (O : forall w, In w [ex_row 1 1 0 1; ex_row 2 1 2 2] -> row_ok w) by (intros w [<-|[<-|[]]]; unfold row_ok; cbn; lra).
  assert (J : inside 0 2 4 (ex_row 1 1 0 1) 2) by (split; [lia|]; exists 0.75%R; unfold slice_lo, slice_hi; cbn; lra).
  assert (U : forall w k, In w [ex_row 1 1 0 1; ex_row 2 1 2 2] -> inside 0 2 4 w k -> k <= 2 /\ dr_res w = 1).
  { intros w k [<-|[<-|[]]] ((B1 & B2) & t & H1 & H2); unfold slice_lo, slice_hi in *; cbn [ex_row dr_start dr_end dr_res] in *.
    - split; auto. rewrite minus_IZR in H2. assert (IZR k < 3)%R by lra. apply lt_IZR in H. lia.
    - assert (IZR k <= 4)%R by (apply IZR_le; lia). lra. }
  destruct (C66_slicerstate [ex_row 1 1 0 1; ex_row 2 1 2 2] 4 0 2 S O ltac:(lra)) as (o & K & E & _ & (wK & IK & JK) & Km & Io); [exists (ex_row 1 1 0 1), 2; cbn; auto|].
  exists o. split; auto. split; auto. split.
  - intros x I. apply Io in I. destruct I as ((w & k & Iw & Er & Jw) & _ & B & _). destruct (U w k Iw Jw). destruct (U wK K IK JK). split; [lia|congruence].
  - apply in_map_iff. pose proof (Km (ex_row 1 1 0 1) 2 ltac:(cbn; auto) J) as K2.
    exists (mkSR 1 2 1 0.5 1 0.5 0.25). split; auto. apply Io. cbn [sr_res sr_slice sr_type sr_lo sr_hi sr_sum sr_norm].
    split; [exists (ex_row 1 1 0 1), 2; cbn; auto|]. split; [exists (ex_row 1 1 0 1), 2; cbn; auto|]. split; [lia|]. split.
    { unfold time_in, slice_lo, slice_hi, overlap, Rmax, Rmin. cbn. repeat (destruct (Rle_dec _ _)); lra. }
    split; [lra|]. split; [intros _; unfold slice_lo, slice_hi; cbn; lra|]. intro H. exfalso. apply H. exists (ex_row 1 1 0 1). cbn. auto.
Qed.
