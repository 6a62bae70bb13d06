(** * A finer time resolution: what the best partition becomes. *)
From Coq Require Import Reals Lra Lia Permutation Classical.
From Verif Require Import Base BaseFacts Arith Quality Utm UtmFacts UtmProofs SpecParts SpecInfo SpecData SpecResample Partitions Partitioners
  InfoFacts OFacts LexR OInfo OReal OProofs ODataProofs P_Mirror KeepFacts KeepSlices ResampleFacts.

Section B.
Variable (P : params).
Notation A := (RP P).
Variables (m : nat) (rows : list (list R)) (n : Z) (g h g' h' : R) (p p' : par A).
Hypothesis Hm : (0 < m)%nat.
Hypothesis Hn : 0 <= n <= 65535.
Hypothesis Hnm : n * Z.of_nat m <= 65535.
Hypothesis HL : Forall (fun r => vlen r = n) rows.
Hypothesis NN : Forall nonneg rows.
Hypothesis Hg : (0 < g)%R.
Hypothesis Hh : (0 < h)%R.
Hypothesis Hg' : (0 < g')%R.
Hypothesis Hh' : (0 < h')%R.
Notation a := (pp_num P p).
Notation b := (pp_num P (pp_compl P p)).
Notation a' := (pp_num P p').
Notation b' := (pp_num P (pp_compl P p')).
Hypothesis Ha : (0 < a)%R.
Hypothesis Hb : (0 < b)%R.
Hypothesis Ha' : (0 < a')%R.
Hypothesis Hb' : (0 < b')%R.
Hypothesis Bal : (a * g * (b' * h') = a' * g' * (b * h))%R.
Notation M := (Z.of_nat m).
Notation frows := (map (refine m) rows).
Variables (t t' : utm (quality A)) (x x' : opartition A).
Hypothesis U : urepr t n (fun i j => @mkQ A (g * ogain rows i j)%R (h * oloss rows i j)%R).
Hypothesis U' : urepr t' (n * M) (fun i j => @mkQ A (g' * ogain frows i j)%R (h' * oloss frows i j)%R).
Hypothesis E : o_best A t p = Ok x.
Hypothesis E' : o_best A t' p' = Ok x'.
Notation SG := (Rsum (fun ab => ogain rows (fst ab) (snd ab))).
Notation SL := (Rsum (fun ab => oloss rows (fst ab) (snd ab))).
Notation FG := (Rsum (fun ab => ogain frows (fst ab) (snd ab))).
Notation FL := (Rsum (fun ab => oloss frows (fst ab) (snd ab))).

Lemma Hnm' : 0 <= n * M <= 65535. Proof. clear - Hn Hnm. nia. Qed.
Lemma co_tiles : tiles 0 n (ocoords x). Proof. exact (proj1 (o_total P t n _ _ p x Hn U E)). Qed.
Lemma fi_tiles : tiles 0 (n * M) (ocoords x'). Proof. exact (proj1 (o_total P t' (n * M) _ _ p' x' Hnm' U' E')). Qed.
Lemma co_quality : gain (on_quality x) = (g * SG (ocoords x))%R /\ loss (on_quality x) = (h * SL (ocoords x))%R.
Proof. destruct (o_total P t n _ _ p x Hn U E) as (_ & K1 & K2). rewrite K1, K2. split; apply Rsum_scal. Qed.
Lemma fi_quality : gain (on_quality x') = (g' * FG (ocoords x'))%R /\ loss (on_quality x') = (h' * FL (ocoords x'))%R.
Proof. destruct (o_total P t' (n * M) _ _ p' x' Hnm' U' E') as (_ & K1 & K2). rewrite K1, K2. split; apply Rsum_scal. Qed.
Lemma co_opt : forall l, tiles 0 n l -> no_better a b (g * SG (ocoords x)) (h * SL (ocoords x)) (g * SG l) (h * SL l).
Proof.
  intros l T. pose proof (o_no_better P t n _ _ p x l Hn U E T) as K. destruct co_quality as [K1 K2]. rewrite K1, K2 in K.
  rewrite (Rsum_scal _ _ g), (Rsum_scal _ _ h) in K. exact K.
Qed.
Lemma fi_opt : forall l, tiles 0 (n * M) l -> no_better a' b' (g' * FG (ocoords x')) (h' * FL (ocoords x')) (g' * FG l) (h' * FL l).
Proof.
  intros l T. pose proof (o_no_better P t' (n * M) _ _ p' x' l Hnm' U' E' T) as K. destruct fi_quality as [K1 K2]. rewrite K1, K2 in K.
  rewrite (Rsum_scal _ _ g'), (Rsum_scal _ _ h') in K. exact K.
Qed.
Lemma sum_oval : forall u w l, Rsum (fun ab => oval u w frows (fst ab) (snd ab)) l = (u * FG l - w * FL l)%R.
Proof.
  intros u w l. induction l as [|ab l IH]; [rewrite !Rsum_nil; lra|]. rewrite !Rsum_cons, IH. unfold oval. lra.
Qed.
Lemma otot_all : otot rows 0 (n - 1) = all_data rows.
Proof.
  unfold otot, all_data. apply Rsum_ext. intros r Ir. pose proof (proj1 (Forall_forall _ _) HL r Ir) as Lr. cbv beta in Lr. f_equal.
  unfold slice. cbn [skipn Z.to_nat]. apply firstn_all2. unfold vlen in Lr. lia.
Qed.
Notation K0 := (log2 (INR m) * all_data rows)%R.
Lemma fine_whole : forall l, tiles 0 n l -> FG (map (finer m) l) = (SG l + K0)%R /\ FL (map (finer m) l) = SL l.
Proof. intros l T. destruct (fine_sums m rows n Hm HL NN 0 n l T ltac:(lia) ltac:(lia)) as [K1 K2]. rewrite otot_all in K1. auto. Qed.

(** The values. *)
Lemma value_prf : (b * h * (a' * gain (on_quality x') - b' * loss (on_quality x')) =
                  b' * h' * (a * gain (on_quality x) - b * loss (on_quality x)) + b * h * (a' * (g' * K0)))%R.
Proof.
  destruct co_quality as [-> ->]. destruct fi_quality as [-> ->].
  assert (Pu : (0 < a' * g')%R) by (apply Rmult_lt_0_compat; auto). assert (Pw : (0 < b' * h')%R) by (apply Rmult_lt_0_compat; auto).
  assert (Pb : (0 < b * h)%R) by (apply Rmult_lt_0_compat; auto).
  destruct (aligned_opt m rows n Hm HL NN (a' * g') (b' * h') Pu Pw (ocoords x') fi_tiles) as (l0 & T0 & Q).
  { intros l' T'. rewrite !sum_oval. destruct (fi_opt l' T') as [K|[K _]]; lra. }
  rewrite !sum_oval in Q. destruct (fine_whole l0 T0) as [F1 F2]. rewrite F1, F2 in Q.
  destruct (fine_whole _ co_tiles) as [F3 F4].
  assert (O1 : (a * g * SG l0 - b * h * SL l0 <= a * g * SG (ocoords x) - b * h * SL (ocoords x))%R) by (destruct (co_opt l0 T0) as [K|[K _]]; lra).
  assert (O2 : (a' * g' * (SG (ocoords x) + K0) - b' * h' * SL (ocoords x) <= a' * g' * FG (ocoords x') - b' * h' * FL (ocoords x'))%R).
  { pose proof (tiles_finer m Hm 0 n _ co_tiles) as Tf. rewrite Z.mul_0_l in Tf. destruct (fi_opt _ Tf) as [K|[K _]]; rewrite F3, F4 in K; lra. }
  rewrite <- Q in O2.
  set (Gx := SG (ocoords x)) in *. set (Lx := SL (ocoords x)) in *. set (G0 := SG l0) in *. set (L0 := SL l0) in *. set (Gf := FG (ocoords x')) in *. set (Lf := FL (ocoords x')) in *.
  set (u := (a * g)%R) in *. set (w := (b * h)%R) in *. set (u' := (a' * g')%R) in *. set (w' := (b' * h')%R) in *. set (k := K0) in *.
  assert (W1 : (w' * (u * G0 - w * L0) <= w' * (u * Gx - w * Lx))%R) by (apply Rmult_le_compat_l; lra).
  assert (W2 : (w * (u' * (Gx + k) - w' * Lx) <= w * (u' * (G0 + k) - w' * L0))%R) by (apply Rmult_le_compat_l; lra).
  assert (J1 : (w' * u * G0 = w * u' * G0)%R) by (f_equal; lra). assert (J2 : (w' * u * Gx = w * u' * Gx)%R) by (f_equal; lra).
  assert (Q2 : (w * (u' * Gf - w' * Lf) = w * (u' * (G0 + k) - w' * L0))%R) by (f_equal; lra).
  replace (a' * (g' * Gf) - b' * (h' * Lf))%R with (u' * Gf - w' * Lf)%R by (unfold u', w'; ring).
  replace (a * (g * Gx) - b * (h * Lx))%R with (u * Gx - w * Lx)%R by (unfold u, w; ring).
  replace (w * (a' * (g' * k)))%R with (w * u' * k)%R by (unfold u'; ring). fold w. fold w'.
  rewrite Q2. lra.
Qed.

(** The parts, when there are some data in every slice. *)
Hypothesis Busy : forall s, 0 <= s < n -> exists r, In r rows /\ elt 0%R r s <> 0%R.

Lemma fi_aligned : exists l0, tiles 0 n l0 /\ ocoords x' = map (finer m) l0.
Proof.
  assert (HM : 0 < M) by (clear - Hm; lia). pose proof fi_tiles as T.
  apply (aligned m Hm 0 (n * M) _ T 0 n); [lia|reflexivity|]. intros i s I. destruct (Z.eq_dec ((s + 1) mod M) 0) as [|D]; [assumption|exfalso].
  destruct (tiles_in _ _ _ T _ _ I) as (l1 & l2 & El & T1 & Hi & T2). pose proof (tiles_le _ _ _ T1) as Li.
  assert (Hs : s + 1 < n * M). { assert (s + 1 <> n * M); [|lia]. intro Q. apply D. rewrite Q. apply Z.mod_mul. lia. }
  destruct (o_keep P t' (n * M) frows g' h' p' x' Hnm' (fine_len m rows n Hm HL) (fine_nn m rows Hm NN) Hg' Hh' Ha' Hb' U' E' s ltac:(lia) Hs (fine_same m rows n Hm HL s ltac:(lia) Hs D)) as [(i' & e' & I' & K)|(i' & e' & I1 & I2 & Z)].
  - rewrite El in I'. apply in_app_or in I'. destruct I' as [I'|[I'|I']].
    + destruct (tiles_in _ _ _ T1 _ _ I') as (_ & _ & _ & _ & Q & _). lia.
    + injection I' as -> ->. lia.
    + destruct (tiles_in _ _ _ T2 _ _ I') as (u1 & _ & _ & Tu & _). pose proof (tiles_le _ _ _ Tu). lia.
  - assert (i' <= s <= e') as Hs'. { destruct (tiles_in _ _ _ T _ _ I1) as (_ & _ & _ & _ & Q1 & _). destruct (tiles_in _ _ _ T _ _ I2) as (_ & _ & _ & _ & Q2 & _). lia. }
    destruct (Busy (s / M)) as (r & Ir & Nr); [split; [apply Z.div_pos; lia|apply Z.div_lt_upper_bound; lia]|].
    apply Nr. pose proof (Z (refine m r) s (in_map _ _ _ Ir) Hs') as K. pose proof (proj1 (Forall_forall _ _) HL r Ir) as Lr. cbv beta in Lr.
    rewrite refine_elt in K by (auto; lia). pose proof (INRm m Hm) as Im. apply (Rmult_eq_reg_r (/ INR m)); [|apply Rinv_neq_0_compat; lra]. rewrite Rmult_0_l. exact K.
Qed.

Lemma tiles_inv : forall i k l, tiles i k l -> (l = [] /\ i = k) \/ exists c l3, l = (i, c) :: l3 /\ i <= c /\ tiles (c + 1) k l3.
Proof. intros i k l T. destruct T as [k|i e k l2 He T]; [left; auto|right; exists e, l2; repeat split; auto; lia]. Qed.
Lemma same_first : forall i l k, tiles i k l -> k = n -> 0 <= i -> forall l0, tiles i n l0 -> forall pre, ocoords x = pre ++ l -> ocoords x' = map (finer m) (pre ++ l0) ->
  SG l = SG l0 -> SL l = SL l0 -> l = l0.
Proof.
  assert (HM : 0 < M) by (clear - Hm; lia).
  intros i l k T. induction T as [k|i e k l2 He T IH]; intros Ek Hi l0 T0 pre E1 E2 S1 S2.
  - destruct (tiles_inv _ _ _ T0) as [[-> _]|(c & l3 & -> & Hc & T3)]; [reflexivity|]. pose proof (tiles_le _ _ _ T3). lia.
  - pose proof (tiles_le _ _ _ T) as Lk. destruct (tiles_inv _ _ _ T0) as [[-> Q]|(c & l3 & -> & Hc & T3)]; [lia|]. pose proof (tiles_le _ _ _ T3) as Lk3.
    rewrite Ek in *.
    assert (Ec : c = e).
    { assert (Q1 : e = n - 1 \/ (e <= c /\ c <> n - 1)).
      { apply (o_first P t n _ _ p x Hn U E pre i e l2 E1 c l3 ltac:(lia) T3); [rewrite !(Rsum_scal _ _ g)|rewrite !(Rsum_scal _ _ h)]; f_equal; auto. }
      assert (Q2 : c * M + M - 1 = n * M - 1 \/ (c * M + M - 1 <= e * M + M - 1 /\ e * M + M - 1 <> n * M - 1)).
      { rewrite map_app in E2. cbn [map] in E2. unfold finer at 2 in E2. cbn [fst snd] in E2.
        pose proof (tiles_finer m Hm _ _ _ T) as Tf. replace ((e + 1) * M) with (e * M + M - 1 + 1) in Tf by ring.
        destruct (fine_sums m rows n Hm HL NN i n ((i, e) :: l2) ltac:(constructor; auto) Hi ltac:(lia)) as [F1 F2].
        destruct (fine_sums m rows n Hm HL NN i n _ T0 Hi ltac:(lia)) as [F3 F4].
        assert (J1 : FG (map (finer m) ((i, e) :: l2)) = FG (map (finer m) ((i, c) :: l3))) by congruence.
        assert (J2 : FL (map (finer m) ((i, e) :: l2)) = FL (map (finer m) ((i, c) :: l3))) by congruence.
        cbn [map] in J1, J2. unfold finer at 1 3 in J1. unfold finer at 1 3 in J2. cbn [fst snd] in J1, J2.
        apply (o_first P t' (n * M) _ _ p' x' Hnm' U' E' _ (i * M) _ (map (finer m) l3) E2 (e * M + M - 1) (map (finer m) l2) ltac:(clear - HM He Lk; nia) Tf);
          [rewrite !(Rsum_scal _ _ g')|rewrite !(Rsum_scal _ _ h')]; f_equal; assumption. }
      clear - HM Q1 Q2. nia. }
    subst c. f_equal. rewrite !Rsum_cons in S1, S2. apply (IH eq_refl ltac:(lia) l3 T3 (pre ++ [(i, e)])); [rewrite <- app_assoc; exact E1|rewrite <- app_assoc; exact E2|lra|lra].
Qed.

Lemma parts_prf : ocoords x' = map (finer m) (ocoords x) /\ FG (ocoords x') = (SG (ocoords x) + K0)%R /\ FL (ocoords x') = SL (ocoords x).
Proof.
  destruct fi_aligned as (l0 & T0 & El0). pose proof (fine_whole l0 T0) as [F1 F2]. pose proof (fine_whole _ co_tiles) as [F3 F4].
  assert (Pu : (0 < a' * g')%R) by (apply Rmult_lt_0_compat; auto). assert (Pw : (0 < b' * h')%R) by (apply Rmult_lt_0_compat; auto).
  assert (Pb : (0 < b * h)%R) by (apply Rmult_lt_0_compat; auto). assert (Pa : (0 < a * g)%R) by (apply Rmult_lt_0_compat; auto).
  pose proof (co_opt l0 T0) as O1. pose proof (tiles_finer m Hm 0 n _ co_tiles) as Tf. rewrite Z.mul_0_l in Tf. pose proof (fi_opt _ Tf) as O2.
  rewrite F3, F4, El0, F1, F2 in O2.
  assert (S : SG (ocoords x) = SG l0 /\ SL (ocoords x) = SL l0).
  { set (Gx := SG (ocoords x)) in *. set (Lx := SL (ocoords x)) in *. set (G0 := SG l0) in *. set (L0 := SL l0) in *. set (k := K0) in *.
    set (u := (a * g)%R) in *. set (w := (b * h)%R) in *. set (u' := (a' * g')%R) in *. set (w' := (b' * h')%R) in *.
    assert (V1 : (u * G0 - w * L0 <= u * Gx - w * Lx)%R) by (unfold no_better in O1; unfold u, w; destruct O1 as [K|[K _]]; lra).
    assert (V2 : (u' * Gx - w' * Lx <= u' * G0 - w' * L0)%R) by (unfold no_better in O2; unfold u', w'; destruct O2 as [K|[K _]]; lra).
    assert (W1 : (w' * (u * G0 - w * L0) <= w' * (u * Gx - w * Lx))%R) by (apply Rmult_le_compat_l; lra).
    assert (W2 : (w * (u' * Gx - w' * Lx) <= w * (u' * G0 - w' * L0))%R) by (apply Rmult_le_compat_l; lra).
    assert (J1 : (w' * u * G0 = w * u' * G0)%R) by (f_equal; lra). assert (J2 : (w' * u * Gx = w * u' * Gx)%R) by (f_equal; lra).
    assert (V3 : (u * G0 - w * L0 = u * Gx - w * Lx)%R) by (apply (Rmult_eq_reg_l w'); lra).
    assert (V4 : (u' * Gx - w' * Lx = u' * G0 - w' * L0)%R) by (apply (Rmult_eq_reg_l w); lra).
    assert (Gq : Gx = G0).
    { apply Rle_antisym.
      - destruct O2 as [K|[_ [K|[K _]]]]; [exfalso; unfold u', w' in V4; lra| |].
        + left. apply (Rmult_lt_reg_l g'); lra.
        + right. apply (Rmult_eq_reg_l g'); lra.
      - destruct O1 as [K|[_ [K|[K _]]]]; [exfalso; unfold u, w in V3; lra| |].
        + left. apply (Rmult_lt_reg_l g); lra.
        + right. apply (Rmult_eq_reg_l g); lra. }
    split; [exact Gq|]. apply (Rmult_eq_reg_l w); [|lra]. rewrite Gq in V3. lra. }
  destruct S as [S1 S2]. pose proof (same_first 0 _ n co_tiles eq_refl ltac:(lia) l0 T0 [] eq_refl El0 S1 S2) as Eq. rewrite El0, <- Eq. auto.
Qed.
End B.
