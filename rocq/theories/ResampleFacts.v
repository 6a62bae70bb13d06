(** * A finer time resolution: gains, losses and tilings. *)
From Coq Require Import Reals Lra Lia Permutation Classical.
From Verif Require Import Base BaseFacts Arith Quality Utm UtmFacts UtmProofs SpecParts SpecInfo SpecData SpecResample Partitions Partitioners
  InfoFacts OFacts LexR OInfo OReal OProofs ODataProofs P_Mirror KeepFacts KeepSlices.

Section M.
Variable (m : nat).
Hypothesis Hm : (0 < m)%nat.
Notation M := (Z.of_nat m).

Lemma refine_app : forall l1 l2, refine m (l1 ++ l2) = refine m l1 ++ refine m l2.
Proof. intros. unfold refine. apply flat_map_app. Qed.
Lemma refine_len : forall l, vlen (refine m l) = vlen l * M.
Proof.
  intro l. unfold vlen, refine. induction l as [|x l IH]; [reflexivity|]. cbn [flat_map length]. rewrite app_length, repeat_length. lia.
Qed.
Lemma INRm : (0 < INR m)%R. Proof. apply lt_0_INR. exact Hm. Qed.
Lemma Rsum_repeat : forall (f : R -> R) x k, Rsum f (repeat x k) = (INR k * f x)%R.
Proof. intros f x k. induction k as [|k IH]; [cbn [repeat]; rewrite Rsum_nil; cbn [INR]; lra|]. cbn [repeat]. rewrite Rsum_cons, IH, S_INR. lra. Qed.
Lemma refine_total : forall l, total (refine m l) = total l.
Proof.
  intro l. pose proof INRm as Im. induction l as [|x l IH]; [reflexivity|]. change (refine m (x :: l)) with (repeat (x / INR m)%R m ++ refine m l). rewrite total_app, total_cons, IH.
  unfold total at 1. rewrite Rsum_repeat. field. lra.
Qed.
Lemma refine_nonneg : forall l, nonneg l -> nonneg (refine m l).
Proof.
  intros l H. pose proof INRm as Im. induction H as [|x l Hx H IH]; [constructor|]. change (refine m (x :: l)) with (repeat (x / INR m)%R m ++ refine m l). apply nonneg_app. split; [|exact IH].
  apply Forall_forall. intros y Iy. apply repeat_spec in Iy. subst y. apply Rmult_le_pos; [exact Hx|]. left. apply Rinv_0_lt_compat. exact Im.
Qed.
Lemma refine_xl : forall l, nonneg l -> Rsum xl (refine m l) = (Rsum xl l - total l * ln (INR m))%R.
Proof.
  intros l H. pose proof INRm as Im. induction H as [|x l Hx H IH]; [cbn [refine flat_map]; rewrite !Rsum_nil, total_nil; lra|].
  change (refine m (x :: l)) with (repeat (x / INR m)%R m ++ refine m l). rewrite Rsum_app, Rsum_cons, total_cons, IH, Rsum_repeat.
  replace (x / INR m)%R with (/ INR m * x)%R by (unfold Rdiv; lra). rewrite xl_scal; [|apply Rinv_0_lt_compat; exact Im|exact Hx]. rewrite ln_Rinv by exact Im. field. lra.
Qed.
Lemma refine_gain : forall l, nonneg l -> gain_of (refine m l) = (gain_of l + total l * log2 (INR m))%R.
Proof.
  intros l H. rewrite !gain_of_xl by auto using refine_nonneg. rewrite refine_total, refine_xl by exact H. unfold log2. pose proof ln2_pos. field. lra.
Qed.
Lemma refine_loss : forall l, nonneg l -> loss_of (refine m l) = loss_of l.
Proof.
  intros l H. rewrite !loss_of_phi by auto using refine_nonneg. rewrite refine_total, refine_xl, refine_len by exact H.
  destruct l as [|x l]; [unfold vlen; cbn [length]; rewrite total_nil, Rsum_nil, !phi_0; lra|].
  pose proof INRm as Im. pose proof (IZR_lt 0 _ (vlen_pos _ x l)) as Hv. unfold phi. rewrite mult_IZR, <- INR_IZR_INZ. rewrite ln_mult by auto. pose proof ln2_pos. field. lra.
Qed.

Lemma refine_skip : forall k r, skipn (k * m) (refine m r) = refine m (skipn k r).
Proof.
  induction k as [|k IH]; intro r; [reflexivity|]. destruct r as [|x r]; [cbn; apply skipn_nil|].
  change (refine m (x :: r)) with (repeat (x / INR m)%R m ++ refine m r). cbn [skipn]. rewrite <- IH. rewrite skipn_app, repeat_length.
  rewrite (skipn_all2 (repeat _ _)) by (rewrite repeat_length; lia). cbn [app]. f_equal. lia.
Qed.
Lemma refine_first : forall k r, firstn (k * m) (refine m r) = refine m (firstn k r).
Proof.
  induction k as [|k IH]; intro r; [reflexivity|]. destruct r as [|x r]; [cbn; apply firstn_nil|].
  change (refine m (x :: r)) with (repeat (x / INR m)%R m ++ refine m r). cbn [firstn]. change (refine m (x :: firstn k r)) with (repeat (x / INR m)%R m ++ refine m (firstn k r)). rewrite <- IH. rewrite firstn_app, repeat_length.
  rewrite (firstn_all2 (repeat _ _)) by (rewrite repeat_length; lia). f_equal. f_equal. lia.
Qed.
Lemma refine_slice : forall r a e, 0 <= a <= e + 1 -> slice (refine m r) (a * M) (e * M + M - 1) = refine m (slice r a e).
Proof.
  intros r a e H. unfold slice. replace (Z.to_nat (a * M)) with (Z.to_nat a * m)%nat by nia. rewrite refine_skip.
  replace (Z.to_nat (e * M + M - 1 - a * M + 1)) with (Z.to_nat (e - a + 1) * m)%nat by nia. apply refine_first.
Qed.
Lemma refine_elt : forall r k, 0 <= k < vlen r * M -> elt 0%R (refine m r) k = (elt 0%R r (k / M) / INR m)%R.
Proof.
  intros r k Hk. assert (HM : 0 < M) by lia. pose proof (Z.div_pos k M ltac:(lia) HM) as D0. pose proof (Z.mod_pos_bound k M HM) as Mb. pose proof (Z.div_mod k M ltac:(lia)) as DM.
  assert (Dl : k / M < vlen r) by (apply Z.div_lt_upper_bound; lia).
  set (i := k / M) in *. set (j := k mod M) in *.
  assert (S : slice (refine m r) (i * M) (i * M + M - 1) = repeat (elt 0%R r i / INR m)%R m).
  { rewrite refine_slice by lia. rewrite (slice_one _ 0%R) by lia. unfold refine. cbn [flat_map]. apply app_nil_r. }
  assert (Lf : vlen (refine m r) = vlen r * M) by apply refine_len.
  assert (I : In (elt 0%R (refine m r) k) (slice (refine m r) (i * M) (i * M + M - 1))).
  { rewrite (slice_elt _ 0%R) by nia. apply in_map. apply In_zrange. nia. }
  rewrite S in I. apply repeat_spec in I. exact I.
Qed.

(** Tilings of the finer axis whose cuts are cuts of the coarse one. *)
Lemma tiles_finer : forall a b l, tiles a b l -> tiles (a * M) (b * M) (map (finer m) l).
Proof.
  intros a b l T. induction T as [n|a e n r H T IH]; [constructor|]. cbn [map]. unfold finer at 1. cbn [fst snd]. constructor; [nia|].
  replace (e * M + M - 1 + 1) with ((e + 1) * M) by lia. exact IH.
Qed.
Lemma aligned : forall a' b' l', tiles a' b' l' -> forall a b, a' = a * M -> b' = b * M -> (forall i e, In (i, e) l' -> (e + 1) mod M = 0) ->
  exists l, tiles a b l /\ l' = map (finer m) l.
Proof.
  intros a' b' l' T. induction T as [n'|a' e' n' r' H T IH]; intros a b Ea Eb Al.
  - assert (a = b) by nia. subst b. exists []. split; [constructor|reflexivity].
  - pose proof (Al a' e' (or_introl eq_refl)) as E. apply Z.mod_divide in E; [|lia]. destruct E as [c Ec].
    destruct (IH c b ltac:(lia) Eb) as (l & Tl & ->); [intros i e I; apply (Al i e); right; exact I|].
    exists ((a, c - 1) :: l). split; [constructor; [nia|]; replace (c - 1 + 1) with c by lia; exact Tl|].
    cbn [map]. f_equal. unfold finer. cbn [fst snd]. f_equal; lia.
Qed.
End M.

Definition otot (rows : list (list R)) (i j : Z) : R := Rsum (fun r => total (slice r i j)) rows.

Section D.
Variables (m : nat) (rows : list (list R)) (n : Z).
Hypothesis Hm : (0 < m)%nat.
Hypothesis HL : Forall (fun r => vlen r = n) rows.
Hypothesis NN : Forall nonneg rows.
Notation M := (Z.of_nat m).
Notation frows := (map (refine m) rows).

Lemma fine_len : Forall (fun r => vlen r = n * M) frows.
Proof. apply Forall_map. eapply Forall_impl; [|exact HL]. intros r E. cbn beta in E. rewrite refine_len by exact Hm. rewrite E. reflexivity. Qed.
Lemma fine_nn : Forall nonneg frows.
Proof. apply Forall_map. eapply Forall_impl; [|exact NN]. intros r E. apply refine_nonneg; auto. Qed.

Lemma fine_gain : forall a e, 0 <= a <= e + 1 -> ogain frows (a * M) (e * M + M - 1) = (ogain rows a e + log2 (INR m) * otot rows a e)%R.
Proof.
  intros a e H. unfold ogain, otot. rewrite Rsum_map. rewrite <- Rsum_scal, <- Rsum_plus. apply Rsum_ext. intros r Ir. rewrite refine_slice by auto.
  rewrite refine_gain by (auto; apply nonneg_slice; exact (proj1 (Forall_forall _ _) NN r Ir)). lra.
Qed.
Lemma fine_loss : forall a e, 0 <= a <= e + 1 -> oloss frows (a * M) (e * M + M - 1) = oloss rows a e.
Proof.
  intros a e H. unfold oloss. rewrite Rsum_map. apply Rsum_ext. intros r Ir. rewrite refine_slice by auto.
  apply refine_loss; auto. apply nonneg_slice. exact (proj1 (Forall_forall _ _) NN r Ir).
Qed.
Lemma otot_tiles : forall a b l, tiles a b l -> 0 <= a -> b <= n -> Rsum (fun ab => otot rows (fst ab) (snd ab)) l = otot rows a (b - 1).
Proof.
  intros a b l T Ha Hb. unfold otot. rewrite (Rsum_swap _ _ (fun ab r => total (slice r (fst ab) (snd ab)))). apply Rsum_ext. intros r Ir.
  pose proof (proj1 (Forall_forall _ _) HL r Ir) as Lr. cbv beta in Lr. rewrite (tiles_slices r a b l T) by lia. unfold total. rewrite Rsum_concat, Rsum_map. reflexivity.
Qed.
Lemma fine_sums : forall a b l, tiles a b l -> 0 <= a -> b <= n ->
  Rsum (fun ab => ogain frows (fst ab) (snd ab)) (map (finer m) l) = (Rsum (fun ab => ogain rows (fst ab) (snd ab)) l + log2 (INR m) * otot rows a (b - 1))%R /\
  Rsum (fun ab => oloss frows (fst ab) (snd ab)) (map (finer m) l) = Rsum (fun ab => oloss rows (fst ab) (snd ab)) l.
Proof.
  intros a b l T Ha Hb. rewrite !Rsum_map. split.
  - rewrite <- (otot_tiles a b l T Ha Hb), <- Rsum_scal, <- Rsum_plus. apply Rsum_ext. intros [i e] I. destruct (tiles_in _ _ _ T _ _ I) as (l1 & _ & _ & T1 & K & _).
    pose proof (tiles_le _ _ _ T1). unfold finer. cbn [fst snd]. apply fine_gain. lia.
  - apply Rsum_ext. intros [i e] I. destruct (tiles_in _ _ _ T _ _ I) as (l1 & _ & _ & T1 & K & _).
    pose proof (tiles_le _ _ _ T1). unfold finer. cbn [fst snd]. apply fine_loss. lia.
Qed.

(** Inside a coarse slice the fine slices are equal. *)
Lemma fine_same : forall s, 0 <= s -> s + 1 < n * M -> (s + 1) mod M <> 0 -> forall r, In r frows -> elt 0%R r s = elt 0%R r (s + 1).
Proof.
  intros s H0 H1 H2 r Ir. apply in_map_iff in Ir. destruct Ir as (r0 & <- & Ir). pose proof (proj1 (Forall_forall _ _) HL r0 Ir) as Lr. cbv beta in Lr.
  rewrite !refine_elt by (auto; lia). f_equal. f_equal. assert (HM : 0 < M) by lia.
  pose proof (Z.div_mod (s + 1) M ltac:(lia)) as D. pose proof (Z.mod_pos_bound (s + 1) M HM) as B.
  symmetry. apply (Z.div_unique s M ((s + 1) / M) ((s + 1) mod M - 1)); lia.
Qed.

(** An optimal tiling of the finer axis whose cuts are all cuts of the coarse one exists. *)
Lemma merge_idle : forall a b i s e, (0 < a)%R -> (0 < b)%R -> 0 <= i <= s -> s + 1 <= e -> e < n * M -> (forall r k, In r frows -> i <= k <= e -> elt 0%R r k = 0%R) ->
  oval a b frows i s = 0%R /\ oval a b frows (s + 1) e = 0%R /\ oval a b frows i e = 0%R.
Proof.
  intros a b i s e Ha Hb Hi Hs He Z. assert (G : forall x y, i <= x -> x <= y <= e -> oval a b frows x y = 0%R).
  { intros x y Hx Hy. rewrite oval_lval. apply Rsum_zero. intros r Ir. pose proof (proj1 (Forall_forall _ _) fine_len r Ir) as Lr. cbv beta in Lr.
    unfold lval. destruct (P_Sym.zero_gain (slice r x y)) as [-> ->]; [|lra]. intros v Iv. rewrite (slice_elt _ 0%R) in Iv by lia. apply in_map_iff in Iv. destruct Iv as (k & <- & Ik). apply In_zrange in Ik. apply Z; auto; lia. }
  repeat split; apply G; lia.
Qed.
Lemma aligned_opt : forall a b, (0 < a)%R -> (0 < b)%R -> forall l, tiles 0 (n * M) l ->
  (forall l', tiles 0 (n * M) l' -> (Rsum (fun ab => oval a b frows (fst ab) (snd ab)) l' <= Rsum (fun ab => oval a b frows (fst ab) (snd ab)) l)%R) ->
  exists l0, tiles 0 n l0 /\ Rsum (fun ab => oval a b frows (fst ab) (snd ab)) (map (finer m) l0) = Rsum (fun ab => oval a b frows (fst ab) (snd ab)) l.
Proof.
  intros a b Ha Hb l. remember (length l) as k eqn:Ek. revert l Ek. induction k as [k IH] using lt_wf_ind. intros l Ek T Opt.
  destruct (classic (exists i e, In (i, e) l /\ (e + 1) mod M <> 0)) as [(i & s & I & Ns)|N].
  - assert (HM : 0 < M) by lia. destruct (tiles_in _ _ _ T _ _ I) as (l1 & l2 & El & T1 & Hi & T2). pose proof (tiles_le _ _ _ T1) as Li.
    assert (Hs : s + 1 < n * M). { assert (s + 1 <> n * M); [|lia]. intro Q. apply Ns. rewrite Q. apply Z.mod_mul. lia. }
    inversion T2 as [|s' e n' l3 He T3]; subst; [lia|].
    destruct (keep_core frows (n * M) a b fine_len fine_nn Ha Hb _ T Opt s ltac:(lia) Hs (fine_same s ltac:(lia) Hs Ns)) as [(i' & e' & I' & K)|(i' & e' & I1 & I2 & Z)].
    + exfalso. destruct (tiles_in _ _ _ T _ _ I') as (m1 & m2 & Em & Tm1 & _ & Tm2). apply in_app_or in I'. destruct I' as [I'|[I'|I']].
      * destruct (tiles_in _ _ _ T1 _ _ I') as (_ & _ & _ & _ & Q & _). lia.
      * injection I' as -> ->. lia.
      * destruct (tiles_in _ _ _ T2 _ _ I') as (u1 & _ & _ & Tu & _). pose proof (tiles_le _ _ _ Tu). lia.
    + assert (i' = i /\ e' = e) as [-> ->].
      { split.
        - apply in_app_or in I1. destruct I1 as [I1|[I1|I1]].
          + destruct (tiles_in _ _ _ T1 _ _ I1) as (_ & _ & _ & _ & Q & _). lia.
          + injection I1 as ->. reflexivity.
          + destruct (tiles_in _ _ _ T2 _ _ I1) as (u1 & _ & _ & Tu & Q & _). pose proof (tiles_le _ _ _ Tu). lia.
        - apply in_app_or in I2. destruct I2 as [I2|[I2|[I2|I2]]].
          + destruct (tiles_in _ _ _ T1 _ _ I2) as (_ & _ & _ & _ & Q & _). lia.
          + injection I2 as Q1 Q2. lia.
          + injection I2 as ->. reflexivity.
          + destruct (tiles_in _ _ _ T3 _ _ I2) as (u1 & _ & _ & Tu & Q & _). pose proof (tiles_le _ _ _ Tu). lia. }
      pose proof (tiles_le _ _ _ T3) as Le3.
      destruct (merge_idle a b i s e Ha Hb ltac:(lia) ltac:(lia) ltac:(lia) Z) as (V1 & V2 & V3).
      set (l' := l1 ++ (i, e) :: l3).
      assert (T' : tiles 0 (n * M) l') by (eapply tiles_app; [exact T1|]; constructor; [lia|exact T3]).
      assert (V : Rsum (fun ab => oval a b frows (fst ab) (snd ab)) l' = Rsum (fun ab => oval a b frows (fst ab) (snd ab)) (l1 ++ (i, s) :: (s + 1, e) :: l3)).
      { unfold l'. rewrite !Rsum_app, !Rsum_cons. cbn [fst snd]. rewrite V1, V2, V3. lra. }
      destruct (IH (length l') ltac:(unfold l'; rewrite !app_length; cbn [length]; lia) l' eq_refl T') as (l0 & T0 & E0); [intros l'' T''; rewrite V; apply Opt; exact T''|].
      exists l0. split; [exact T0|]. rewrite E0. exact V.
  - destruct (aligned m Hm 0 (n * M) l T 0 n ltac:(lia) eq_refl) as (l0 & T0 & ->); [|exists l0; split; [exact T0|reflexivity]].
    intros i e I. destruct (Z.eq_dec ((e + 1) mod M) 0) as [|D]; [assumption|]. exfalso. apply N. eauto.
Qed.
End D.
