(** * Lemmas for pjdump2micro: sorting, matching names, filling the array. *)
From Coq Require Import Lia Sorting.Sorted Permutation Reals Lra.
From Verif Require Import Base BaseFacts Arith RApi SpecR SpecParts RHelpers MacroFacts HMacroFacts Slicer SpecSlicer SlicerFacts SpecPj.

(** ** Sorting *)
Lemma z_insert_In : forall x y l, In y (z_insert x l) <-> y = x \/ In y l.
Proof.
  intros x y l. induction l as [|a l IH]; cbn; [intuition|]. destruct (x <=? a); cbn; [intuition|]. rewrite IH. intuition.
Qed.

Lemma z_sort_In : forall l y, In y (z_sort l) <-> In y l.
Proof. induction l as [|x l IH]; intro y; cbn; [tauto|]. rewrite z_insert_In, IH. intuition. Qed.

Lemma z_insert_sorted : forall x l, StronglySorted Z.lt l -> ~ In x l -> StronglySorted Z.lt (z_insert x l).
Proof.
  intros x l S. induction S as [|a l S IH F]; intro H; cbn; [repeat constructor|]. destruct (Z.leb_spec x a) as [B|B].
  - constructor; [constructor; auto|]. constructor; [assert (x <> a) by (intros ->; apply H; left; auto); lia|]. rewrite Forall_forall in *. intros y I. specialize (F y I). lia.
  - constructor; [apply IH; intro I; apply H; right; auto|]. rewrite Forall_forall in *. intros y I. apply z_insert_In in I. destruct I as [->|I]; [lia|auto].
Qed.

Lemma z_sort_sorted : forall l, NoDup l -> StronglySorted Z.lt (z_sort l).
Proof. intros l N. induction N as [|x l H N IH]; cbn; [constructor|]. apply z_insert_sorted; auto. rewrite z_sort_In. auto. Qed.

Lemma sorted_NoDup : forall l, StronglySorted Z.lt l -> NoDup l.
Proof. intros l S. induction S as [|a l S IH F]; constructor; auto. intro I. rewrite Forall_forall in F. specialize (F a I). lia. Qed.

Lemma sorted_ext : forall l l', StronglySorted Z.lt l -> StronglySorted Z.lt l' -> (forall x, In x l <-> In x l') -> l = l'.
Proof.
  intros l. induction l as [|a l IH]; intros [|b l'] S S' H.
  - auto. - destruct (proj2 (H b)); left; auto. - destruct (proj1 (H a)); left; auto.
  - inversion S as [|? ? S1 F1]; inversion S' as [|? ? S2 F2]; subst. rewrite Forall_forall in F1, F2.
    assert (a = b).
    { destruct (proj1 (H a) (or_introl eq_refl)) as [E|I]; auto. destruct (proj2 (H b) (or_introl eq_refl)) as [E|J]; auto. specialize (F1 b J). specialize (F2 a I). lia. }
    subst b. f_equal. apply IH; auto. intro x. split; intro I.
    + destruct (proj1 (H x) (or_intror I)) as [<-|J]; auto. specialize (F1 a I). lia.
    + destruct (proj2 (H x) (or_intror I)) as [<-|J]; auto. specialize (F2 a I). lia.
Qed.

Lemma zrange_sorted : forall a b, StronglySorted Z.lt (zrange a b).
Proof.
  intros a b. destruct (Z.le_gt_cases b a) as [H|H]; [rewrite zrange_empty by lia; constructor|].
  remember (Z.to_nat (b - a)) as m eqn:Em. revert a Em H. induction m as [|m IH]; intros a Em H; [lia|].
  rewrite zrange_cons by lia. constructor.
  - destruct (Z.eq_dec (a + 1) b) as [->|D]; [rewrite zrange_empty by lia; constructor|]. apply IH; lia.
  - apply Forall_forall. intros x I. apply In_zrange in I. lia.
Qed.

Lemma lists_sort : forall (P : Z -> Prop) l, (forall x, In x l <-> P x) -> lists P (z_sort (nodup Z.eq_dec l)).
Proof. intros P l H. split; [apply z_sort_sorted, NoDup_nodup|]. intro x. rewrite z_sort_In, nodup_In. auto. Qed.

Lemma lists_unique : forall P l l', lists P l -> lists P l' -> l = l'.
Proof. intros P l l' (S & H) (S' & H'). apply sorted_ext; auto. intro x. rewrite H, H'. tauto. Qed.

(** ** Matching *)
Lemma r_match_get : forall x l i, r_match x l = Ok i -> 1 <= i <= vlen l /\ vget l (i - 1) = Ok x.
Proof.
  intros x l. induction l as [|y l IH]; intros i E; cbn in E; [discriminate|]. destruct (Z.eqb_spec x y) as [->|D].
  - injection E as <-. cbn. split; [unfold vlen; cbn; lia|reflexivity].
  - destruct (r_match x l) as [j| |]; try discriminate. cbn in E. injection E as <-. destruct (IH j eq_refl) as (B & G). unfold vlen in *. cbn [length].
    split; [lia|]. change (y :: l) with ([y] ++ l). rewrite vget_app_r by (cbn; lia). cbn [vlen length]. unfold vlen. cbn. rewrite <- G. f_equal. lia.
Qed.

Lemma r_match_in : forall x l, In x l -> exists i, r_match x l = Ok i.
Proof.
  intros x l. induction l as [|y l IH]; intros I; cbn; [destruct I|]. destruct (Z.eqb_spec x y) as [->|D]; eauto.
  destruct I as [->|I]; [congruence|]. destruct (IH I) as (i & ->). cbn. eauto.
Qed.

Lemma r_match_out : forall x l, ~ In x l -> r_match x l = UB.
Proof.
  intros x l H. induction l as [|y l IH]; cbn; auto. destruct (Z.eqb_spec x y) as [->|D]; [exfalso; apply H; left; auto|].
  rewrite IH; auto. intro I. apply H. right. auto.
Qed.

Lemma NoDup_vget : forall X (l : list X) i j x, NoDup l -> vget l i = Ok x -> vget l j = Ok x -> i = j.
Proof.
  intros X l i j x N Hi Hj. apply vget_nth in Hi. apply vget_nth in Hj. destruct Hi as [Bi Hi], Hj as [Bj Hj].
  assert (Z.to_nat i = Z.to_nat j); [|lia]. apply (proj1 (NoDup_nth_error l) N); [apply nth_error_Some; congruence|congruence].
Qed.

Lemma r_match_NoDup : forall x l i, NoDup l -> vget l (i - 1) = Ok x -> r_match x l = Ok i.
Proof.
  intros x l i N G. destruct (r_match_in x l (vget_In _ _ _ _ G)) as (j & E). rewrite E. f_equal. destruct (r_match_get x l j E) as (_ & G').
  pose proof (NoDup_vget _ _ _ _ _ N G G'). lia.
Qed.

(** ** The array *)
Lemma cell_inj : forall d0 d1 i j k i' j' k', 0 <= i < d0 -> 0 <= i' < d0 -> 0 <= j < d1 -> 0 <= j' < d1 -> 0 <= k -> 0 <= k' ->
  i + j * d0 + k * (d0 * d1) = i' + j' * d0 + k' * (d0 * d1) -> i = i' /\ j = j' /\ k = k'.
Proof.
  intros d0 d1 i j k i' j' k' Hi Hi' Hj Hj' Hk Hk' E.
  assert (E1 : i + d0 * (j + k * d1) = i' + d0 * (j' + k' * d1)) by lia.
  assert (i = i' /\ j + k * d1 = j' + k' * d1) as [-> E2].
  { pose proof (Z.mod_unique (i + d0 * (j + k * d1)) d0 (j + k * d1) i ltac:(lia) ltac:(lia)) as M1. pose proof (Z.mod_unique (i + d0 * (j + k * d1)) d0 (j' + k' * d1) i' ltac:(lia) ltac:(lia)) as M2.
    assert (i = i') by lia. subst. split; auto. nia. }
  pose proof (Z.mod_unique (j + k * d1) d1 k j ltac:(lia) ltac:(lia)) as M1. pose proof (Z.mod_unique (j + k * d1) d1 k' j' ltac:(lia) ltac:(lia)) as M2.
  assert (j = j') by lia. subst. split; auto. split; auto. nia.
Qed.

Lemma cube_prf : forall space type time df, df <> [] -> NoDup space -> NoDup type -> NoDup time -> NoDup (map sr_key df) ->
  (forall x, In x df -> In (sr_res x) space /\ In (sr_type x) type /\ In (sr_slice x) time) ->
  (forall r t k, In r space -> In t type -> In k time -> exists x, In x df /\ sr_key x = (r, k, t)) ->
  exists c, pm_cube space type time df = Ok c /\ r_cube c (vlen space) (vlen type) (vlen time) /\
    forall i j k x, In x df -> vget space (i - 1) = Ok (sr_res x) -> vget type (j - 1) = Ok (sr_type x) -> vget time (k - 1) = Ok (sr_slice x) -> r_at c i j k = Ok (sr_norm x).
Proof.
  intros space type time df Hdf Ns Nt Nk Nd Hin Hgrid. set (d0 := vlen space). set (d1 := vlen type). set (d2 := vlen time).
  assert (B : forall x, In x df -> exists i j k, r_match (sr_res x) space = Ok i /\ r_match (sr_type x) type = Ok j /\ r_match (sr_slice x) time = Ok k /\ 1 <= i <= d0 /\ 1 <= j <= d1 /\ 1 <= k <= d2).
  { intros x I. destruct (Hin x I) as (I1 & I2 & I3). destruct (r_match_in _ _ I1) as (i & E1), (r_match_in _ _ I2) as (j & E2), (r_match_in _ _ I3) as (k & E3). exists i, j, k.
    pose proof (r_match_get _ _ _ E1). pose proof (r_match_get _ _ _ E2). pose proof (r_match_get _ _ _ E3). unfold d0, d1, d2. intuition. }
  assert (D : 1 <= d0 /\ 1 <= d1 /\ 1 <= d2). { destruct df as [|x df']; [congruence|]. destruct (B x (or_introl eq_refl)) as (i & j & k & _ & _ & _ & ?). lia. }
  assert (P : forall i j k, 1 <= i <= d0 -> 1 <= j <= d1 -> 1 <= k <= d2 -> 0 <= (i - 1) + (j - 1) * d0 + (k - 1) * (d0 * d1) < d0 * d1 * d2).
  { intros i j k Hi Hj Hk. assert (0 <= (j - 1) * d0 <= (d1 - 1) * d0) by nia. assert (0 <= (k - 1) * (d0 * d1) <= (d2 - 1) * (d0 * d1)) by nia. nia. }
  set (body := fun x data => let* i := r_match (sr_res x) space in let* j := r_match (sr_type x) type in let* k := r_match (sr_slice x) time in
        vset data ((i - 1) + (j - 1) * d0 + (k - 1) * (d0 * d1)) (sr_norm x)).
  assert (G : forall l data, incl l df -> NoDup (map sr_key l) -> vlen data = d0 * d1 * d2 -> exists data', mfold body l data = Ok data' /\ vlen data' = d0 * d1 * d2 /\
    forall i j k, 1 <= i <= d0 -> 1 <= j <= d1 -> 1 <= k <= d2 ->
      (forall x, In x l -> vget space (i - 1) = Ok (sr_res x) -> vget type (j - 1) = Ok (sr_type x) -> vget time (k - 1) = Ok (sr_slice x) -> vget data' ((i - 1) + (j - 1) * d0 + (k - 1) * (d0 * d1)) = Ok (sr_norm x)) /\
      ((forall x, In x l -> ~ (vget space (i - 1) = Ok (sr_res x) /\ vget type (j - 1) = Ok (sr_type x) /\ vget time (k - 1) = Ok (sr_slice x))) -> vget data' ((i - 1) + (j - 1) * d0 + (k - 1) * (d0 * d1)) = vget data ((i - 1) + (j - 1) * d0 + (k - 1) * (d0 * d1)))).
  { induction l as [|x l IH]; intros data Hl N L; [exists data; repeat split; auto; intros; contradiction|].
    cbn [map] in N. inversion N as [|? ? Hx N']; subst. destruct (B x (Hl x (or_introl eq_refl))) as (i0 & j0 & k0 & E1 & E2 & E3 & Hi & Hj & Hk).
    pose proof (P i0 j0 k0 Hi Hj Hk) as Q. cbn [mfold]. unfold body at 1. rewrite E1. cbn [bind]. rewrite E2. cbn [bind]. rewrite E3. cbn [bind]. rewrite vset_ok by lia. cbn [bind].
    set (data1 := upd _ (sr_norm x) data).
    assert (V : vset data (i0 - 1 + (j0 - 1) * d0 + (k0 - 1) * (d0 * d1)) (sr_norm x) = Ok data1) by (apply vset_ok; lia).
    destruct (IH data1) as (data' & Ef & L' & G'); [intros y Iy; apply Hl; right; auto|auto|rewrite (vset_len _ _ _ _ _ V); auto|].
    exists data'. split; [exact Ef|]. split; auto. intros i j k Bi Bj Bk. destruct (G' i j k Bi Bj Bk) as (G1 & G2). split.
    - intros y [<-|Iy] F1 F2 F3; [|auto].
      assert (i = i0 /\ j = j0 /\ k = k0) as (-> & -> & ->).
      { rewrite (r_match_NoDup _ _ _ Ns F1) in E1. rewrite (r_match_NoDup _ _ _ Nt F2) in E2. rewrite (r_match_NoDup _ _ _ Nk F3) in E3. injection E1 as ->. injection E2 as ->. injection E3 as ->. auto. }
      rewrite G2; [rewrite (vget_vset _ _ _ _ _ _ V), Z.eqb_refl; auto|].
      intros y Iy (F1' & F2' & F3'). apply Hx. rewrite F1 in F1'. rewrite F2 in F2'. rewrite F3 in F3'. replace (sr_key x) with (sr_key y) by (unfold sr_key; congruence). apply in_map. auto.
    - intro Hno. rewrite G2 by (intros y Iy; apply Hno; right; auto). rewrite (vget_vset _ _ _ _ _ _ V). destruct (Z.eqb_spec (i - 1 + (j - 1) * d0 + (k - 1) * (d0 * d1)) (i0 - 1 + (j0 - 1) * d0 + (k0 - 1) * (d0 * d1))) as [E|E]; auto.
      exfalso. apply cell_inj in E; try lia. destruct E as (A1 & A2 & A3). apply (Hno x (or_introl eq_refl)).
      assert (i = i0) by lia. assert (j = j0) by lia. assert (k = k0) by lia. subst. split; [apply (r_match_get _ _ _ E1)|]. split; [apply (r_match_get _ _ _ E2)|apply (r_match_get _ _ _ E3)]. }
  destruct (G df (vrep (d0 * d1 * d2) 0%R)) as (data & Ef & L & G'); [apply incl_refl|auto|apply vlen_vrep; nia|].
  unfold pm_cube. fold d0 d1 d2. fold body. destruct df as [|x0 df'] eqn:Ed; [congruence|]. rewrite <- Ed in *. rewrite Ef. cbn [bind].
  exists (@mkRArr RA data [d0; d1; d2]). split; auto. split; [split; [reflexivity|]; repeat split; try lia; exact L|].
  intros i j k x I F1 F2 F3. pose proof (vget_inv _ _ _ _ F1) as A1. pose proof (vget_inv _ _ _ _ F2) as A2. pose proof (vget_inv _ _ _ _ F3) as A3. fold d0 in A1. fold d1 in A2. fold d2 in A3.
  unfold r_at. cbn [ra_dim ra_data]. apply (G' i j k); auto; lia.
Qed.
