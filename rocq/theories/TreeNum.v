(** * Rounding errors of sums over a hierarchy and over components. *)
From Coq Require Import ZArith Reals Lra Lia Permutation.
From Flocq Require Import Core BinarySingleNaN.
From Verif Require Import Base BaseFacts Arith Quality Utm UtmFacts UtmProofs Hierarchy SpecTree TreePath CoverFacts Values Qualities Ieee SpecIeee IeeeFacts SpecParts SpecInfo SpecData
  InfoFacts OInfo SpecNear NearFacts SpecNum NumFacts HQual HQualA.

Section T.
Variables (lg : f80 -> f80) (E : Z) (d : R).
Hypothesis HE : (32 <= E <= 8000)%Z.
Hypothesis Hd : (0 <= d <= / 1024)%R.
Hypothesis HL : log_accurate E d lg.
Notation A := (IA lg).
Notation z80 := (B754_zero false : f80).

(** ** Sums of approximations, from zero. *)
Section L.
Variables (X : Type) (c : X -> Z) (g f : X -> f80) (s i : X -> R).
Definition cnt (l : list X) : Z := fold_right (fun y n => c y + n) 0 l.
Lemma cnt_app : forall a b, cnt (a ++ b) = cnt a + cnt b.
Proof. induction a as [|y a IH]; intro b; [reflexivity|]. change (c y + cnt (a ++ b) = c y + cnt a + cnt b). rewrite IH. lia. Qed.

Lemma cnt_pos : forall l, (forall y, In y l -> 1 <= c y) -> l = [] \/ 1 <= cnt l.
Proof.
  induction l as [|y l IH]; intro H; auto. right. cbn [cnt fold_right]. change (1 <= c y + cnt l). pose proof (H y ltac:(left; auto)).
  destruct IH as [->|K]; [intros; apply H; right; auto|cbn; lia|lia].
Qed.

Lemma fsum_apS : forall l, (forall y, In y l -> 1 <= c y /\ apS (c y) (g y) (s y)) -> cnt l <= 4294967296 -> (Rsum s l <= b2 E)%R ->
  apS (cnt l) (fold_left (Bplus mode_NE) (map g l) z80) (Rsum s l).
Proof.
  induction l as [|y l IH] using rev_ind; intros H Hc HS; [apply apS_zero|].
  rewrite map_app, fold_left_app, Rsum_app, cnt_app in *. cbn [map fold_left cnt fold_right] in *. rewrite Rsum_cons, Rsum_nil, Rplus_0_r, Z.add_0_r in *.
  destruct (H y) as [C1 Y]; [apply in_or_app; right; left; auto|].
  assert (H' : forall y, In y l -> 1 <= c y /\ apS (c y) (g y) (s y)) by (intros; apply H; apply in_or_app; auto).
  pose proof (proj1 (proj2 Y)) as S0.
  specialize (IH H' ltac:(lia) ltac:(lra)). destruct (cnt_pos l (fun y Hy => proj1 (H' y Hy))) as [->|P].
  - cbn [cnt fold_right map fold_left Z.add]. rewrite Rsum_nil, Rplus_0_l. apply apS_add0; auto; apply apS_zero.
  - apply (apS_add E HE); auto.
Qed.

Lemma fsum_apI : forall l, (forall y, In y l -> 1 <= c y /\ apI E d (c y) (f y) (s y) (i y)) -> cnt l <= 4294967296 -> (Rsum s l <= b2 E)%R ->
  apI E d (cnt l) (fold_left (Bplus mode_NE) (map f l) z80) (Rsum s l) (Rsum i l).
Proof.
  induction l as [|y l IH] using rev_ind; intros H Hc HS; [apply apI_zero|].
  rewrite map_app, fold_left_app, !Rsum_app, cnt_app in *. cbn [map fold_left cnt fold_right] in *. rewrite !Rsum_cons, !Rsum_nil, !Rplus_0_r, Z.add_0_r in *.
  destruct (H y) as [C1 Y]; [apply in_or_app; right; left; auto|].
  assert (H' : forall y, In y l -> 1 <= c y /\ apI E d (c y) (f y) (s y) (i y)) by (intros; apply H; apply in_or_app; auto).
  pose proof (proj1 (proj2 Y)) as S0.
  specialize (IH H' ltac:(lia) ltac:(lra)). destruct (cnt_pos l (fun y Hy => proj1 (H' y Hy))) as [->|P].
  - cbn [cnt fold_right map fold_left Z.add]. rewrite !Rsum_nil, !Rplus_0_l. apply apI_add0; auto; apply apI_zero.
  - apply (apI_add E d HE Hd); auto.
Qed.
End L.

(** ** Sums over the leaves below a node. *)
Section M.
Variable (m : meta).
Hypothesis W : well_built m.
Notation L := (m_leaves m).
Notation hsize := (m_hsize m).
Notation lv := (leavesof L (m_parents m)).
Variables (kl : Z) (f e : Z -> f80) (xr ir : Z -> R).
Hypothesis Hkl : 1 <= kl.
Hypothesis Hmax : kl * L <= 4294967296.
Hypothesis Htot : (Rsum xr (zrange 0 L) <= b2 E)%R.
Hypothesis Hf : forall h, 0 <= h < L -> apS kl (f h) (xr h).
Hypothesis He : forall h, 0 <= h < L -> apI E d kl (e h) (xr h) (ir h).

Lemma xr_nonneg : forall h, 0 <= h < L -> (0 <= xr h)%R.
Proof. intros h Hh. apply (Hf h Hh). Qed.

Lemma Rsum_filter_le : forall p l, (forall y, In y l -> (0 <= xr y)%R) -> (Rsum xr (filter p l) <= Rsum xr l)%R.
Proof.
  intros p l H. induction l as [|y l IH]; [apply Rle_refl|]. assert (IH' := IH ltac:(intros; apply H; right; auto)). pose proof (H y ltac:(left; auto)).
  cbn [filter]. destruct (p y); rewrite !Rsum_cons; lra.
Qed.
Lemma bsum_le : forall h, (bsum m xr h <= b2 E)%R.
Proof.
  intro h. eapply Rle_trans; [|exact Htot]. unfold bsum, leavesof. apply Rsum_filter_le. intros y Hy. apply In_zrange in Hy. apply xr_nonneg; auto.
Qed.
Lemma lv_len : forall h, 0 <= vlen (lv h) <= L.
Proof.
  intro h. pose proof (wb_L m W). unfold vlen, leavesof. split; [lia|].
  assert (G : forall (p : Z -> bool) l, (length (filter p l) <= length l)%nat) by (intros p l; induction l as [|y l IH]; cbn [filter length]; [lia|destruct (p y); cbn [length]; lia]).
  pose proof (G (fun x => belowb (m_parents m) x h) (zrange 0 L)) as K. rewrite zrange_length in K. lia.
Qed.
Lemma lv_pos : forall h, 0 <= h < hsize -> 1 <= vlen (lv h).
Proof. intros h Hh. pose proof (lv_nonempty m W h Hh) as N. unfold vlen. destruct (lv h); [congruence|cbn [length]; lia]. Qed.

Lemma cnt_kids : forall h, L <= h < hsize -> cnt Z (fun y => kl * vlen (lv y)) (kids m h) = kl * vlen (lv h).
Proof.
  intros h Hh. pose proof (Permutation_length (leavesof_kids m W h Hh)) as P. unfold vlen at 2. rewrite P. clear P.
  induction (kids m h) as [|y l IH]; [cbn; lia|]. cbn [cnt fold_right flat_map]. change (kl * vlen (lv y) + cnt Z (fun y => kl * vlen (lv y)) l = kl * Z.of_nat (length (lv y ++ flat_map lv l))).
  rewrite IH, app_length. unfold vlen. lia.
Qed.

Lemma tree_apS : forall S, sums A m f S -> forall h, 0 <= h < hsize -> apS (kl * vlen (lv h)) (S h) (bsum m xr h).
Proof.
  intros S [S1 S2]. apply (tree_ind m W). intros h Hh IH. destruct (Z_lt_le_dec h L) as [Lt|Ge].
  - rewrite S1, (bsum_leaf m W), (lv_leaf m W) by lia. unfold vlen. cbn [length]. rewrite Z.mul_1_r. apply Hf; lia.
  - rewrite S2 by lia. pose proof (bsum_kids m W xr h ltac:(lia)) as B. pose proof (bsum_le h) as Bl. rewrite B in *. unfold fsum. cbn [n_add n_zero IA].
    pose proof (cnt_kids h ltac:(lia)) as C. rewrite <- C. apply (fsum_apS Z (fun y => kl * vlen (lv y)) S (bsum m xr)); auto.
    + intros y Hy. pose proof (IH y Hy) as K. apply (kids_In m W) in Hy. pose proof (lv_pos y ltac:(tauto)). split; [nia|exact K].
    + rewrite C. pose proof (lv_len h). nia.
Qed.

Lemma tree_apI : forall F, sums A m e F -> forall h, 0 <= h < hsize -> apI E d (kl * vlen (lv h)) (F h) (bsum m xr h) (bsum m ir h).
Proof.
  intros F [S1 S2]. apply (tree_ind m W). intros h Hh IH. destruct (Z_lt_le_dec h L) as [Lt|Ge].
  - rewrite S1, !(bsum_leaf m W), (lv_leaf m W) by lia. unfold vlen. cbn [length]. rewrite Z.mul_1_r. apply He; lia.
  - rewrite S2 by lia. pose proof (bsum_kids m W xr h ltac:(lia)) as B. pose proof (bsum_kids m W ir h ltac:(lia)) as B'. pose proof (bsum_le h) as Bl. rewrite B, B' in *. unfold fsum. cbn [n_add n_zero IA].
    pose proof (cnt_kids h ltac:(lia)) as C. rewrite <- C. apply (fsum_apI Z (fun y => kl * vlen (lv y)) F (bsum m xr) (bsum m ir)); auto.
    + intros y Hy. pose proof (IH y Hy) as K. apply (kids_In m W) in Hy. pose proof (lv_pos y ltac:(tauto)). split; [nia|exact K].
    + rewrite C. pose proof (lv_len h). nia.
Qed.
End M.

(** ** Accumulating the components of an entry. *)
Lemma comps_ok : forall k K (s f : Z -> f80) (cl : Z -> list R), (1 <= k <= 4294967296)%Z -> (0 <= K <= 4294967296)%Z ->
  (forall c, 0 <= c < K -> vlen (cl c) = k /\ Forall (fun x : R => x = 0 \/ b2 (1 - E) <= x)%R (cl c) /\
     apS k (s c) (total (cl c)) /\ apI E d k (f c) (total (cl c)) (Rsum xlog2 (cl c))) ->
  (Rsum (fun c => total (cl c)) (zrange 0 K) <= b2 (E - 1))%R ->
  let q := fold_left (fun q c => q_bump A q (entropyReduction A (s c) (f c)) (divergence A k (s c) (f c))) (zrange 0 K) (q_zero A) in
  let T := Rsum (fun c => total (cl c)) (zrange 0 K) in
  within (num_err E (k + K) d * T) (gain q) (Rsum (fun c => gain_of (cl c)) (zrange 0 K)) /\
  within (num_err E (k + K) d * T) (loss q) (Rsum (fun c => loss_of (cl c)) (zrange 0 K)) /\
  (Rabs (Rsum (fun c => gain_of (cl c)) (zrange 0 K)) <= 3 * (T * IZR E))%R /\
  (Rabs (Rsum (fun c => loss_of (cl c)) (zrange 0 K)) <= 3 * (T * IZR E))%R.
Proof.
  intros k K s f cl Hk HK Hc HT.
  assert (TN : forall c, 0 <= c < K -> (0 <= total (cl c))%R) by (intros c Hcc; apply (total_datum E); apply (Hc c Hcc)).
  assert (Inv : forall j, (Z.of_nat j <= K) -> let q := fold_left (fun q c => q_bump A q (entropyReduction A (s c) (f c)) (divergence A k (s c) (f c))) (zrange 0 (Z.of_nat j)) (q_zero A) in
      let T := Rsum (fun c => total (cl c)) (zrange 0 (Z.of_nat j)) in
      apQ E (5 * wr d + 22 * IZR k * b2 (-64)) (Z.of_nat j) (gain q) T (Rsum (fun c => gain_of (cl c)) (zrange 0 (Z.of_nat j))) /\
      apQ E (5 * wr d + 22 * IZR k * b2 (-64)) (Z.of_nat j) (loss q) T (Rsum (fun c => loss_of (cl c)) (zrange 0 (Z.of_nat j)))).
  { induction j as [|j IH]; intros Hj; cbn zeta.
    - change (Z.of_nat 0) with 0. rewrite zrange_empty by lia. rewrite !Rsum_nil. split; apply apQ_zero.
    - rewrite Nat2Z.inj_succ in *. specialize (IH ltac:(lia)). cbn zeta in IH. destruct IH as [IH1 IH2].
      rewrite <- Z.add_1_r in *. rewrite zrange_snoc in * by lia. rewrite fold_left_app. cbn [fold_left].
      assert (CL : (Rsum (fun c => total (cl c)) (zrange 0 (Z.of_nat j) ++ [Z.of_nat j]) <= b2 (E - 1))%R).
      { rewrite <- zrange_snoc by lia. eapply Rle_trans; [|exact HT]. rewrite (zrange_app 0 (Z.of_nat j + 1) K) by lia. rewrite Rsum_app.
        assert (0 <= Rsum (fun c => total (cl c)) (zrange (Z.of_nat j + 1) K))%R; [|lra]. apply Rsum_nonneg. intros c Hcc. apply In_zrange in Hcc. apply TN; lia. }
      rewrite !Rsum_app in *. rewrite !Rsum_cons, !Rsum_nil, !Rplus_0_r in *.
      set (c := Z.of_nat j) in *. set (q := fold_left _ (zrange 0 c) (q_zero A)) in *.
      destruct (Hc c ltac:(lia)) as (VL & D & AS & AI). destruct (total_datum E _ D) as [T0 T1].
      unfold q_bump, q_addGain, q_addLoss. cbn [gain loss].
      destruct (comp_ok lg E d HE Hd HL k k _ _ _ _ c q _ _ _ Hk ltac:(lia) ltac:(lia) T1 CL AS AI IH1 IH2) as [C1 C2].
      unfold loss_of. rewrite VL. split; [exact C1|exact C2]. }
  specialize (Inv (Z.to_nat K) ltac:(lia)). cbn zeta in Inv. rewrite Z2Nat.id in Inv by lia. destruct Inv as [Q1 Q2]. cbn zeta.
  pose proof (proj2 (proj2 (proj2 Q1))) as M1. pose proof (proj2 (proj2 (proj2 Q2))) as M2.
  apply (apQ_err E d HE) in Q1; [|lia|lia]. apply (apQ_err E d HE) in Q2; [|lia|lia]. auto.
Qed.
End T.
