(** * Convexity of gain and loss in a repeated value: moving a cut between two equal slices. *)
From Coq Require Import Reals Lra Lia Permutation.
From Verif Require Import Base BaseFacts SpecParts SpecInfo SpecData InfoFacts OInfo.
Local Open Scope R_scope.

Lemma xl_double : forall c, 0 <= c -> xl (2 * c) = 2 * xl c + 2 * c * ln 2.
Proof. intros c H. rewrite xl_scal by lra. lra. Qed.

Lemma phi_double : forall s n, 0 <= s -> 0 < n -> phi (2 * s) (2 * n) = 2 * phi s n.
Proof. intros s n Hs Hn. unfold phi. rewrite xl_double by auto. rewrite ln_mult by lra. ring. Qed.

Lemma xl_mid : forall a b c, 0 <= a -> 0 <= b -> a + b = 2 * c -> 2 * xl c <= xl a + xl b.
Proof.
  intros a b c Ha Hb E. pose proof (phi_super a b 1 1 Ha Hb ltac:(lra) ltac:(lra)) as K. unfold phi in K. rewrite ln_1 in K.
  rewrite E in K. rewrite xl_double in K by lra. replace (1 + 1) with 2 in K by lra. lra.
Qed.
Lemma xl_mid_lt : forall a b c, 0 <= a -> 0 <= b -> a + b = 2 * c -> a <> b -> 2 * xl c < xl a + xl b.
Proof.
  intros a b c Ha Hb E D. destruct (Rle_lt_or_eq_dec _ _ (xl_mid a b c Ha Hb E)) as [K|K]; [exact K|]. exfalso. apply D.
  assert (Q : phi a 1 + phi b 1 = phi (a + b) (1 + 1)).
  { unfold phi. rewrite ln_1, E, xl_double by lra. replace (1 + 1) with 2 by lra. lra. }
  apply phi_super_eq in Q; lra.
Qed.

Lemma Rsum_app2 : forall l (v : R), Rsum xl (l ++ [v]) = Rsum xl l + xl v /\ total (l ++ [v]) = total l + v /\ IZR (vlen (l ++ [v])) = IZR (vlen l) + 1.
Proof.
  intros l v. rewrite Rsum_app, Rsum_cons, Rsum_nil, total_app, total_cons, total_nil. repeat split; try lra.
  unfold vlen. rewrite app_length. cbn [length]. rewrite Nat2Z.inj_add, plus_IZR. reflexivity.
Qed.
Lemma Rsum_app3 : forall l (v : R), Rsum xl (l ++ [v; v]) = Rsum xl l + 2 * xl v /\ total (l ++ [v; v]) = total l + 2 * v /\ IZR (vlen (l ++ [v; v])) = IZR (vlen l) + 2.
Proof.
  intros l v. rewrite Rsum_app, !Rsum_cons, Rsum_nil, total_app, !total_cons, total_nil. repeat split; try lra.
  unfold vlen. rewrite app_length. cbn [length]. rewrite Nat2Z.inj_add, plus_IZR. reflexivity.
Qed.
Lemma nonneg_snoc : forall l v, nonneg (l ++ [v]) -> nonneg l /\ 0 <= v /\ nonneg (l ++ [v; v]).
Proof.
  intros l v H. apply nonneg_app in H. destruct H as [H1 H2]. inversion H2; subst. repeat split; auto. apply nonneg_app. split; auto. constructor; auto.
Qed.

(** Gain: adding the value [v] a second time gains at least as much as the first time; more if v > 0. *)
Lemma gain_twice : forall l v, nonneg (l ++ [v]) ->
  2 * gain_of (l ++ [v]) <= gain_of l + gain_of (l ++ [v; v]) /\ (0 < v -> 2 * gain_of (l ++ [v]) < gain_of l + gain_of (l ++ [v; v])).
Proof.
  intros l v H. destruct (nonneg_snoc l v H) as (H1 & Hv & H2). pose proof (total_nonneg l H1) as Ht.
  rewrite !gain_of_xl by auto. destruct (Rsum_app2 l v) as (-> & -> & _). destruct (Rsum_app3 l v) as (-> & -> & _). pose proof ln2_pos as L2.
  assert (P : 0 < / ln 2) by (apply Rinv_0_lt_compat; auto). unfold Rdiv.
  split.
  - pose proof (xl_mid (total l) (total l + 2 * v) (total l + v) ltac:(lra) ltac:(lra) ltac:(lra)) as K. nra.
  - intro Pv. pose proof (xl_mid_lt (total l) (total l + 2 * v) (total l + v) ltac:(lra) ltac:(lra) ltac:(lra) ltac:(lra)) as K. nra.
Qed.

(** Loss: adding it a second time loses at most as much as the first time; less if v = 0 and the rest is not. *)
Lemma loss_twice : forall l v, nonneg (l ++ [v]) ->
  loss_of l + loss_of (l ++ [v; v]) <= 2 * loss_of (l ++ [v]) /\ (v = 0 -> 0 < total l -> loss_of l + loss_of (l ++ [v; v]) < 2 * loss_of (l ++ [v])).
Proof.
  intros l v H. destruct (nonneg_snoc l v H) as (H1 & Hv & H2). pose proof (total_nonneg l H1) as Ht.
  rewrite !loss_of_phi by auto. destruct (Rsum_app2 l v) as (-> & -> & ->). destruct (Rsum_app3 l v) as (-> & -> & ->). pose proof ln2_pos as L2.
  assert (P : 0 < / ln 2) by (apply Rinv_0_lt_compat; auto). unfold Rdiv.
  destruct l as [|x l].
  { cbn [vlen length]. change (Z.of_nat 0) with 0%Z. rewrite total_nil, Rsum_nil. split; [|intros; lra].
    rewrite !Rplus_0_l, phi_0. replace (phi (2 * v) 2) with (2 * phi v 1) by (rewrite <- phi_double by lra; f_equal; lra). lra. }
  pose proof (IZR_lt 0 _ (vlen_pos _ x l)) as Hn. set (n := IZR (vlen (x :: l))) in *. set (s := total (x :: l)) in *.
  assert (E : phi (s + (s + 2 * v)) (n + (n + 2)) = 2 * phi (s + v) (n + 1)).
  { replace (s + (s + 2 * v)) with (2 * (s + v)) by lra. replace (n + (n + 2)) with (2 * (n + 1)) by lra. apply phi_double; lra. }
  split.
  - pose proof (phi_super s (s + 2 * v) n (n + 2) ltac:(lra) ltac:(lra) ltac:(lra) ltac:(lra)) as K. rewrite E in K. nra.
  - intros V0 Ps. assert (K : phi s n + phi (s + 2 * v) (n + 2) < phi (s + (s + 2 * v)) (n + (n + 2))).
    { destruct (Rle_lt_or_eq_dec _ _ (phi_super s (s + 2 * v) n (n + 2) ltac:(lra) ltac:(lra) ltac:(lra) ltac:(lra))) as [K|K]; [exact K|].
      apply phi_super_eq in K; try lra. subst v. nra. }
    rewrite E in K. nra.
Qed.

(** Weighted value of a list. *)
Definition lval (a b : R) (l : list R) : R := a * gain_of l - b * loss_of l.

Lemma lval_twice : forall a b l v, 0 <= a -> 0 <= b -> nonneg (l ++ [v]) -> 2 * lval a b (l ++ [v]) <= lval a b l + lval a b (l ++ [v; v]).
Proof. intros a b l v Ha Hb H. unfold lval. destruct (gain_twice l v H) as [G _]. destruct (loss_twice l v H) as [Lo _]. nra. Qed.
Lemma lval_twice_lt : forall a b l v, 0 < a -> 0 < b -> nonneg (l ++ [v]) -> 0 < total (l ++ [v]) -> 2 * lval a b (l ++ [v]) < lval a b l + lval a b (l ++ [v; v]).
Proof.
  intros a b l v Ha Hb H T. unfold lval. destruct (gain_twice l v H) as [G G']. destruct (loss_twice l v H) as [Lo Lo'].
  destruct (nonneg_snoc l v H) as (_ & Hv & _). destruct (Rle_lt_or_eq_dec _ _ Hv) as [P|P]; [specialize (G' P); nra|].
  rewrite total_app, total_cons, total_nil in T. specialize (Lo' ltac:(auto) ltac:(lra)). nra.
Qed.
Lemma lval_perm : forall a b l l', Permutation l l' -> lval a b l = lval a b l'.
Proof. intros a b l l' H. unfold lval. rewrite (gain_perm l l'), (loss_perm l l') by auto. reflexivity. Qed.
Lemma lval_nil : forall a b, lval a b [] = 0.
Proof. intros. unfold lval. rewrite gain_of_nil, loss_of_nil. lra. Qed.
