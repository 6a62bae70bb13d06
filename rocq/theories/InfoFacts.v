(** * Facts about gain and loss of lists of non-negative numbers. *)
From Coq Require Import Reals Lra Lia Permutation.
From Verif Require Import Base BaseFacts SpecParts SpecInfo.
Local Open Scope R_scope.

(** ** Sums *)
Lemma Rsum_nil : forall X (f : X -> R), Rsum f [] = 0.
Proof. reflexivity. Qed.
Lemma Rsum_cons : forall X (f : X -> R) x l, Rsum f (x :: l) = f x + Rsum f l.
Proof. reflexivity. Qed.
Lemma Rsum_app : forall X (f : X -> R) l1 l2, Rsum f (l1 ++ l2) = Rsum f l1 + Rsum f l2.
Proof. intros; induction l1; rewrite ?app_nil_l, <- ?app_comm_cons, ?Rsum_nil, ?Rsum_cons; lra. Qed.
Lemma Rsum_ext : forall X (f g : X -> R) l, (forall x, In x l -> f x = g x) -> Rsum f l = Rsum g l.
Proof. intros X f g l H. unfold Rsum. rewrite (map_ext_in f g); auto. Qed.
Lemma Rsum_map : forall X Y (f : Y -> R) (g : X -> Y) l, Rsum f (map g l) = Rsum (fun x => f (g x)) l.
Proof. intros. unfold Rsum. rewrite map_map. auto. Qed.
Lemma Rsum_concat : forall X (f : X -> R) ll, Rsum f (concat ll) = Rsum (Rsum f) ll.
Proof. intros X f ll; induction ll as [|l ll IH]; simpl; auto. rewrite Rsum_app, IH. reflexivity. Qed.
Lemma Rsum_plus : forall X (f g : X -> R) l, Rsum (fun x => f x + g x) l = Rsum f l + Rsum g l.
Proof. intros X f g l; induction l as [|x l IH]; rewrite ?Rsum_nil, ?Rsum_cons, ?IH; lra. Qed.
Lemma Rsum_scal : forall X (f : X -> R) c l, Rsum (fun x => c * f x) l = c * Rsum f l.
Proof. intros X f c l; induction l as [|x l IH]; rewrite ?Rsum_nil, ?Rsum_cons, ?IH; lra. Qed.
Lemma Rsum_zero : forall X (f : X -> R) l, (forall x, In x l -> f x = 0) -> Rsum f l = 0.
Proof. intros X f l H; induction l as [|x l IH]; rewrite ?Rsum_nil, ?Rsum_cons; auto.
  rewrite H by (left; auto). rewrite IH; [lra|]. intros; apply H; right; auto. Qed.
Lemma Rsum_le : forall X (f g : X -> R) l, (forall x, In x l -> f x <= g x) -> Rsum f l <= Rsum g l.
Proof. intros X f g l H; induction l as [|x l IH]; rewrite ?Rsum_nil, ?Rsum_cons; [lra|].
  apply Rplus_le_compat; [apply H; left; auto|apply IH; intros; apply H; right; auto]. Qed.
Lemma Rsum_nonneg : forall X (f : X -> R) l, (forall x, In x l -> 0 <= f x) -> 0 <= Rsum f l.
Proof. intros X f l H. rewrite <- (Rsum_zero _ (fun _ => 0) l) by auto. apply Rsum_le; auto. Qed.
Lemma Rsum_perm : forall X (f : X -> R) l l', Permutation l l' -> Rsum f l = Rsum f l'.
Proof. intros X f l l' H; induction H; rewrite ?Rsum_cons; lra. Qed.
Lemma Rsum_zero_inv : forall X (f : X -> R) l, (forall x, In x l -> 0 <= f x) -> Rsum f l = 0 -> forall x, In x l -> f x = 0.
Proof.
  intros X f l; induction l as [|y l IH]; intros H E x Hx; [destruct Hx|]. rewrite Rsum_cons in E.
  assert (0 <= f y) by (apply H; left; auto).
  assert (0 <= Rsum f l) by (apply Rsum_nonneg; intros; apply H; right; auto).
  destruct Hx as [<-|Hx]; [lra|]. apply IH; auto; [intros; apply H; right; auto|lra].
Qed.
Lemma Rsum_swap : forall X Y (f : X -> Y -> R) l l', Rsum (fun x => Rsum (f x) l') l = Rsum (fun y => Rsum (fun x => f x y) l) l'.
Proof.
  intros X Y f l l'. induction l as [|x l IH].
  - rewrite Rsum_nil. symmetry. apply Rsum_zero. auto.
  - rewrite Rsum_cons, IH, <- Rsum_plus. apply Rsum_ext. intros. rewrite Rsum_cons. auto.
Qed.

Lemma total_nil : total [] = 0. Proof. reflexivity. Qed.
Lemma total_cons : forall x l, total (x :: l) = x + total l. Proof. reflexivity. Qed.
Lemma total_app : forall l1 l2, total (l1 ++ l2) = total l1 + total l2.
Proof. intros; apply Rsum_app. Qed.

(** ** Logarithms *)
Lemma ln2_pos : 0 < ln 2. Proof. rewrite <- ln_1. apply ln_increasing; lra. Qed.

Lemma ln_le_minus : forall x, 0 < x -> ln x <= x - 1.
Proof.
  intros x Hx. destruct (Req_dec x 1) as [->|D]; [rewrite ln_1; lra|].
  assert (K : 1 + ln x < exp (ln x) \/ ln x = 0).
  { destruct (Req_dec (ln x) 0); auto. left. apply exp_ineq1; auto. }
  destruct K as [K|K]; [rewrite exp_ln in K by auto; lra|].
  exfalso. apply D. rewrite <- (exp_ln x) by auto. rewrite K. apply exp_0.
Qed.
Lemma ln_lt_minus : forall x, 0 < x -> x <> 1 -> ln x < x - 1.
Proof.
  intros x Hx D. assert (ln x <> 0).
  { intro K. apply D. rewrite <- (exp_ln x) by auto. rewrite K. apply exp_0. }
  pose proof (exp_ineq1 (ln x) H). rewrite exp_ln in H0 by auto. lra.
Qed.

Definition xl (v : R) : R := if Rlt_dec 0 v then v * ln v else 0.
Lemma xlog2_xl : forall v, xlog2 v = xl v / ln 2.
Proof. intros. unfold xlog2, xl, log2. pose proof ln2_pos. destruct (Rlt_dec 0 v); field; lra. Qed.
Lemma xl_pos : forall v, 0 < v -> xl v = v * ln v.
Proof. intros; unfold xl; destruct (Rlt_dec 0 v); lra. Qed.
Lemma xl_zero : xl 0 = 0.
Proof. unfold xl; destruct (Rlt_dec 0 0); lra. Qed.

Lemma xl_super : forall a b, 0 <= a -> 0 <= b -> xl a + xl b <= xl (a + b).
Proof.
  intros a b Ha Hb. destruct (Req_dec a 0) as [->|Da]. { rewrite xl_zero, Rplus_0_l. rewrite Rplus_0_l. lra. }
  destruct (Req_dec b 0) as [->|Db]. { rewrite xl_zero, !Rplus_0_r. lra. }
  rewrite !xl_pos by lra. assert (ln a <= ln (a + b)) by (left; apply ln_increasing; lra).
  assert (ln b <= ln (a + b)) by (left; apply ln_increasing; lra).
  assert (a * ln a <= a * ln (a + b)) by (apply Rmult_le_compat_l; lra).
  assert (b * ln b <= b * ln (a + b)) by (apply Rmult_le_compat_l; lra). lra.
Qed.

(** phi(S,n) = S ln n - S ln S. *)
Definition phi (s n : R) : R := s * ln n - xl s.
Lemma phi_0 : forall n, phi 0 n = 0. Proof. intros; unfold phi; rewrite xl_zero; lra. Qed.

(** Tangent bound: the linear function touching phi at (s,n). *)
Lemma phi_tangent : forall a n s m, 0 < a -> 0 < n -> 0 < s -> 0 < m ->
  a * ln n - a * ln a <= a * (ln m - ln s) + (n * s / m - a).
Proof.
  intros a n s m Ha Hn Hs Hm.
  assert (Hp : 0 < (n * s) / (a * m)) by (apply Rdiv_lt_0_compat; apply Rmult_lt_0_compat; auto).
  pose proof (ln_le_minus _ Hp) as K. unfold Rdiv in K at 1. rewrite ln_mult in K; [|apply Rmult_lt_0_compat; auto|apply Rinv_0_lt_compat; apply Rmult_lt_0_compat; auto].
  rewrite ln_Rinv in K by (apply Rmult_lt_0_compat; auto). rewrite !ln_mult in K by auto.
  apply (Rmult_le_compat_l a) in K; [|lra].
  replace (a * (n * s / (a * m) - 1)) with (n * s / m - a) in K by (field; lra). lra.
Qed.
Lemma phi_tangent_eq : forall a n s m, 0 < a -> 0 < n -> 0 < s -> 0 < m ->
  a * ln n - a * ln a = a * (ln m - ln s) + (n * s / m - a) -> n * s = a * m.
Proof.
  intros a n s m Ha Hn Hs Hm E.
  assert (Hp : 0 < (n * s) / (a * m)) by (apply Rdiv_lt_0_compat; apply Rmult_lt_0_compat; auto).
  assert (Ham : 0 < a * m) by (apply Rmult_lt_0_compat; auto).
  destruct (Req_dec ((n * s) / (a * m)) 1) as [D|D].
  { replace (n * s) with ((n * s) / (a * m) * (a * m)) by (field; split; lra). rewrite D. ring. }
  exfalso. pose proof (ln_lt_minus _ Hp D) as K. unfold Rdiv in K at 1. rewrite ln_mult in K; [|apply Rmult_lt_0_compat; auto|apply Rinv_0_lt_compat; auto].
  rewrite ln_Rinv in K by auto. rewrite !ln_mult in K by auto.
  apply (Rmult_lt_compat_l a) in K; [|lra].
  replace (a * (n * s / (a * m) - 1)) with (n * s / m - a) in K by (field; lra). lra.
Qed.

Lemma phi_super : forall a b n m, 0 <= a -> 0 <= b -> 0 < n -> 0 < m ->
  phi a n + phi b m <= phi (a + b) (n + m).
Proof.
  intros a b n m Ha Hb Hn Hm. destruct (Req_dec a 0) as [->|Da].
  { rewrite phi_0, !Rplus_0_l. unfold phi. apply Rplus_le_compat_r. apply Rmult_le_compat_l; auto. left; apply ln_increasing; lra. }
  destruct (Req_dec b 0) as [->|Db].
  { rewrite phi_0, !Rplus_0_r. unfold phi. apply Rplus_le_compat_r. apply Rmult_le_compat_l; auto. left; apply ln_increasing; lra. }
  pose proof (phi_tangent a n (a + b) (n + m) ltac:(lra) Hn ltac:(lra) ltac:(lra)) as K1.
  pose proof (phi_tangent b m (a + b) (n + m) ltac:(lra) Hm ltac:(lra) ltac:(lra)) as K2.
  unfold phi. rewrite !xl_pos by lra.
  assert (n * (a + b) / (n + m) + m * (a + b) / (n + m) = a + b) by (field; lra). lra.
Qed.

Lemma phi_super_eq : forall a b n m, 0 <= a -> 0 <= b -> 0 < n -> 0 < m ->
  phi a n + phi b m = phi (a + b) (n + m) -> a * m = b * n.
Proof.
  intros a b n m Ha Hb Hn Hm. destruct (Req_dec a 0) as [->|Da].
  { rewrite phi_0, !Rplus_0_l. unfold phi. intro E. assert (K : b * ln m = b * ln (n + m)) by lra.
    destruct (Req_dec b 0) as [->|Db]; [lra|]. apply Rmult_eq_reg_l in K; auto.
    assert (ln m < ln (n + m)) by (apply ln_increasing; lra). lra. }
  destruct (Req_dec b 0) as [->|Db].
  { rewrite phi_0, !Rplus_0_r. unfold phi. intro E. assert (K : a * ln n = a * ln (n + m)) by lra.
    apply Rmult_eq_reg_l in K; auto. assert (ln n < ln (n + m)) by (apply ln_increasing; lra). lra. }
  pose proof (phi_tangent a n (a + b) (n + m) ltac:(lra) Hn ltac:(lra) ltac:(lra)) as K1.
  pose proof (phi_tangent b m (a + b) (n + m) ltac:(lra) Hm ltac:(lra) ltac:(lra)) as K2.
  unfold phi. rewrite !xl_pos by lra. intro E.
  assert (n * (a + b) / (n + m) + m * (a + b) / (n + m) = a + b) by (field; lra).
  assert (K : n * (a + b) = a * (n + m)) by (apply phi_tangent_eq; lra). lra.
Qed.

(** ** Lists *)
Lemma total_nonneg : forall l, nonneg l -> 0 <= total l.
Proof. intros l H. apply Rsum_nonneg. intros x Hx. exact (proj1 (Forall_forall _ _) H x Hx). Qed.
Lemma total_zero : forall l, nonneg l -> total l = 0 -> forall x, In x l -> x = 0.
Proof. intros l H E x Hx. apply (Rsum_zero_inv _ (fun v => v) l); auto. intros y Hy. exact (proj1 (Forall_forall _ _) H y Hy). Qed.

Lemma gain_of_xl : forall l, nonneg l -> gain_of l = (xl (total l) - Rsum xl l) / ln 2.
Proof.
  intros l H. unfold gain_of. pose proof ln2_pos. rewrite (Rsum_ext _ xlog2 (fun v => / ln 2 * xl v)) by (intros; rewrite xlog2_xl; field; lra).
  rewrite Rsum_scal. destruct (Rlt_dec 0 (total l)) as [K|K].
  - rewrite xl_pos by auto. unfold log2. field. lra.
  - pose proof (total_nonneg l H). assert (E : total l = 0) by lra. rewrite E, xl_zero.
    rewrite (Rsum_zero _ xl l); [field; lra|]. intros x Hx. rewrite (total_zero l H E x Hx). apply xl_zero.
Qed.

Lemma loss_of_phi : forall l, nonneg l -> loss_of l = (phi (total l) (IZR (vlen l)) + Rsum xl l) / ln 2.
Proof. intros l H. unfold loss_of. rewrite gain_of_xl by auto. unfold phi, log2. pose proof ln2_pos. field; lra. Qed.

Lemma vlen_pos : forall X (x : X) l, (0 < vlen (x :: l))%Z.
Proof. intros; unfold vlen; simpl length; lia. Qed.

Lemma gain_of_nil : gain_of [] = 0.
Proof. unfold gain_of. rewrite total_nil. destruct (Rlt_dec 0 0); lra. Qed.
Lemma loss_of_nil : loss_of [] = 0.
Proof. unfold loss_of. rewrite gain_of_nil, total_nil. lra. Qed.
Lemma gain_of_single : forall x, gain_of [x] = 0.
Proof.
  intro x. unfold gain_of. rewrite total_cons, total_nil, Rplus_0_r, Rsum_cons, Rsum_nil.
  destruct (Rlt_dec 0 x) as [K|K]; auto. unfold xlog2. destruct (Rlt_dec 0 x); lra.
Qed.
Lemma loss_of_single : forall x, loss_of [x] = 0.
Proof. intro x. unfold loss_of. rewrite gain_of_single. unfold log2, vlen. simpl. rewrite ln_1. field. pose proof ln2_pos; lra. Qed.

Lemma nonneg_app : forall l1 l2, nonneg (l1 ++ l2) <-> nonneg l1 /\ nonneg l2.
Proof. intros; unfold nonneg; rewrite Forall_app; tauto. Qed.
Lemma nonneg_concat : forall ll, nonneg (concat ll) <-> Forall nonneg ll.
Proof.
  induction ll as [|l ll IH]; simpl; [split; constructor|]. rewrite nonneg_app, IH. split; intro H.
  - constructor; tauto.
  - inversion H; auto.
Qed.

Lemma div_le : forall a b, a <= b -> a / ln 2 <= b / ln 2.
Proof. intros. unfold Rdiv. apply Rmult_le_compat_r; auto. left; apply Rinv_0_lt_compat; apply ln2_pos. Qed.

Lemma gain_super : forall l1 l2, nonneg (l1 ++ l2) -> gain_of l1 + gain_of l2 <= gain_of (l1 ++ l2).
Proof.
  intros l1 l2 H. pose proof (proj1 (nonneg_app l1 l2) H) as [H1 H2]. rewrite !gain_of_xl by auto.
  rewrite total_app, Rsum_app. pose proof (xl_super _ _ (total_nonneg _ H1) (total_nonneg _ H2)).
  unfold Rdiv. rewrite <- Rmult_plus_distr_r. apply div_le. lra.
Qed.

Lemma loss_super : forall l1 l2, nonneg (l1 ++ l2) -> loss_of l1 + loss_of l2 <= loss_of (l1 ++ l2).
Proof.
  intros l1 l2 H. destruct l1 as [|x l1]. { rewrite loss_of_nil, app_nil_l. lra. }
  destruct l2 as [|y l2]. { rewrite loss_of_nil, app_nil_r. lra. }
  pose proof (proj1 (nonneg_app _ _) H) as [H1 H2]. rewrite !loss_of_phi by auto.
  rewrite total_app, Rsum_app. rewrite vlen_app, plus_IZR.
  pose proof (phi_super _ _ _ _ (total_nonneg _ H1) (total_nonneg _ H2) (IZR_lt _ _ (vlen_pos _ x l1)) (IZR_lt _ _ (vlen_pos _ y l2))).
  unfold Rdiv. rewrite <- Rmult_plus_distr_r. apply div_le. lra.
Qed.

Lemma gain_of_nonneg : forall l, nonneg l -> 0 <= gain_of l.
Proof.
  induction l as [|x l IH]; intro H; [rewrite gain_of_nil; lra|].
  pose proof (gain_super [x] l H). rewrite gain_of_single in H0. inversion H; subst. specialize (IH H4). simpl app in H0. lra.
Qed.
Lemma loss_of_nonneg : forall l, nonneg l -> 0 <= loss_of l.
Proof.
  induction l as [|x l IH]; intro H; [rewrite loss_of_nil; lra|].
  pose proof (loss_super [x] l H). rewrite loss_of_single in H0. inversion H; subst. specialize (IH H4). simpl app in H0. lra.
Qed.

Lemma gain_concat : forall ll, nonneg (concat ll) -> Rsum gain_of ll <= gain_of (concat ll).
Proof.
  induction ll as [|l ll IH]; intro H. { rewrite Rsum_nil. simpl. rewrite gain_of_nil. lra. }
  simpl concat in *. pose proof (gain_super _ _ H). apply nonneg_app in H. destruct H as [_ H]. specialize (IH H).
  rewrite Rsum_cons. lra.
Qed.
Lemma loss_concat : forall ll, nonneg (concat ll) -> Rsum loss_of ll <= loss_of (concat ll).
Proof.
  induction ll as [|l ll IH]; intro H. { rewrite Rsum_nil. simpl. rewrite loss_of_nil. lra. }
  simpl concat in *. pose proof (loss_super _ _ H). apply nonneg_app in H. destruct H as [_ H]. specialize (IH H).
  rewrite Rsum_cons. lra.
Qed.

Lemma total_perm : forall l l', Permutation l l' -> total l = total l'.
Proof. intros; apply Rsum_perm; auto. Qed.
Lemma gain_perm : forall l l', Permutation l l' -> gain_of l = gain_of l'.
Proof. intros l l' H. unfold gain_of. rewrite (total_perm l l' H), (Rsum_perm _ xlog2 l l' H). auto. Qed.
Lemma loss_perm : forall l l', Permutation l l' -> loss_of l = loss_of l'.
Proof. intros l l' H. unfold loss_of. rewrite (total_perm l l' H), (gain_perm l l' H). unfold vlen. rewrite (Permutation_length H). auto. Qed.

(** Zero loss means homogeneous. *)
Lemma total_const : forall v l, (forall x, In x l -> x = v) -> total l = IZR (vlen l) * v.
Proof.
  intros v l; induction l as [|x l IH]; intro H. { rewrite total_nil. unfold vlen. simpl. lra. }
  rewrite total_cons, IH by (intros; apply H; right; auto). rewrite (H x) by (left; auto).
  unfold vlen. simpl length. rewrite Nat2Z.inj_succ, succ_IZR. lra.
Qed.
Lemma loss_of_const : forall v l, (forall x, In x l -> x = v) -> 0 <= v -> loss_of l = 0.
Proof.
  intros v l H Hv. assert (N : nonneg l). { apply Forall_forall. intros x Hx. rewrite (H x Hx). auto. }
  rewrite loss_of_phi by auto. assert (E : Rsum xl l = IZR (vlen l) * xl v).
  { clear N. induction l as [|x l IH]. { rewrite Rsum_nil. unfold vlen. simpl. lra. }
    rewrite Rsum_cons, IH by (intros; apply H; right; auto). rewrite (H x) by (left; auto).
    unfold vlen. simpl length. rewrite Nat2Z.inj_succ, succ_IZR. lra. }
  rewrite E, (total_const v l H). destruct l as [|x l]. { unfold vlen. simpl. rewrite !Rmult_0_l, phi_0. unfold Rdiv. lra. }
  assert (Hn : 0 < IZR (vlen (x :: l))) by (apply IZR_lt; apply vlen_pos).
  destruct (Req_dec v 0) as [->|D]. { rewrite xl_zero, !Rmult_0_r, phi_0. unfold Rdiv. lra. }
  unfold phi. rewrite !xl_pos by (try apply Rmult_lt_0_compat; lra). rewrite ln_mult by lra. unfold Rdiv. ring.
Qed.
Lemma loss_of_zero : forall l, nonneg l -> loss_of l = 0 -> forall x y, In x l -> In y l -> x = y.
Proof.
  intros l N E. cut (forall x y l', l = y :: l' -> In x l -> x = y).
  { intros K x y Hx Hy. destruct l as [|z l]; [destruct Hx|]. rewrite (K x z l), (K y z l); auto. }
  revert N E. induction l as [|z l IH]; intros N E x y l' El Hx; [discriminate|]. inversion El; subst z l'. clear El.
  destruct Hx as [<-|Hx]; auto. pose proof (loss_super [y] l N) as K. simpl app in K. rewrite loss_of_single in K.
  inversion N as [|? ? Ny Nl]; subst. pose proof (loss_of_nonneg l Nl).
  assert (E2 : loss_of l = 0) by lra. specialize (IH Nl E2).
  destruct l as [|z l]; [destruct Hx|]. assert (Hc : forall w, In w (z :: l) -> w = z) by (intros w Hw; apply (IH w z l); auto).
  rewrite (Hc x Hx). rewrite loss_of_phi in E by auto. rewrite loss_of_phi in E2 by auto.
  pose proof ln2_pos as L2. assert (E' : phi (total (y :: z :: l)) (IZR (vlen (y :: z :: l))) + Rsum xl (y :: z :: l) = 0).
  { apply (Rmult_eq_reg_r (/ ln 2)); [|apply Rinv_neq_0_compat; lra]. unfold Rdiv in E. lra. }
  assert (E2' : phi (total (z :: l)) (IZR (vlen (z :: l))) + Rsum xl (z :: l) = 0).
  { apply (Rmult_eq_reg_r (/ ln 2)); [|apply Rinv_neq_0_compat; lra]. unfold Rdiv in E2. lra. }
  rewrite Rsum_cons in E'. rewrite total_cons in E'.
  assert (Ev : IZR (vlen (y :: z :: l)) = 1 + IZR (vlen (z :: l))).
  { unfold vlen. simpl length. rewrite !Nat2Z.inj_succ, !succ_IZR. lra. }
  rewrite Ev in E'. assert (Hn : 0 < IZR (vlen (z :: l))) by (apply IZR_lt; apply vlen_pos).
  assert (P1 : phi y 1 = - xl y). { unfold phi. rewrite ln_1. lra. }
  assert (K2 : y * IZR (vlen (z :: l)) = total (z :: l) * 1).
  { apply phi_super_eq; auto; [apply total_nonneg; auto|lra|]. lra. }
  rewrite (total_const z (z :: l) Hc) in K2. apply (Rmult_eq_reg_r (IZR (vlen (z :: l)))); [lra|lra].
Qed.

(** Scaling. *)
Lemma total_scal : forall c l, total (map (Rmult c) l) = c * total l.
Proof. intros. unfold total. rewrite Rsum_map. apply Rsum_scal. Qed.
Lemma nonneg_scal : forall c l, 0 <= c -> nonneg l -> nonneg (map (Rmult c) l).
Proof. intros c l Hc H. unfold nonneg in *. apply Forall_map. eapply Forall_impl; [|exact H]. intros; apply Rmult_le_pos; auto. Qed.
Lemma xl_scal : forall c v, 0 < c -> 0 <= v -> xl (c * v) = c * xl v + c * v * ln c.
Proof.
  intros c v Hc Hv. destruct (Req_dec v 0) as [->|D]. { rewrite Rmult_0_r, xl_zero. ring. }
  rewrite !xl_pos by (try apply Rmult_lt_0_compat; lra). rewrite ln_mult by lra. ring.
Qed.
Lemma gain_scal : forall c l, 0 < c -> nonneg l -> gain_of (map (Rmult c) l) = c * gain_of l.
Proof.
  intros c l Hc H. rewrite !gain_of_xl by (try apply nonneg_scal; auto; lra). rewrite total_scal, Rsum_map.
  rewrite xl_scal by (auto; apply total_nonneg; auto).
  rewrite (Rsum_ext _ _ (fun v => c * xl v + (c * ln c) * v)).
  - rewrite Rsum_plus, !Rsum_scal. change (Rsum (fun v => v) l) with (total l). unfold Rdiv. ring.
  - intros x Hx. rewrite xl_scal; [ring|auto|]. exact (proj1 (Forall_forall _ _) H x Hx).
Qed.
Lemma loss_scal : forall c l, 0 < c -> nonneg l -> loss_of (map (Rmult c) l) = c * loss_of l.
Proof.
  intros c l Hc H. unfold loss_of. rewrite gain_scal, total_scal by auto. unfold vlen. rewrite map_length. ring.
Qed.
