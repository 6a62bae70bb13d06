(** * Tradeoffs over exact reals: a totally ordered commutative monoid (value, gain, -loss). *)
From Coq Require Import Reals Lra Lia Permutation.
From Verif Require Import Base Arith Quality Utm Hierarchy Partitions.

Section L.
Context (P : params).
Notation A := (RP P).
Notation T := (tradeoff A).
Notation quality := (quality A).
Notation "'val' a" := (t_value a) (at level 9).
Notation "'gn' a" := (gain (t_quality a)) (at level 9).
Notation "'ls' a" := (loss (t_quality a)) (at level 9).

Lemma Rltb_spec : forall x y, Rltb x y = true <-> (x < y)%R.
Proof. intros; unfold Rltb; destruct (Rlt_dec x y); split; intros; auto; discriminate. Qed.
Lemma Rltb_false : forall x y, Rltb x y = false <-> (y <= x)%R.
Proof. intros; unfold Rltb; destruct (Rlt_dec x y); split; intros; try discriminate; auto; lra. Qed.
Lemma Reqb_spec : forall x y, Reqb x y = true <-> x = y.
Proof. intros; unfold Reqb; destruct (Req_EM_T x y); split; intros; auto; discriminate. Qed.
Lemma Reqb_false : forall x y, Reqb x y = false <-> x <> y.
Proof. intros; unfold Reqb; destruct (Req_EM_T x y); split; intros; auto; try discriminate; contradiction. Qed.
Lemma Rleb_spec : forall x y, Rleb x y = true <-> (x <= y)%R.
Proof. intros; unfold Rleb; destruct (Rle_dec x y); split; intros; auto; discriminate. Qed.

Ltac rring := change (num (RP P)) with R in *; match goal with |- @eq _ ?a ?b => change (@eq R a b) end; apply Rminus_diag_uniq; cbn [RP num n_add n_zero n_sub n_mul]; ring.

(** b is strictly better than a. *)
Definition tlt (a b : T) : Prop :=
  (val a < val b)%R \/ (val a = val b /\ ((gn a < gn b)%R \/ (gn a = gn b /\ (ls b < ls a)%R))).
Definition tle (a b : T) : Prop := ~ tlt b a.

Lemma tgtb_spec : forall a b, t_gtb A a b = true <-> tlt b a.
Proof.
  intros a b. unfold t_gtb, tlt. cbn [RP n_ltb n_eqb].
  rewrite orb_true_iff, andb_true_iff, orb_true_iff, andb_true_iff, !Rltb_spec, !Reqb_spec.
  split; intros [H|[H1 [H2|[H2 H3]]]]; auto; right; split; auto.
Qed.

Lemma tgtb_false : forall a b, t_gtb A a b = false <-> tle a b.
Proof.
  intros a b. unfold tle. rewrite <- tgtb_spec. destruct (t_gtb A a b); split; intro H; auto; try discriminate.
  exfalso; apply H; auto.
Qed.

Lemma tltb_spec : forall a b, t_ltb A a b = true <-> (val a < val b)%R.
Proof.
  intros a b. unfold t_ltb. rewrite negb_true_iff, orb_false_iff, tgtb_false. unfold t_eqb. cbn [RP n_eqb].
  rewrite Reqb_false. unfold tle, tlt. split.
  - intros [H1 H2]. destruct (Rtotal_order (val a) (val b)) as [|[|]]; auto; exfalso; [tauto|apply H1; left; lra].
  - intro H. split; [|lra]. intros [K|[K _]]; lra.
Qed.

Lemma tle_dec_cases : forall a b, tle a b \/ tlt b a.
Proof.
  intros a b. destruct (t_gtb A a b) eqn:E; [right; apply tgtb_spec; auto|left; apply tgtb_false; auto].
Qed.

Lemma tle_iff : forall a b, tle a b <->
  ((val a < val b)%R \/ (val a = val b /\ ((gn a < gn b)%R \/ (gn a = gn b /\ (ls b <= ls a)%R)))).
Proof.
  intros a b. unfold tle, tlt. split.
  - intro H.
    destruct (Rtotal_order (val a) (val b)) as [|[E|]]; [left; auto| |exfalso; apply H; left; lra]. right; split; auto.
    destruct (Rtotal_order (gn a) (gn b)) as [|[E2|]]; [left; auto| |exfalso; apply H; right; split; [auto|left; lra]]. right; split; auto.
    destruct (Rle_dec (ls b) (ls a)); auto. exfalso. apply H. right. split; auto. right. split; auto. lra.
  - intros H K. lra.
Qed.

Lemma tle_refl : forall a, tle a a.
Proof. intro a; apply tle_iff; lra. Qed.
Lemma tlt_irrefl : forall a, ~ tlt a a.
Proof. intros a H; unfold tlt in H; lra. Qed.
Lemma tle_trans : forall a b c, tle a b -> tle b c -> tle a c.
Proof. intros a b c. rewrite !tle_iff. lra. Qed.
Lemma tlt_le : forall a b, tlt a b -> tle a b.
Proof. intros a b H; apply tle_iff; unfold tlt in H; lra. Qed.
Lemma tlt_le_trans : forall a b c, tlt a b -> tle b c -> tlt a c.
Proof. intros a b c. rewrite !tle_iff. unfold tlt. lra. Qed.
Lemma tle_lt_trans : forall a b c, tle a b -> tlt b c -> tlt a c.
Proof. intros a b c. rewrite !tle_iff. unfold tlt. lra. Qed.

Lemma T_eq : forall a b : T, val a = val b -> gn a = gn b -> ls a = ls b -> a = b.
Proof. intros [[g l] v] [[g' l'] v']; simpl; intros; subst; reflexivity. Qed.

Lemma tle_antisym : forall a b, tle a b -> tle b a -> a = b.
Proof. intros a b. rewrite !tle_iff. intros. apply T_eq; lra. Qed.

Lemma tadd_val : forall a b, val (t_add A a b) = (val a + val b)%R.
Proof. reflexivity. Qed.
Lemma tadd_gn : forall a b, gn (t_add A a b) = (gn a + gn b)%R.
Proof. reflexivity. Qed.
Lemma tadd_ls : forall a b, ls (t_add A a b) = (ls a + ls b)%R.
Proof. reflexivity. Qed.
Lemma tzero_val : val (t_zero A) = 0%R. Proof. reflexivity. Qed.
Lemma tzero_gn : gn (t_zero A) = 0%R. Proof. reflexivity. Qed.
Lemma tzero_ls : ls (t_zero A) = 0%R. Proof. reflexivity. Qed.

Ltac tsimp := rewrite ?tadd_val, ?tadd_gn, ?tadd_ls, ?tzero_val, ?tzero_gn, ?tzero_ls in *; change (num (RP P)) with R in *.

Lemma tadd_comm : forall a b, t_add A a b = t_add A b a.
Proof. intros; apply T_eq; tsimp; ring. Qed.
Lemma tadd_assoc : forall a b c, t_add A a (t_add A b c) = t_add A (t_add A a b) c.
Proof. intros; apply T_eq; tsimp; ring. Qed.
Lemma tadd_0_l : forall a, t_add A (t_zero A) a = a.
Proof. intros; apply T_eq; tsimp; ring. Qed.
Lemma tadd_0_r : forall a, t_add A a (t_zero A) = a.
Proof. intros; apply T_eq; tsimp; ring. Qed.

Lemma tadd_le : forall a b c d, tle a b -> tle c d -> tle (t_add A a c) (t_add A b d).
Proof. intros a b c d. rewrite !tle_iff. tsimp. intros. lra. Qed.
Lemma tadd_lt_l : forall a b c, tlt a b -> tlt (t_add A a c) (t_add A b c).
Proof. intros a b c. unfold tlt. tsimp. lra. Qed.
Lemma tadd_lt_r : forall a b c, tlt a b -> tlt (t_add A c a) (t_add A c b).
Proof. intros a b c. unfold tlt. tsimp. lra. Qed.
Lemma tadd_cancel_l : forall a b c, t_add A c a = t_add A c b -> a = b.
Proof.
  intros a b c H.
  assert (H1 := f_equal (fun x => t_value x) H). assert (H2 := f_equal (fun x => gain (t_quality x)) H).
  assert (H3 := f_equal (fun x => loss (t_quality x)) H). cbv beta in *. tsimp. apply T_eq; lra.
Qed.

(** Sums of tradeoffs and of qualities. *)
Definition tsum (l : list T) : T := fold_right (t_add A) (t_zero A) l.

Lemma tsum_app : forall l1 l2, tsum (l1 ++ l2) = t_add A (tsum l1) (tsum l2).
Proof. induction l1 as [|a l1 IH]; intro l2; simpl; [rewrite tadd_0_l; auto|]. rewrite IH, tadd_assoc; auto. Qed.

Lemma tsum_perm : forall l1 l2, Permutation l1 l2 -> tsum l1 = tsum l2.
Proof.
  intros l1 l2 H; induction H; simpl; auto; try congruence.
  rewrite !tadd_assoc, (tadd_comm y x); auto.
Qed.

Lemma tsum_le : forall X (f g : X -> T) l, (forall x, In x l -> tle (f x) (g x)) -> tle (tsum (map f l)) (tsum (map g l)).
Proof.
  induction l as [|x l IH]; intro H; simpl; [apply tle_refl|].
  apply tadd_le; [apply H; left; auto|apply IH; intros; apply H; right; auto].
Qed.

Lemma tsum_fold : forall l a, fold_left (t_add A) l a = t_add A a (tsum l).
Proof.
  induction l as [|x l IH]; intro a; simpl; [rewrite tadd_0_r; auto|]. rewrite IH, tadd_assoc; auto.
Qed.

Definition qsum (l : list quality) : quality := fold_right (q_add A) (q_zero A) l.

Lemma Q_eq : forall a b : quality, gain a = gain b -> loss a = loss b -> a = b.
Proof. intros [g l] [g' l']; simpl; intros; subst; reflexivity. Qed.

Lemma qadd_gain : forall a b : quality, gain (q_add A a b) = (gain a + gain b)%R.
Proof. reflexivity. Qed.
Lemma qadd_loss : forall a b : quality, loss (q_add A a b) = (loss a + loss b)%R.
Proof. reflexivity. Qed.

Lemma sum_quality_qsum : forall l, sum_quality A l = qsum l.
Proof.
  intro l. unfold sum_quality.
  assert (G : forall a, fold_left (q_add A) l a = q_add A a (qsum l)).
  { induction l as [|x l IH]; intro a; simpl.
    - apply Q_eq; rewrite ?qadd_gain, ?qadd_loss; simpl; rring.
    - rewrite IH. apply Q_eq; rewrite ?qadd_gain, ?qadd_loss; rring. }
  rewrite G. apply Q_eq; rewrite ?qadd_gain, ?qadd_loss; simpl; rring.
Qed.

Lemma qsum_gain : forall l, gain (qsum l) = fold_right Rplus 0%R (map gain l).
Proof. induction l as [|x l IH]; simpl; auto. rewrite IH; auto. Qed.
Lemma qsum_loss : forall l, loss (qsum l) = fold_right Rplus 0%R (map loss l).
Proof. induction l as [|x l IH]; simpl; auto. rewrite IH; auto. Qed.

Lemma qsum_app : forall l1 l2, qsum (l1 ++ l2) = q_add A (qsum l1) (qsum l2).
Proof.
  induction l1 as [|a l1 IH]; intro l2; simpl; apply Q_eq; rewrite ?IH, ?qadd_gain, ?qadd_loss; simpl; rring.
Qed.

Lemma qsum_perm : forall l1 l2, Permutation l1 l2 -> qsum l1 = qsum l2.
Proof.
  intros l1 l2 H; induction H; simpl; auto; try congruence.
  apply Q_eq; rewrite ?qadd_gain, ?qadd_loss; rring.
Qed.

(** A tradeoff of a quality at parameter p: the sum of the parts' tradeoffs is the tradeoff of the sum. *)
Lemma tset_sum : forall p l, tsum (map (fun q => t_set A q p) l) = t_set A (qsum l) p.
Proof.
  intros p l; induction l as [|q l IH]; simpl.
  - apply T_eq; cbn; unfold pic; cbn; rring.
  - rewrite IH. apply T_eq; cbn; unfold pic; cbn; rring.
Qed.

Lemma tset_nil : forall p, t_set A (qsum []) p = t_zero A.
Proof. intro p. apply T_eq; cbn; unfold pic; cbn; rring. Qed.
Lemma tset_cons : forall p x l, t_set A (qsum (x :: l)) p = t_add A (t_set A x p) (t_set A (qsum l) p).
Proof. intros p x l. rewrite <- !tset_sum. reflexivity. Qed.
Lemma tset_app : forall p l1 l2, t_set A (qsum (l1 ++ l2)) p = t_add A (t_set A (qsum l1) p) (t_set A (qsum l2) p).
Proof. intros p l1 l2. rewrite <- !tset_sum, map_app, tsum_app. reflexivity. Qed.

Lemma tset_quality : forall p q, t_quality (t_set A q p) = q.
Proof. intros p [g l]; reflexivity. Qed.

Lemma tset_val : forall p q, val (t_set A q p) = (pp_num P p * gain q - pp_num P (pp_compl P p) * loss q)%R.
Proof. reflexivity. Qed.

Lemma tset_inj : forall p q q', t_set A q p = t_set A q' p -> q = q'.
Proof. intros p q q' H. rewrite <- (tset_quality p q), <- (tset_quality p q'), H. reflexivity. Qed.

End L.
Arguments tlt {P} a b.
Arguments tle {P} a b.
Arguments tsum {P} l.
Arguments qsum {P} l.
