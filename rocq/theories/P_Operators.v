(** * Properties C40, C41, C42: comparison operators of Quality, Tradeoff and the partitions. *)
From Coq Require Import Reals Lra Lia Permutation.
From Verif Require Import Base BaseFacts Arith Quality Hierarchy Partitions OProofs HProofs DFacts DProofs SearchReal.

(** ** C40 *)
(** In exact arithmetic: equal, or gains closer than half the larger of the two sums times 10^-13. The losses are not compared. *)
Theorem C40_equality : forall a b : quality RA, q_eqb RA a b = true <->
  (gain a = gain b /\ loss a = loss b) \/
  (Rabs (gain a - gain b) < Rmax (gain a + gain b) (loss a + loss b) / 2 * / 10000000000000)%R.
Proof.
  intros [g l] [g' l']. unfold q_eqb, n_max. cbn [gain loss n_mul n_div n_add n_sub n_ltb n_eqb n_abs n_prec n_ofZ RA RP].
  assert (E : (if Rltb (g + g') (l + l') then (l + l')%R else (g + g')%R) = Rmax (g + g') (l + l')).
  { unfold Rltb, Rmax. destruct (Rlt_dec (g + g') (l + l')), (Rle_dec (g + g') (l + l')); change (num RA) with R in *; lra. }
  change (num RA) with R in *. rewrite E. unfold Reqb. rewrite orb_true_iff, !andb_true_iff.
  destruct (Req_EM_T g g'), (Req_EM_T l l'); rewrite Rltb_lt; split; intuition; try discriminate.
Qed.
Print Assumptions C40_equality.

(** Refutation of the expected behaviour: same positive gain, any two losses, compare equal. *)
Theorem C40_refuted : forall g l l' : R, (0 < g)%R -> q_eqb RA (@mkQ RA g l) (@mkQ RA g l') = true.
Proof.
  intros g l l' Hg. apply C40_equality. right. cbn [gain loss]. rewrite Rminus_diag_eq, Rabs_R0 by auto.
  pose proof (Rmax_l (g + g) (l + l')). lra.
Qed.
Print Assumptions C40_refuted.

Theorem C40_refl_sym : forall a b : quality RA, q_eqb RA a a = true /\ q_eqb RA a b = q_eqb RA b a.
Proof.
  intros a b. split; [apply C40_equality; auto|]. apply eq_true_iff_eq. rewrite !C40_equality.
  rewrite (Rabs_minus_sym (gain b)), (Rplus_comm (gain b)), (Rplus_comm (loss b)). intuition.
Qed.
Print Assumptions C40_refl_sym.

(** It is not transitive. *)
Theorem C40_not_transitive : exists a b c : quality RA, q_eqb RA a b = true /\ q_eqb RA b c = true /\ q_eqb RA a c = false.
Proof.
  exists (@mkQ RA 0%R 10000000000000%R), (@mkQ RA (2/5)%R 10000000000000%R), (@mkQ RA (4/5)%R 0%R).
  split; [|split].
  - apply C40_equality. right. cbn [gain loss]. pose proof (Rmax_r (0 + 2 / 5) (10000000000000 + 10000000000000)).
    unfold Rabs. destruct (Rcase_abs _); lra.
  - apply C40_equality. right. cbn [gain loss]. pose proof (Rmax_r (2 / 5 + 4 / 5) (10000000000000 + 0)).
    unfold Rabs. destruct (Rcase_abs _); lra.
  - match goal with |- ?x = false => destruct x eqn:E; auto end. apply C40_equality in E. cbn [gain loss] in E. destruct E as [[E _]|E]; [lra|].
    assert (M : Rmax (0 + 4 / 5) (10000000000000 + 0) = 10000000000000%R) by (rewrite Rmax_right; lra). rewrite M in E.
    unfold Rabs in E. destruct (Rcase_abs _) in E; lra.
Qed.
Print Assumptions C40_not_transitive.

(** != is the negation of ==, in any arithmetic. *)
Theorem C40_neq : forall A (a b : quality A), q_neb A a b = negb (q_eqb A a b).
Proof. reflexivity. Qed.

(** ** C41 *)
(** In exact arithmetic [a > b]: larger value, or equal value and larger gain, or equal value and gain and smaller loss. *)
Theorem C41_greater : forall a b : tradeoff RA, t_gtb RA a b = true <->
  (t_value b < t_value a \/
   (t_value a = t_value b /\ (gain (t_quality b) < gain (t_quality a) \/
      (gain (t_quality a) = gain (t_quality b) /\ loss (t_quality a) < loss (t_quality b)))))%R.
Proof.
  intros [[g l] v] [[g' l'] v']. unfold t_gtb. cbn [t_value t_quality gain loss n_ltb n_eqb RA RP].
  rewrite orb_true_iff, andb_true_iff, orb_true_iff, andb_true_iff, !Rltb_lt. unfold Reqb.
  destruct (Req_EM_T v v'), (Req_EM_T g g'); intuition; try discriminate.
Qed.
Print Assumptions C41_greater.

(** It is a strict total order on (value, gain, loss). *)
Theorem C41_strict_total : forall a b c : tradeoff RA,
  t_gtb RA a a = false /\
  (t_gtb RA a b = true -> t_gtb RA b c = true -> t_gtb RA a c = true) /\
  (t_gtb RA a b = true \/ t_gtb RA b a = true \/
   (t_value a = t_value b /\ gain (t_quality a) = gain (t_quality b) /\ loss (t_quality a) = loss (t_quality b))).
Proof.
  intros a b c. rewrite !C41_greater. change (num RA) with R in *. split; [|split].
  - destruct (t_gtb RA a a) eqn:E; auto. apply C41_greater in E. lra.
  - intros H1 H2. lra.
  - destruct (Rtotal_order (t_value a) (t_value b)) as [H|[H|H]]; auto.
    destruct (Rtotal_order (gain (t_quality a)) (gain (t_quality b))) as [H'|[H'|H']]; auto.
    + right; left. right. split; auto.
    + destruct (Rtotal_order (loss (t_quality a)) (loss (t_quality b))) as [H''|[H''|H'']]; auto.
      * left. right. split; auto.
      * right; left. right. split; auto.
Qed.
Print Assumptions C41_strict_total.

(** The other operators: <= is the negation of >; < compares values only (exact arithmetic); >= is the negation of <. *)
Theorem C41_others : forall a b : tradeoff RA,
  t_leb RA a b = negb (t_gtb RA a b) /\
  (t_ltb RA a b = true <-> (t_value a < t_value b)%R) /\
  (t_geb RA a b = true <-> (t_value b <= t_value a)%R) /\
  (t_eqb RA a b = true <-> t_value a = t_value b).
Proof.
  intros a b. assert (Q : t_eqb RA a b = true <-> t_value a = t_value b).
  { unfold t_eqb. cbn [n_eqb RA RP]. unfold Reqb. destruct (Req_EM_T (t_value a) (t_value b)); intuition; discriminate. }
  assert (L : t_ltb RA a b = true <-> (t_value a < t_value b)%R).
  { unfold t_ltb. rewrite negb_true_iff, orb_false_iff. pose proof (C41_greater a b) as G. change (num RA) with R in *. split.
    - intros [H1 H2]. destruct (Rtotal_order (t_value a) (t_value b)) as [H|[H|H]]; auto.
      + apply Q in H. congruence.
      + assert (t_gtb RA a b = true) by (apply G; auto). congruence.
    - intro H. split.
      + destruct (t_gtb RA a b); auto. assert (K := proj1 G eq_refl). lra.
      + destruct (t_eqb RA a b); auto. assert (K := proj1 Q eq_refl). lra. }
  split; [reflexivity|]. split; auto. split; auto. unfold t_geb. rewrite negb_true_iff. change (num RA) with R in *. split.
  - intro H. apply Rnot_lt_le. intro K. apply L in K. congruence.
  - intro H. destruct (t_ltb RA a b); auto. assert (K := proj1 L eq_refl). lra.
Qed.
Print Assumptions C41_others.

(** Refutation of [a < b] being [b > a]. *)
Theorem C41_refuted : exists a b : tradeoff RA, t_gtb RA b a = true /\ t_ltb RA a b = false.
Proof.
  exists (@mkT RA (@mkQ RA 0%R 0%R) 0%R), (@mkT RA (@mkQ RA 1%R 1%R) 0%R). split.
  - apply C41_greater. cbn. lra.
  - match goal with |- ?x = false => destruct x eqn:E; auto end. apply C41_others in E. cbn in E. lra.
Qed.
Print Assumptions C41_refuted.

(** In any arithmetic, a value that compares false with everything (NaN) makes [a < b] and [b < a] both true, [a > b] and
    [b > a] both false. *)
Theorem C41_unordered : forall A (a b : tradeoff A),
  (forall x, n_ltb A x (t_value a) = false /\ n_ltb A (t_value a) x = false /\ n_eqb A x (t_value a) = false /\ n_eqb A (t_value a) x = false) ->
  t_ltb A a b = true /\ t_ltb A b a = true /\ t_gtb A a b = false /\ t_gtb A b a = false.
Proof.
  intros A a b H. destruct (H (t_value b)) as (H1 & H2 & H3 & H4). unfold t_ltb, t_gtb, t_eqb. rewrite H1, H2, H3, H4. auto.
Qed.
Print Assumptions C41_unordered.

(** The binary operators give, over the reals, the componentwise results, like the compound ones. *)
Theorem C41_binary : forall a b : tradeoff RA,
  (t_value (t_plus RA a b) = t_value a + t_value b /\ gain (t_quality (t_plus RA a b)) = gain (t_quality a) + gain (t_quality b) /\
   loss (t_quality (t_plus RA a b)) = loss (t_quality a) + loss (t_quality b))%R /\
  (t_value (t_minus RA a b) = t_value a - t_value b /\ gain (t_quality (t_minus RA a b)) = gain (t_quality a) - gain (t_quality b) /\
   loss (t_quality (t_minus RA a b)) = loss (t_quality a) - loss (t_quality b))%R /\
  (t_value (t_times RA a b) = t_value a * t_value b /\ gain (t_quality (t_times RA a b)) = gain (t_quality a) * gain (t_quality b) /\
   loss (t_quality (t_times RA a b)) = loss (t_quality a) * loss (t_quality b))%R /\
  (t_value (t_over RA a b) = t_value a / t_value b /\ gain (t_quality (t_over RA a b)) = gain (t_quality a) / gain (t_quality b) /\
   loss (t_quality (t_over RA a b)) = loss (t_quality a) / loss (t_quality b))%R /\
  t_plus RA a b = t_add RA a b /\ t_minus RA a b = t_sub RA a b /\ t_times RA a b = t_mul RA a b /\ t_over RA a b = t_div RA a b.
Proof.
  intros [[g l] v] [[g' l'] v']. unfold t_plus, t_minus, t_times, t_over, t_add, t_sub, t_mul, t_div, q_add, q_sub, q_mul, q_div.
  cbn. rewrite !Rplus_0_l. repeat split; reflexivity.
Qed.
Print Assumptions C41_binary.

(** The constructors: without a parameter the value is 0 and the quality is copied; with one the value is p*gain-(1-p)*loss; comparing two
    tradeoffs built without parameter compares gains, then losses. *)
Theorem C41_constructors : forall (q : quality RA) (p : R),
  (t_value (t_ofQ RA q) = 0 /\ gain (t_quality (t_ofQ RA q)) = gain q /\ loss (t_quality (t_ofQ RA q)) = loss q)%R /\
  (t_value (t_set RA q p) = p * gain q - (1 - p) * loss q /\ gain (t_quality (t_set RA q p)) = gain q /\ loss (t_quality (t_set RA q p)) = loss q)%R /\
  (t_value (t_zero RA) = 0 /\ gain (t_quality (t_zero RA)) = 0 /\ loss (t_quality (t_zero RA)) = 0)%R /\
  forall q', t_gtb RA (t_ofQ RA q) (t_ofQ RA q') = true <-> (gain q' < gain q \/ gain q = gain q' /\ loss q < loss q')%R.
Proof.
  intros q p. split; [cbn; auto|]. split; [cbn; auto|]. split; [cbn; auto|]. intro q'. rewrite C41_greater. unfold t_ofQ. cbn [t_value t_quality gain loss]. change (num RA) with R in *. cbn [n_zero RA RP]. lra.
Qed.
Print Assumptions C41_constructors.

(** [a != b]: different values, in exact arithmetic; with a NaN on either side it is true, as for numbers. *)
Theorem C41_neq : (forall a b : tradeoff RA, t_neb RA a b = true <-> t_value a <> t_value b) /\
  (forall A (a b : tradeoff A), n_eqb A (t_value a) (t_value b) = false -> t_neb A a b = true /\ t_eqb A a b = false).
Proof.
  split; [|intros A a b H; unfold t_neb, t_eqb; rewrite H; auto]. intros a b. destruct (C41_others a b) as (_ & _ & _ & Q). unfold t_neb. destruct (t_eqb RA a b); cbn; split; intro H; try discriminate H; auto.
  - exfalso. apply H. apply Q. reflexivity.
  - intro K. apply Q in K. discriminate K.
Qed.
Print Assumptions C41_neq.

(** ** C42 *)
Theorem C42_ordered : forall A (x y : opartition A), on_eqb A x y = true <->
  map (fun q => (op_start q, op_end q)) (on_parts x) = map (fun q => (op_start q, op_end q)) (on_parts y).
Proof. exact on_eqb_spec. Qed.
Print Assumptions C42_ordered.

Theorem C42_hier : forall A (x y : hpartition A), hn_eqb A x y = true <->
  map (fun q => (hp_h q, hp_size q)) (hn_parts x) = map (fun q => (hp_h q, hp_size q)) (hn_parts y).
Proof. exact hn_eqb_spec. Qed.
Print Assumptions C42_hier.

Definition dpart_key {A} (q : dpart A) : Z * Z * Z * Z := (dp_h q, dp_start q, dp_end q, dp_size q).

Theorem C42_spatio : forall A (x y : dpartition A), NoDup (map dpart_key (dn_parts x)) -> NoDup (map dpart_key (dn_parts y)) ->
  (dn_eqb A x y = true <-> forall k, In k (map dpart_key (dn_parts x)) <-> In k (map dpart_key (dn_parts y))).
Proof.
  intros A x y N1 N2. change (map dpart_key (dn_parts x)) with (dcoords x) in *. change (map dpart_key (dn_parts y)) with (dcoords y) in *.
  rewrite dn_eqb_spec by auto. split.
  - intros P k. split; intro H; [eapply Permutation_in; eauto|eapply Permutation_in; [apply Permutation_sym|]; eauto].
  - intro H. apply NoDup_Permutation; auto.
Qed.
Print Assumptions C42_spatio.

(** Without that condition it is not even symmetric: parts listed twice. *)
Theorem C42_spatio_asymmetric : forall A, exists x y : dpartition A, dn_eqb A x y = true /\ dn_eqb A y x = false.
Proof.
  intro A. set (a := mkDPart A 0 1 0 0 (q_zero A)). set (b := mkDPart A 1 1 0 0 (q_zero A)).
  exists (mkDPn A [] [a; a] [] (p_zero A) (mkMeta 0 0 [] [] [] [] 0) (q_zero A)), (mkDPn A [] [a; b] [] (p_zero A) (mkMeta 0 0 [] [] [] [] 0) (q_zero A)).
  split; reflexivity.
Qed.
Print Assumptions C42_spatio_asymmetric.
