(** * Example for C82: an array and a tree that meet all hypotheses of the three theorems. *)
From Coq Require Import Reals Lra Lia.
From Flocq Require Import Core BinarySingleNaN.
From Verif Require Import Base BaseFacts Arith Quality SpecTree SpecParts SpecInfo SpecData InfoFacts OInfo OReal Search RApi SpecR P_RApi SpecBest Ieee SpecIeee SpecNear P_NearEx SpecNum P_NumEx
  LogRef SpecNorm P_NormEx P_RDefined P_RMacro SpecRNum P_RNum.

(** micro[i,1,k]: each row and each column holds 1, 1, 2, 4 in some order. *)
Definition exr_data : list f80 :=
  [int80 1; int80 4; int80 2; int80 1;  int80 1; int80 1; int80 4; int80 2;  int80 2; int80 1; int80 1; int80 4;  int80 4; int80 2; int80 1; int80 1].
Definition exr_micro : rarray (IA rounded_log) := @mkRArr (IA rounded_log) exr_data [4; 1; 4].
Definition exr_h : list Z := [5; 5; 6; 6; 7; 7; 0].
Definition exr_real : rarray RA := @mkRArr RA [1; 4; 2; 1; 1; 1; 4; 2; 2; 1; 1; 4; 4; 2; 1; 1]%R [4; 1; 4].

Lemma exr_exact : exact_array exr_micro = exr_real.
Proof. unfold exact_array, exr_micro, exr_real, exr_data. cbn [ra_data ra_dim map]. ints. reflexivity. Qed.

Ltac logs := unfold gain_of; match goal with |- context [total ?l] => replace (total l) with 8%R by (unfold total, Rsum; cbn [map fold_right]; lra) end;
  destruct (Rlt_dec 0 8); [|lra]; unfold Rsum; cbn [map fold_right]; rewrite l2_8, (xl_of 1 0), (xl_of 2 1), (xl_of 4 2) by (try lra; apply l2_1 || apply l2_2 || apply l2_4); lra.
Lemma exr_g : gain_of [1; 4; 2; 1]%R = 14%R /\ gain_of [1; 1; 4; 2]%R = 14%R /\ gain_of [2; 1; 1; 4]%R = 14%R /\ gain_of [4; 2; 1; 1]%R = 14%R /\
  gain_of [1; 1; 2; 4]%R = 14%R /\ gain_of [4; 1; 1; 2]%R = 14%R /\ gain_of [2; 4; 1; 1]%R = 14%R /\ gain_of [1; 2; 4; 1]%R = 14%R.
Proof. repeat split; logs. Qed.
Lemma loss4 : forall l, total l = 8%R -> length l = 4%nat -> gain_of l = 14%R -> loss_of l = 2%R.
Proof. intros l T L G. unfold loss_of, vlen. rewrite T, L, G. change (IZR (Z.of_nat 4)) with 4%R. rewrite l2_4. lra. Qed.
Lemma exr_g16 : let l := [1; 1; 2; 4; 4; 1; 1; 2; 2; 4; 1; 1; 1; 2; 4; 1]%R in gain_of l = 120%R /\ loss_of l = 8%R /\ total l = 32%R.
Proof.
  intro l. assert (T : total l = 32%R) by (unfold l, total, Rsum; cbn [map fold_right]; lra).
  assert (L32 : log2 32 = 5%R) by (replace 32%R with (2 ^ 5)%R by lra; rewrite log2_pow by lia; cbn; lra).
  assert (G : gain_of l = 120%R).
  { unfold gain_of. rewrite T. destruct (Rlt_dec 0 32); [|lra]. unfold l, Rsum. cbn [map fold_right]. rewrite L32, (xl_of 1 0), (xl_of 2 1), (xl_of 4 2) by (try lra; apply l2_1 || apply l2_2 || apply l2_4). lra. }
  split; [exact G|]. split; [|exact T]. unfold loss_of. rewrite G, T. change (vlen l) with 16. change (IZR 16) with 16%R. rewrite l2_16. lra.
Qed.

Lemma exr_o : forall f, interval f exr_real 4 1 1 4 = Rsum f [[1; 1; 2; 4]; [4; 1; 1; 2]; [2; 4; 1; 1]; [1; 2; 4; 1]]%R.
Proof. intro f. reflexivity. Qed.
Lemma exr_hh : forall f, subtree f exr_real 4 1 4 exr_h 7 = Rsum f [[1; 4; 2; 1]; [1; 1; 4; 2]; [2; 1; 1; 4]; [4; 2; 1; 1]]%R.
Proof. intro f. reflexivity. Qed.
Lemma exr_d : forall f, rectangle f exr_real 4 1 exr_h 7 1 4 = Rsum f [[1; 1; 2; 4; 4; 1; 1; 2; 2; 4; 1; 1; 1; 2; 4; 1]]%R.
Proof. intro f. reflexivity. Qed.

Lemma exr_ov : interval total exr_real 4 1 1 4 = 32%R /\ interval gain_of exr_real 4 1 1 4 = 56%R /\ interval loss_of exr_real 4 1 1 4 = 8%R.
Proof.
  destruct exr_g as (G1 & G2 & G3 & G4 & G5 & G6 & G7 & G8). rewrite !exr_o. split; [|split].
  - unfold total; unfold Rsum; cbn [map fold_right]; lra.
  - unfold Rsum; cbn [map fold_right]; rewrite G5, G6, G7, G8; lra.
  - unfold Rsum; cbn [map fold_right]. rewrite !loss4; try assumption; try reflexivity; [lra|..]; unfold total, Rsum; cbn [map fold_right]; lra.
Qed.
Lemma exr_hv : subtree total exr_real 4 1 4 exr_h 7 = 32%R /\ subtree gain_of exr_real 4 1 4 exr_h 7 = 56%R /\ subtree loss_of exr_real 4 1 4 exr_h 7 = 8%R.
Proof.
  destruct exr_g as (G1 & G2 & G3 & G4 & G5 & G6 & G7 & G8). rewrite !exr_hh. split; [|split].
  - unfold total; unfold Rsum; cbn [map fold_right]; lra.
  - unfold Rsum; cbn [map fold_right]; rewrite G1, G2, G3, G4; lra.
  - unfold Rsum; cbn [map fold_right]. rewrite !loss4; try assumption; try reflexivity; [lra|..]; unfold total, Rsum; cbn [map fold_right]; lra.
Qed.
Lemma exr_dv : rectangle total exr_real 4 1 exr_h 7 1 4 = 32%R /\ rectangle gain_of exr_real 4 1 exr_h 7 1 4 = 120%R /\ rectangle loss_of exr_real 4 1 exr_h 7 1 4 = 8%R.
Proof. destruct exr_g16 as (GG & GL & GT). rewrite !exr_d, !Rsum_cons, !Rsum_nil, GG, GL, GT. repeat split; lra. Qed.

Example C82_nonvacuous : let d := bpow radix2 (-64) in let ex := exact_array exr_micro in
  log_accurate 64 d rounded_log /\ thr32 th8 /\ r_cube exr_micro 4 1 4 /\ r_tree exr_h 4 (vlen exr_h - 1) /\ Forall (datum 64) (ra_data exr_micro) /\
  ((interval total ex 4 1 1 4 <= bpow radix2 (64 - 1))%R /\ well_above 64 (4 + 4 * 1) d (interval total ex 4 1 1 4) (interval gain_of ex 4 1 1 4) /\
   well_above 64 (4 + 4 * 1) d (interval total ex 4 1 1 4) (interval loss_of ex 4 1 1 4)) /\
  ((subtree total ex 4 1 4 exr_h 7 <= bpow radix2 (64 - 1))%R /\ well_above 64 (4 + 1 * 4) d (subtree total ex 4 1 4 exr_h 7) (subtree gain_of ex 4 1 4 exr_h 7) /\
   well_above 64 (4 + 1 * 4) d (subtree total ex 4 1 4 exr_h 7) (subtree loss_of ex 4 1 4 exr_h 7)) /\
  ((rectangle total ex 4 1 exr_h 7 1 4 <= bpow radix2 (64 - 1))%R /\ well_above 64 (4 * 4 + 1) d (rectangle total ex 4 1 exr_h 7 1 4) (rectangle gain_of ex 4 1 exr_h 7 1 4) /\
   well_above 64 (4 * 4 + 1) d (rectangle total ex 4 1 exr_h 7 1 4) (rectangle loss_of ex 4 1 exr_h 7 1 4)).
Proof.
  cbv zeta. split; [apply C77_rounded_log; lia|]. split; [apply C61_nonvacuous|].
  split; [unfold r_cube; repeat split; cbn; try lia; reflexivity|]. split; [exact (proj1 C63_tree_nonvacuous)|].
  split; [cbn [exr_micro ra_data]; unfold exr_data; repeat (constructor; [apply int_datum; lia|]); constructor|].
  rewrite exr_exact. destruct exr_ov as (-> & -> & ->), exr_hv as (-> & -> & ->), exr_dv as (-> & -> & ->).
  split; [|split]; (split; [apply sum_ok; lra|]; split; apply ex_above; try lia; lra).
Qed.
