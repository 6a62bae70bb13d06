(** * Examples for C75 and C76: concrete tables of long doubles that meet the hypotheses. *)
From Coq Require Import Reals Lra Lia Permutation.
From Flocq Require Import Core BinarySingleNaN.
From Verif Require Import Base BaseFacts Arith Quality Utm UtmFacts UtmProofs Hierarchy SpecTree SpecParts HierarchyFacts HierarchyProofs
  Partitions Partitioners OProofs Ieee SpecIeee SpecNear P_Near P_Hierarchy.

Definition lz : f80 -> f80 := fun _ => B754_zero false.
Definition ex0 : quality (IA lz) := @mkQ (IA lz) (int80 0) (int80 0).
Definition ex34 : quality (IA lz) := @mkQ (IA lz) (int80 3) (int80 4).
Definition f_quarter : f32 := Bdiv mode_NE (int32 1) (int32 4).
Definition f_3quarter : f32 := Bdiv mode_NE (int32 3) (int32 4).

Lemma ex_quals : qual_le 4 ex0 /\ qual_le 4 ex34.
Proof.
  assert (E0 : B2R (int80 0) = 0%R) by reflexivity.
  assert (E3 : B2R (int80 3) = 3%R) by (unfold B2R; cbn; unfold F2R; cbn; lra).
  assert (E4 : B2R (int80 4) = 4%R) by (unfold B2R; cbn; unfold F2R; cbn; lra).
  unfold qual_le, fin_le, ex0, ex34. cbn [gain loss]. rewrite E0, E3, E4. repeat split; rewrite Rabs_pos_eq; lra.
Qed.

Lemma ex_sane : sane_bound 4.
Proof.
  unfold sane_bound. change 4%R with (bpow radix2 2). split; apply bpow_le; lia.
Qed.

Lemma ex_pars : unit32 f_quarter /\ unit32 f_3quarter /\ (B2R f_quarter + bpow radix2 (-23) <= B2R f_3quarter)%R.
Proof.
  assert (E1 : B2R f_quarter = (1/4)%R) by (unfold B2R, f_quarter; cbn; unfold F2R; cbn; lra).
  assert (E2 : B2R f_3quarter = (3/4)%R) by (unfold B2R, f_3quarter; cbn; unfold F2R; cbn; lra).
  unfold unit32. rewrite E1, E2. repeat split; try lra.
  assert (bpow radix2 (-23) <= bpow radix2 (-1))%R by (apply bpow_le; lia). change (bpow radix2 (-1)) with (/2)%R in H. lra.
Qed.

(** Two slices: separate at p = 1/4, one aggregate at p = 3/4; the hypotheses of the ordered theorems hold with B = 4. *)
Definition ex_otab : utm (quality (IA lz)) := mkU 2 3 [ex0; ex0; ex34].
Example C75_ordered_nonvacuous : utm_shape ex_otab 2 /\ (forall a b q, 0 <= a <= b -> b < 2 -> u_get ex_otab a b = Ok q -> qual_le 4 q) /\
  exists x1 x2, o_best (IA lz) ex_otab f_quarter = Ok x1 /\ o_best (IA lz) ex_otab f_3quarter = Ok x2 /\
    map (fun y => (op_start y, op_end y)) (on_parts x1) = [(0, 0); (1, 1)] /\
    map (fun y => (op_start y, op_end y)) (on_parts x2) = [(0, 1)].
Proof.
  split; [repeat split|]. split.
  - intros a b q Ha Hb H. destruct ex_quals as [Q0 Q1].
    assert (K : (a = 0 /\ b = 0) \/ (a = 0 /\ b = 1) \/ (a = 1 /\ b = 1)) by lia.
    destruct K as [[-> ->]|[[-> ->]|[-> ->]]]; cbn in H; inversion H; subst q; auto.
  - assert (K1 : match o_best (IA lz) ex_otab f_quarter with Ok x => map (fun y => (op_start y, op_end y)) (on_parts x) | _ => [] end = [(0, 0); (1, 1)]) by (vm_compute; reflexivity).
    assert (K2 : match o_best (IA lz) ex_otab f_3quarter with Ok x => map (fun y => (op_start y, op_end y)) (on_parts x) | _ => [] end = [(0, 1)]) by (vm_compute; reflexivity).
    destruct (o_best (IA lz) ex_otab f_quarter) as [x1| |]; [|discriminate K1|discriminate K1]. destruct (o_best (IA lz) ex_otab f_3quarter) as [x2| |]; [|discriminate K2|discriminate K2].
    exists x1, x2. auto.
Qed.

(** The four-leaf tree of C03 (nodes 4 and 5 have two leaves each, 6 is the root). *)
Lemma ex_tree : exists m, meta_build 4 [4; 4; 5; 5; 6; 6; -1] = Ok m /\ well_built m /\ m_hsize m = 7 /\ m_leaves m = 4.
Proof.
  destruct tree4_prf as [V U]. destruct (uniform_well_built _ _ _ V U) as (m & E & W & E1 & E2 & E3).
  exists m. split; auto. split; auto. split; auto. rewrite (wb_hsize m W), E2. reflexivity.
Qed.

Definition ex_htab : list (quality (IA lz)) := [ex0; ex0; ex0; ex0; ex34; ex0; ex0].
Example C75_hier_nonvacuous : exists m, well_built m /\ 2 <= m_hsize m /\ m_leaves m <= 4294967296 /\
  vlen ex_htab = m_hsize m /\ Forall (qual_le 4) ex_htab /\
  exists x1 x2, h_best (IA lz) ex_htab m f_quarter = Ok x1 /\ h_best (IA lz) ex_htab m f_3quarter = Ok x2 /\
    map hp_h (hn_parts x1) = [6] /\ map hp_h (hn_parts x2) = [4; 5].
Proof.
  destruct ex_quals as [Q0 Q1]. destruct ex_tree as (m & E & W & H1 & H2). exists m. split; auto. rewrite H1, H2.
  split; [lia|]. split; [lia|]. split; [reflexivity|]. split; [repeat (apply Forall_cons; auto)|].
  vm_compute in E. injection E as <-.
  match goal with |- exists x1 x2, ?A = _ /\ ?B = _ /\ _ =>
    assert (K1 : match A with Ok x => map hp_h (hn_parts x) | _ => [] end = [6]) by (vm_compute; reflexivity);
    assert (K2 : match B with Ok x => map hp_h (hn_parts x) | _ => [] end = [4; 5]) by (vm_compute; reflexivity);
    destruct A as [x1| |]; [|discriminate K1|discriminate K1]; destruct B as [x2| |]; [|discriminate K2|discriminate K2] end.
  exists x1, x2. auto.
Qed.

Definition ex_dtab : list (utm (quality (IA lz))) := let z := mkU 2 3 [ex0; ex0; ex0] in [z; z; z; z; mkU 2 3 [ex0; ex0; ex34]; z; z].
Example C75_spatio_nonvacuous : exists m, well_built m /\ m_leaves m * 2 <= 4294967296 /\
  vlen ex_dtab = m_hsize m /\ Forall (fun u => utm_shape u 2) ex_dtab /\
  (forall h a b q, 0 <= h < m_hsize m -> 0 <= a <= b -> b < 2 -> mm_get ex_dtab h a b = Ok q -> qual_le 4 q) /\
  exists x1 x2, d_best (IA lz) ex_dtab m f_quarter = Ok x1 /\ d_best (IA lz) ex_dtab m f_3quarter = Ok x2 /\
    map (fun y => (dp_h y, dp_start y, dp_end y)) (dn_parts x1) = [(6, 0, 1)] /\
    map (fun y => (dp_h y, dp_start y, dp_end y)) (dn_parts x2) = [(4, 0, 1); (5, 0, 1)].
Proof.
  destruct ex_quals as [Q0 Q1]. destruct ex_tree as (m & E & W & H1 & H2). exists m. split; auto. rewrite H1, H2.
  split; [lia|]. split; [reflexivity|]. split; [repeat constructor|]. split.
  { intros h a b q Hh Ha Hb H. assert (K : (a = 0 /\ b = 0) \/ (a = 0 /\ b = 1) \/ (a = 1 /\ b = 1)) by lia.
    assert (Kh : h = 0 \/ h = 1 \/ h = 2 \/ h = 3 \/ h = 4 \/ h = 5 \/ h = 6) by lia.
    repeat (destruct Kh as [->|Kh]; [destruct K as [[-> ->]|[[-> ->]|[-> ->]]]; cbn in H; inversion H; subst q; assumption|]).
    subst h. destruct K as [[-> ->]|[[-> ->]|[-> ->]]]; cbn in H; inversion H; subst q; assumption. }
  vm_compute in E. injection E as <-.
  match goal with |- exists x1 x2, ?A = _ /\ ?B = _ /\ _ =>
    assert (K1 : match A with Ok x => map (fun y => (dp_h y, dp_start y, dp_end y)) (dn_parts x) | _ => [] end = [(6, 0, 1)]) by (vm_compute; reflexivity);
    assert (K2 : match B with Ok x => map (fun y => (dp_h y, dp_start y, dp_end y)) (dn_parts x) | _ => [] end = [(4, 0, 1); (5, 0, 1)]) by (vm_compute; reflexivity);
    destruct A as [x1| |]; [|discriminate K1|discriminate K1]; destruct B as [x2| |]; [|discriminate K2|discriminate K2] end.
  exists x1, x2. auto.
Qed.
