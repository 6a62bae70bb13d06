(** * Concrete cases meeting the hypotheses of C81 (SpecDouble.v, P_Double.v). *)
From Coq Require Import ZArith Reals Lra Lia.
From Flocq Require Import Core BinarySingleNaN.
From Verif Require Import Base BaseFacts Arith Quality Utm UtmProofs Hierarchy SpecTree SpecParts HierarchyFacts TreePath CoverFacts InfoFacts Values SpecValues Partitions Partitioners
  Aggregation SpecAgg Ieee SpecDouble DoubleFacts HNear P_Aggregates P_Ordered HierarchyProofs P_Hierarchy P_Double.

(** A double holding an integer of at most 9. *)
Definition digit (x : f64) : Prop := is_finite x = true /\ exists z, B2R x = IZR z /\ 0 <= z <= 9.

Lemma digit_int : forall x, digit x -> integer64 x.
Proof. intros x (F & z & E & _). split; eauto. Qed.

Lemma digit_64 : forall z, 0 <= z <= 9 -> digit (int64 z).
Proof. intros z H. destruct (int64_exact z ltac:(lia)) as [E F]. split; eauto. Qed.

Lemma digit_zero : digit (B754_zero false).
Proof. split; [reflexivity|]. exists 0. split; [reflexivity|lia]. Qed.

Lemma digit_abs : forall x, digit x -> (Rabs (B2R x) <= 9)%R.
Proof. intros x (_ & z & E & H). rewrite E, Rabs_pos_eq; [apply IZR_le|apply IZR_le]; lia. Qed.

Lemma digits_get : forall zs o (x : f64), Forall (fun z => 0 <= z <= 9) zs -> vget (map int64 zs) o = Ok x -> digit x.
Proof.
  intros zs o x H E. apply vget_In in E. apply in_map_iff in E. destruct E as (z & <- & Hz). rewrite Forall_forall in H. apply digit_64; auto.
Qed.

Lemma sum9 : forall (X : Type) (f : X -> R) l, (forall x, f x <= 9)%R -> (Rsum f l <= 9 * IZR (Z.of_nat (length l)))%R.
Proof.
  intros X f l H. induction l as [|x l IH]; [rewrite Rsum_nil; cbn; lra|]. rewrite Rsum_cons. cbn [length]. rewrite Nat2Z.inj_succ, succ_IZR. specialize (H x). lra.
Qed.

Lemma digit_res : forall r : res f64, (forall x, r = Ok x -> digit x) -> digit (match r with Ok x => x | _ => B754_zero false end).
Proof. intros [x| |] H; try exact digit_zero. apply H; auto. Qed.

Definition ex_ov lg : ovalues (DA lg) := mkOV (DA lg) 1 3 (ON1 (DA lg) (map int64 [1; 3; 2])).
Definition ex_opn lg : opartition (DA lg) :=
  mkOPn (DA lg) [0; 0; 1] [mkOPart (DA lg) 0 1 (q_zero (DA lg)); mkOPart (DA lg) 2 2 (q_zero (DA lg))] (mkU 0 0 []) (p_zero (DA lg)) (q_zero (DA lg)).

Lemma ex_ov_digit : forall lg a b c o, digit (ov_at (ex_ov lg) a b c o : f64).
Proof.
  intros. unfold ov_at, ov_get, ex_ov. cbn [ov_data]. apply (digit_res (vget (map int64 [1; 3; 2]) o)). intros x E.
  eapply digits_get; [|exact E]. repeat constructor; lia.
Qed.

Lemma ex_ov_sum : forall lg a b c, (Rsum (fun o => Rabs (oval (ex_ov lg) a b c o)) (zrange 0 3) <= bpow radix2 53)%R.
Proof.
  intros. eapply Rle_trans; [apply sum9; intro; apply digit_abs, ex_ov_digit|]. change (9 * IZR 3 <= IZR (2 ^ 53))%R. rewrite <- mult_IZR. apply IZR_le. lia.
Qed.

(** The series 1 3 2 cut after its second slice. *)
Example C81_ordered_case : forall lg, exists l, oagg1 (DA lg) (ex_opn lg) (ex_ov lg) = Ok l /\
  Forall2 (fun q sm => exact_sum_mean (Rsum (oval (ex_ov lg) 0 0 0) (zrange (op_start q) (op_end q + 1))) (op_end q - op_start q + 1) sm /\
     near_sum_mean (IZR (op_end q - op_start q + 1) * bpow radix2 (-52)) (Rsum (oval (ex_ov lg) 0 0 0) (zrange (op_start q) (op_end q + 1)))
       (Rsum (fun o => Rabs (oval (ex_ov lg) 0 0 0 o)) (zrange (op_start q) (op_end q + 1))) (op_end q - op_start q + 1) sm) (on_parts (ex_opn lg)) l.
Proof.
  intro lg.
  assert (Sh : ov_shaped (ex_ov lg) 1 1 1) by (unfold ov_shaped; cbn; repeat split; lia).
  assert (Hp : forall q, In q (on_parts (ex_opn lg)) -> 0 <= op_start q <= op_end q /\ op_end q < ov_osize (ex_ov lg)).
  { intros q [<-|[<-|[]]]; cbn; lia. }
  destruct (C81_ordered_integers lg (ex_ov lg) 1 1 1 (ex_opn lg) Sh) as (G & _); auto.
  { cbn. lia. } { intros. apply digit_int, ex_ov_digit. } { intros. apply ex_ov_sum. }
  destruct (C81_ordered lg (ex_ov lg) 1 1 1 (ex_opn lg) Sh) as (G' & _); auto.
  { cbn. lia. } { intros. apply ex_ov_digit. }
  { intros. eapply Rle_trans; [apply ex_ov_sum|]. apply bpow_le. lia. }
  destruct (G eq_refl) as (l & E & F). destruct (G' eq_refl) as (l' & E' & F'). exists l. split; auto.
  assert (l' = l) by congruence. subst l'. clear E E' G G'. revert F F'. generalize (on_parts (ex_opn lg)) l. clear Hp.
  intros p q F. induction F; intro F'; constructor; inversion F'; subst; auto.
Qed.
Print Assumptions C81_ordered_case.

Example C81_total_case : forall lg, (Rabs (Rsum (fun se => B2R (osum (ex_ov lg) (fst se) (snd se) 0%Z 0%Z 0%Z : f64)) [(0, 1); (2, 2)]%Z - Rsum (oval (ex_ov lg) 0 0 0) (zrange 0 3)) <=
   IZR 3 * bpow radix2 (-52) * Rsum (fun o => Rabs (oval (ex_ov lg) 0 0 0 o)) (zrange 0 3))%R.
Proof.
  intro lg. apply (C81_total lg (ex_ov lg)); try (cbn; lia).
  - cbn. repeat constructor; lia.
  - intro. apply ex_ov_digit.
  - eapply Rle_trans; [apply ex_ov_sum|]. apply bpow_le. lia.
Qed.

Definition ex_hpn lg (m : meta) : hpartition (DA lg) :=
  mkHPn (DA lg) [] (map (fun h => mkHPart (DA lg) h (m_sizeof m h) (q_zero (DA lg))) [4; 5]) [] (p_zero (DA lg)) m (q_zero (DA lg)).

Lemma tree4_shallow : forall m, well_built m -> m_leaves m = 4 -> m_parents m = [4; 4; 5; 5; 6; 6; -1] -> forall h, h = 4 \/ h = 5 -> shallow m h.
Proof.
  intros m W EL EP h Hh c Nc Pc. rewrite EL. unfold node in Nc. rewrite EP in *. change (vlen [4; 4; 5; 5; 6; 6; -1]) with 7 in Nc.
  assert (c = 0 \/ c = 1 \/ c = 2 \/ c = 3 \/ c = 4 \/ c = 5 \/ c = 6) as D by lia.
  destruct D as [->|[->|[->|[->|[->|[->| ->]]]]]]; try lia; exfalso; (match type of Pc with ?t = _ => let r := eval vm_compute in t in assert (Q : t = r) by reflexivity end); rewrite Q in Pc; lia.
Qed.

Lemma hier_digit : forall lg m y a b c, digit (hv_at (mkHV (DA lg) 1 m (HN1 (DA lg) (map int64 [1; 3; 2; 5]))) y a b c : f64).
Proof.
  intros. unfold hv_at, hv_get. cbn [hv_data]. apply (digit_res (vget (map int64 [1; 3; 2; 5]) y)). intros x E.
  eapply digits_get; [|exact E]. repeat constructor; lia.
Qed.

(** Four leaves in two groups, the partition into the two groups. *)
Example C81_hier_case : forall lg, exists m, meta_build 4 [4; 4; 5; 5; 6; 6; -1] = Ok m /\
  exists l, hagg1 (DA lg) 2 (ex_hpn lg m) (mkHV (DA lg) 1 m (HN1 (DA lg) (map int64 [1; 3; 2; 5]))) = Ok l /\
  Forall2 (fun q sm => exact_sum_mean (Rsum (hval (mkHV (DA lg) 1 m (HN1 (DA lg) (map int64 [1; 3; 2; 5]))) 0 0 0) (leavesof 4 [4; 4; 5; 5; 6; 6; -1] (hp_h q))) (hp_size q) sm)
    (hn_parts (ex_hpn lg m)) l.
Proof.
  intro lg. destruct tree4_prf as [V U]. destruct (C03_C04_uniform _ _ _ V U) as (m & E & W & EL & EP & ER).
  exists m. split; auto. set (v := mkHV (DA lg) 1 m (HN1 (DA lg) (map int64 [1; 3; 2; 5]))).
  assert (Sh : hv_shaped v 1 1 1). { unfold hv_shaped, v. cbn [hv_meta hv_data hv_vsize]. rewrite EL. repeat split; try lia; reflexivity. }
  assert (H2 : 2 <= m_hsize m) by (rewrite (wb_hsize _ W), EP; cbv; discriminate).
  destruct (C81_hier_integers lg v 1 1 1 (ex_hpn lg m) 2 Sh W H2) as (G & _); auto.
  - intros q [<-|[<-|[]]]; cbn [hp_h hp_size v hv_meta]; unfold node; rewrite EP; (split; [cbv; intuition congruence|]); (split; [apply tree4_shallow; auto|]);
      rewrite EL; (split; [lia|]).
    + injection E as <-. cbv. intuition congruence.
    + injection E as <-. cbv. intuition congruence.
  - intros. apply digit_int, hier_digit.
  - intros. cbn [v hv_meta]. rewrite EL. eapply Rle_trans; [apply sum9; intro; apply digit_abs, hier_digit|].
    change (9 * IZR 4 <= IZR (2 ^ 53))%R. rewrite <- mult_IZR. apply IZR_le. lia.
  - cbn [v hv_meta] in G. rewrite EL, EP in G. exact (G eq_refl).
Qed.
Print Assumptions C81_hier_case.

Definition ex_dpn lg (m : meta) : dpartition (DA lg) :=
  mkDPn (DA lg) [] [mkDPart (DA lg) 4 (m_sizeof m 4) 0 1 (q_zero (DA lg)); mkDPart (DA lg) 5 (m_sizeof m 5) 0 0 (q_zero (DA lg)); mkDPart (DA lg) 5 (m_sizeof m 5) 1 1 (q_zero (DA lg))]
    [] (p_zero (DA lg)) m (q_zero (DA lg)).

Lemma spatio_digit : forall lg m y a b o, digit (dv_at (mkDV (DA lg) 1 2 m (DN2 (DA lg) [map int64 [1; 3]; map int64 [2; 5]; map int64 [4; 1]; map int64 [6; 2]])) y a b o : f64).
Proof.
  intros. unfold dv_at, dv_get. cbn [dv_data].
  apply (digit_res (vget2 [map int64 [1; 3]; map int64 [2; 5]; map int64 [4; 1]; map int64 [6; 2]] y o)). intros x E0. unfold vget2, bind in E0.
  destruct (vget _ y) as [r| |] eqn:E; try discriminate. apply vget_In in E. rename E0 into E2.
  destruct E as [<-|[<-|[<-|[<-|[]]]]]; (eapply digits_get; [|exact E2]); repeat constructor; lia.
Qed.

(** The same hierarchy over two slices: the first group aggregated over both, the second cut. *)
Example C81_spatio_case : forall lg, exists m, meta_build 4 [4; 4; 5; 5; 6; 6; -1] = Ok m /\
  let v := mkDV (DA lg) 1 2 m (DN2 (DA lg) [map int64 [1; 3]; map int64 [2; 5]; map int64 [4; 1]; map int64 [6; 2]]) in
  exists l, dagg2 (DA lg) 2 (ex_dpn lg m) v = Ok l /\
  Forall2 (fun q sm => exact_sum_mean (Rsum (fun o => Rsum (fun y => dval v 0 0 (y, o)) (leavesof 4 [4; 4; 5; 5; 6; 6; -1] (dp_h q))) (zrange (dp_start q) (dp_end q + 1)))
     (dp_hsize q * (dp_end q - dp_start q + 1)) sm) (dn_parts (ex_dpn lg m)) l.
Proof.
  intro lg. destruct tree4_prf as [V U]. destruct (C03_C04_uniform _ _ _ V U) as (m & E & W & EL & EP & ER).
  exists m. split; auto. intro v.
  assert (Sh : dv_shaped v 1 1). { unfold dv_shaped, v. cbn [dv_meta dv_data dv_vsize dv_osize]. rewrite EL. repeat split; try lia; try reflexivity. repeat constructor. }
  assert (H2 : 2 <= m_hsize m) by (rewrite (wb_hsize _ W), EP; cbv; discriminate).
  destruct (C81_spatio_integers lg v 1 1 (ex_dpn lg m) 2 Sh W H2) as (G & _); auto.
  - cbn. lia.
  - intros q Hq. assert (D : dp_h q = 4 \/ dp_h q = 5) by (destruct Hq as [<-|[<-|[<-|[]]]]; cbn; auto).
    assert (D1 : 0 <= dp_start q <= dp_end q /\ dp_end q < 2) by (destruct Hq as [<-|[<-|[<-|[]]]]; cbn; lia).
    assert (D2 : dp_hsize q = 2) by (destruct Hq as [<-|[<-|[<-|[]]]]; injection E as <-; reflexivity).
    cbn [v dv_meta dv_osize]. split; [unfold node; rewrite EP; change (vlen [4; 4; 5; 5; 6; 6; -1]) with 7; lia|].
    split; [lia|]. split; [lia|]. split; [apply tree4_shallow; auto|]. rewrite EL. lia.
  - intros. apply digit_int, spatio_digit.
  - intros. cbn [v dv_meta dv_osize]. rewrite EL.
    assert (Q : forall o, (Rsum (fun y => Rabs (dval v a b (y, o))) (zrange 0 4) <= 36)%R).
    { intro o. eapply Rle_trans; [apply sum9; intro; apply digit_abs, spatio_digit|]. change (9 * IZR 4 <= 36)%R. lra. }
    change (zrange 0 2) with [0; 1]. rewrite !Rsum_cons, Rsum_nil. pose proof (Q 0). pose proof (Q 1). apply Rle_trans with 72%R; [lra|].
    change (72 <= IZR (2 ^ 53))%R. apply IZR_le. lia.
  - cbn [v dv_meta] in G. rewrite EL, EP in G. exact (G eq_refl).
Qed.
Print Assumptions C81_spatio_case.
