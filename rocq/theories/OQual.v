(** * OQualities::computeQualities over any arithmetic: what the table contains. *)
From Coq Require Import Lia.
From Verif Require Import Base BaseFacts Arith Quality Utm UtmFacts Hierarchy Values Qualities.

(** x(j) + x(j-1) + ... + x(i), added in this order. *)
Definition rs (A : arith) (x : Z -> num A) (i j : Z) : num A :=
  fold_left (fun a c => n_add A a (x c)) (rev (zrange i j)) (x j).

Lemma rs_diag : forall A x i, rs A x i i = x i.
Proof. intros. unfold rs. rewrite zrange_empty by lia. reflexivity. Qed.
Lemma rs_step : forall A x i j, i < j -> rs A x i j = n_add A (rs A x (i + 1) j) (x i).
Proof.
  intros. unfold rs. rewrite (zrange_cons i j) by lia. simpl rev. rewrite fold_left_app. reflexivity.
Qed.

Section M.
Context (A : arith).
Notation quality := (quality A).
Variable (v : ovalues A).
Variables (n : Z) (x : Z -> Z -> num A).
Hypothesis Hn : 0 <= n <= 65535.
Hypothesis Hos : ov_osize v = n.
Hypothesis Hrows : forall k, 0 <= k < ov_vsize v -> exists r, ov_row v k = Ok r /\ vrepr r n (x k).

Definition ent (k o : Z) : num A := entropyReduction A (x k o) (n_zero A).

(** What component k adds to cell (i,j). *)
Definition ocomp (k i j : Z) (c : quality) : quality :=
  if i <? j then q_bump A c (entropyReduction A (rs A (x k) i j) (rs A (ent k) i j))
                          (divergence A (j - i + 1) (rs A (x k) i j) (rs A (ent k) i j))
  else c.

Definition orepr (st : utm (num A) * utm (num A) * utm quality) (S F : Z -> Z -> num A) (Q : Z -> Z -> quality) : Prop :=
  let '(sum, info, q) := st in urepr sum n S /\ urepr info n F /\ urepr q n Q.

(** One cell, when row i+1 and the diagonal are known. *)
Lemma oq_line_ok : forall k i st S F Q, 0 <= k < ov_vsize v -> 0 <= i < n -> orepr st S F Q ->
  (forall a b, i < a -> a <= b < n -> S a b = rs A (x k) a b /\ F a b = rs A (ent k) a b) ->
  exists st' S' F' Q', oq_line A v n k i st = Ok st' /\ orepr st' S' F' Q' /\
    (forall a b, i <= a -> a <= b < n -> S' a b = rs A (x k) a b /\ F' a b = rs A (ent k) a b) /\
    (forall a b, a <> i -> Q' a b = Q a b) /\ (forall b, i <= b < n -> Q' i b = ocomp k i b (Q i b)).
Proof.
  intros k i [[sum info] q] S F Q Hk Hi (RS & RF & RQ) Hrow. unfold oq_line.
  destruct (Hrows k Hk) as [r [Er Rr]]. rewrite Er. cbn [bind].
  rewrite (vrepr_get _ _ _ _ i Rr) by lia. cbn [bind].
  destruct (urepr_set _ _ _ _ i i (x k i) RS ltac:(lia) ltac:(lia)) as [sum1 [E1 R1]]. rewrite E1. cbn [bind].
  destruct (urepr_set _ _ _ _ i i (ent k i) RF ltac:(lia) ltac:(lia)) as [info1 [E2 R2]].
  change (entropyReduction A (x k i) (n_zero A)) with (ent k i). rewrite E2. cbn [bind].
  destruct (for_up_inv _ (oq_cell A i) (fun j st => exists S' F' Q', orepr st S' F' Q' /\
    (forall a b, (i < a \/ (a = i /\ b < j)) -> a <= b < n -> S' a b = rs A (x k) a b /\ F' a b = rs A (ent k) a b) /\
    (forall a b, a <> i -> Q' a b = Q a b) /\
    (forall b, i <= b < n -> Q' i b = if b <? j then ocomp k i b (Q i b) else Q i b)) (i + 1) n (sum1, info1, q))
    as [st' [E (S' & F' & Q' & R' & J1 & J2 & J3)]].
  - lia.
  - intros j [[sum' info'] q'] Hj (S' & F' & Q' & (RS' & RF' & RQ') & J1 & J2 & J3). unfold oq_cell.
    rewrite (urepr_get _ _ _ _ (i + 1) j RS') by lia. cbn [bind].
    rewrite (urepr_get _ _ _ _ i i RS') by lia. cbn [bind].
    destruct (J1 (i + 1) j ltac:(lia) ltac:(lia)) as [-> _]. destruct (J1 i i ltac:(lia) ltac:(lia)) as [-> _].
    rewrite rs_diag, <- rs_step by lia.
    destruct (urepr_set _ _ _ _ i j (rs A (x k) i j) RS' ltac:(lia) ltac:(lia)) as [sum2 [E3 R3]]. rewrite E3. cbn [bind].
    rewrite (urepr_get _ _ _ _ (i + 1) j RF') by lia. cbn [bind].
    rewrite (urepr_get _ _ _ _ i i RF') by lia. cbn [bind].
    destruct (J1 (i + 1) j ltac:(lia) ltac:(lia)) as [_ ->]. destruct (J1 i i ltac:(lia) ltac:(lia)) as [_ ->].
    rewrite rs_diag, <- rs_step by lia.
    destruct (urepr_set _ _ _ _ i j (rs A (ent k) i j) RF' ltac:(lia) ltac:(lia)) as [info2 [E4 R4]]. rewrite E4. cbn [bind].
    rewrite (urepr_get _ _ _ _ i j R3) by lia. cbn [bind]. rewrite fupd2_same.
    rewrite (urepr_get _ _ _ _ i j R4) by lia. cbn [bind]. rewrite fupd2_same.
    rewrite (urepr_get _ _ _ _ i j RQ') by lia. cbn [bind].
    rewrite J3 by lia. replace (j <? j) with false by (symmetry; apply Z.ltb_ge; lia).
    match goal with |- context [u_set q' i j ?w] => destruct (urepr_set _ _ _ _ i j w RQ' ltac:(lia) ltac:(lia)) as [q2 [E5 R5]] end.
    rewrite E5. cbn [bind]. eexists; split; [reflexivity|].
    do 3 eexists. split; [split; [exact R3|split; [exact R4|exact R5]]|]. split; [|split].
    + intros a b Hab Hb. destruct (Z.eq_dec a i) as [->|Da]; [destruct (Z.eq_dec b j) as [->|Db]|].
      * rewrite !fupd2_same. auto.
      * rewrite !fupd2_other by lia. apply J1; lia.
      * rewrite !fupd2_other by lia. apply J1; lia.
    + intros a b Ha. rewrite fupd2_other by lia. auto.
    + intros b Hb. destruct (Z.eq_dec b j) as [->|Db].
      * rewrite fupd2_same. replace (j <? j + 1) with true by (symmetry; apply Z.ltb_lt; lia).
        unfold ocomp. replace (i <? j) with true by (symmetry; apply Z.ltb_lt; lia). auto.
      * rewrite fupd2_other by lia. rewrite J3 by lia.
        destruct (Z.ltb_spec b j), (Z.ltb_spec b (j + 1)); auto; lia.
  - do 3 eexists. split; [split; [exact R1|split; [exact R2|exact RQ]]|]. split; [|split; auto].
    + intros a b Hab Hb. destruct (Z.eq_dec a i) as [->|Da].
      * assert (b = i) by lia. subst b. rewrite !fupd2_same, !rs_diag. auto.
      * rewrite !fupd2_other by lia. apply Hrow; lia.
    + intros b Hb. destruct (Z.ltb_spec b (i + 1)); auto. assert (b = i) by lia. subst b.
      unfold ocomp. rewrite Z.ltb_irrefl. auto.
  - exists st', S', F', Q'. split; auto. split; auto. split; [|split; auto].
    + intros a b Ha Hb. apply J1; lia.
    + intros b Hb. rewrite J3 by lia. replace (b <? n) with true by (symmetry; apply Z.ltb_lt; lia). auto.
Qed.

(** One component. *)
Lemma oq_comp_ok : forall k st S F Q, 0 <= k < ov_vsize v -> orepr st S F Q ->
  exists st' S' F' Q', for_down n 0 (oq_line A v n k) st = Ok st' /\ orepr st' S' F' Q' /\
    (forall a b, 0 <= a <= b -> b < n -> Q' a b = ocomp k a b (Q a b)).
Proof.
  intros k st S F Q Hk R.
  destruct (for_down_inv _ (oq_line A v n k) (fun i st => exists S' F' Q', orepr st S' F' Q' /\
    (forall a b, i <= a -> a <= b < n -> S' a b = rs A (x k) a b /\ F' a b = rs A (ent k) a b) /\
    (forall a b, 0 <= a <= b -> b < n -> Q' a b = if i <=? a then ocomp k a b (Q a b) else Q a b)) n 0 st)
    as [st' [E (S' & F' & Q' & R' & J1 & J2)]].
  - lia.
  - intros i s Hi (S' & F' & Q' & R' & J1 & J2).
    destruct (oq_line_ok k i s S' F' Q' Hk Hi R') as (s2 & S2 & F2 & Q2 & E & R2 & K1 & K2 & K3).
    { intros a b Ha Hb. apply J1; lia. }
    exists s2. split; auto. exists S2, F2, Q2. split; auto. split; auto.
    intros a b Ha Hb. destruct (Z.eq_dec a i) as [->|Da].
    + rewrite K3, J2 by lia. rewrite Z.leb_refl. replace (i + 1 <=? i) with false by (symmetry; apply Z.leb_gt; lia). auto.
    + rewrite K2, J2 by lia. destruct (Z.leb_spec (i + 1) a), (Z.leb_spec i a); auto; lia.
  - exists S, F, Q. split; auto. split; [intros; lia|]. intros a b Ha Hb.
    destruct (Z.leb_spec n a); auto; lia.
  - exists st', S', F', Q'. split; auto. split; auto. intros a b Ha Hb. rewrite J2 by lia.
    replace (0 <=? a) with true by (symmetry; apply Z.leb_le; lia). auto.
Qed.

Definition oqcell (i j : Z) : quality := fold_left (fun c k => ocomp k i j c) (zrange 0 (ov_vsize v)) (q_zero A).

Lemma oq_table_ok : 0 <= ov_vsize v -> exists t, oq_computeTable A v = Ok t /\ urepr t n oqcell.
Proof.
  intro Hv. unfold oq_computeTable. rewrite Hos.
  destruct (for_up_inv _ (fun k st => for_down n 0 (oq_line A v n k) st) (fun k st => exists S F Q, orepr st S F Q /\
    forall a b, 0 <= a <= b -> b < n -> Q a b = fold_left (fun c k => ocomp k a b c) (zrange 0 k) (q_zero A))
    0 (ov_vsize v) (u_new n (n_zero A), u_new n (n_zero A), u_new n (q_zero A))) as [st' [E (S & F & Q & R & J)]].
  - lia.
  - intros k st Hk (S & F & Q & R & J). destruct (oq_comp_ok k st S F Q Hk R) as (st' & S' & F' & Q' & E & R' & J').
    exists st'. split; auto. exists S', F', Q'. split; auto. intros a b Ha Hb.
    rewrite zrange_snoc by lia. rewrite fold_left_app. cbn [fold_left]. rewrite J', J by auto. auto.
  - exists (fun _ _ => n_zero A), (fun _ _ => n_zero A), (fun _ _ => q_zero A).
    split; [split; [apply urepr_new; auto|split; apply urepr_new; auto]|].
    intros. rewrite zrange_empty by lia. auto.
  - rewrite E. cbn [bind]. destruct st' as [[sum info] q]. exists q. split; auto.
    eapply urepr_ext; [apply R|]. intros. apply J; auto.
Qed.
End M.
