(** * The data addressed by the flattened component index. *)
From Coq Require Import Reals Lra Lia.
From Verif Require Import Base BaseFacts Arith Quality Utm UtmProofs Hierarchy SpecTree SpecParts SpecInfo SpecData OInfo Values.

(** Rectangular nested vectors. *)
Lemma vlen_concat : forall X (d : list (list X)) b, rect2 d b -> vlen (concat d) = vlen d * b.
Proof.
  intros X d b H; induction H as [|r d Hr H IH]; cbn [concat]; [unfold vlen; simpl; lia|].
  rewrite vlen_app, IH, Hr. change (r :: d) with ([r] ++ d). rewrite vlen_app. change (vlen [r]) with 1. ring.
Qed.

Lemma vget_concat : forall X (d : list (list X)) b k, rect2 d b -> 0 < b -> 0 <= k ->
  vget (concat d) k = vget2 d (k / b) (k mod b).
Proof.
  intros X d b k H Hb. revert k. induction H as [|r d Hr H IH]; intros k Hk.
  - simpl. unfold vget2. rewrite !vget_out; auto; unfold vlen; simpl; lia.
  - simpl concat. unfold vget2. destruct (Z_lt_le_dec k b).
    + rewrite vget_app_l by lia. rewrite Z.div_small, Z.mod_small by lia.
      assert (E : vget (r :: d) 0 = Ok r) by reflexivity. rewrite E. reflexivity.
    + rewrite vget_app_r by lia. rewrite Hr, IH by lia. unfold vget2.
      assert (E1 : k / b = (k - b) / b + 1). { replace k with (k - b + 1 * b) at 1 by lia. rewrite Z.div_add by lia. lia. }
      assert (E2 : k mod b = (k - b) mod b). { replace k with (k - b + 1 * b) at 1 by lia. rewrite Z.mod_add by lia. auto. }
      assert (E3 : vget (r :: d) (k / b) = vget d ((k - b) / b)).
      { rewrite E1. change (r :: d) with ([r] ++ d). assert (0 <= (k - b) / b) by (apply Z.div_pos; lia).
        rewrite vget_app_r by (unfold vlen; simpl; lia). f_equal. unfold vlen; simpl. lia. }
      rewrite E3, E2. auto.
Qed.

Lemma rect3_map : forall X (d : list (list (list X))) b c, rect3 d b c -> rect2 (map (@concat X) d) (b * c).
Proof.
  intros X d b c H. unfold rect2. apply Forall_map. eapply Forall_impl; [|exact H]. intros r [E R].
  rewrite (vlen_concat _ _ c R). lia.
Qed.
Lemma rect3_concat : forall X (d : list (list (list X))) b c, rect3 d b c -> rect2 d b /\ rect2 (concat d) c.
Proof.
  intros X d b c H; induction H as [|r d [Hb Hc] H IH]; simpl; [split; constructor|]. destruct IH as [I1 I2]. split.
  - constructor; auto.
  - apply Forall_app; split; auto.
Qed.
Lemma rect4_concat : forall X (d : list (list (list (list X)))) b c e, rect4 d b c e -> rect2 d b /\ rect3 (concat d) c e.
Proof.
  intros X d b c e H; induction H as [|r d [Hb Hc] H IH]; simpl; [split; constructor|]. destruct IH as [I1 I2]. split.
  - constructor; auto.
  - apply Forall_app; split; auto.
Qed.

Lemma size_nonneg : forall X (v : list X), 0 <= size1 v. Proof. intros; apply vlen_nonneg. Qed.
Lemma size2_nonneg : forall X (v : list (list X)), 0 <= size2 v.
Proof. intros X [|r v]; simpl; [lia|apply vlen_nonneg]. Qed.
Lemma size3_nonneg : forall X (v : list (list (list X))), 0 <= size3 v.
Proof. intros X [|r v]; simpl; [lia|apply size2_nonneg]. Qed.
Lemma size4_nonneg : forall X (v : list (list (list (list X)))), 0 <= size4 v.
Proof. intros X [|r v]; simpl; [lia|apply size3_nonneg]. Qed.

(** Flattened access over one, two and three levels. *)
Lemma flat2 : forall X (d : list (list X)) b k, rect2 d b -> 0 <= k < vlen d * b ->
  (let* a := udiv k b in let* c := umod k b in vget2 d a c) = vget (concat d) k.
Proof.
  intros X d b k H Hk. assert (0 < b). { pose proof (vlen_nonneg _ d). nia. }
  unfold udiv, umod. destruct (Z.eqb_spec b 0); [lia|]. cbn [bind]. rewrite (vget_concat _ _ b) by (auto; lia). auto.
Qed.
Lemma flat3 : forall X (d : list (list (list X))) b c k, rect3 d b c -> 0 <= k < vlen d * b * c ->
  (let* a := udiv k (c * b) in let* q := udiv k c in let* e := umod q b in let* f := umod k c in vget3 d a e f)
  = vget (concat (concat d)) k.
Proof.
  intros X d b c k H Hk. destruct (rect3_concat _ _ _ _ H) as [R1 R2].
  assert (0 <= b). { destruct d as [|r d]; [unfold vlen in Hk; simpl in Hk; lia|]. inversion H as [|? ? [E _]]; subst. apply vlen_nonneg. }
  pose proof (vlen_nonneg _ d). assert (0 < c) by nia. assert (0 < b) by nia.
  unfold udiv, umod. destruct (Z.eqb_spec (c * b) 0); [nia|]. destruct (Z.eqb_spec c 0); [lia|]. cbn [bind].
  destruct (Z.eqb_spec b 0); [lia|]. cbn [bind].
  rewrite (vget_concat _ (concat d) c) by (auto; lia). unfold vget2 at 1.
  assert (0 <= k / c) by (apply Z.div_pos; lia).
  rewrite (vget_concat _ d b) by (auto; lia). unfold vget3, vget2. rewrite Z.div_div by lia.
  destruct (vget d (k / (c * b))); auto.
Qed.

Section O.
Context (P : params).
Notation A := (RP P).

Lemma mmap_vget : forall X (d : list X), mmap (vget d) (zrange 0 (vlen d)) = Ok d.
Proof.
  intros X d. destruct d as [|x d]; auto. rewrite (mmap_map _ _ (vget (x :: d)) (elt x (x :: d))).
  - rewrite <- (list_elt _ x). auto.
  - intros i Hi. apply In_zrange in Hi. apply elt_vget; auto.
Qed.

Lemma ov1_rows : forall d : list R, orows (ov1_of A d) [d].
Proof. intro d. split; [reflexivity|]. constructor; auto. Qed.
Lemma ov2_rows : forall d : list (list R), rect2 d (size2 d) -> orows (ov2_of A d) d.
Proof. intros d H. split; [|exact H]. apply mmap_vget. Qed.
Lemma mmap_ext : forall I Y (f g : I -> res Y) l, (forall x, In x l -> f x = g x) -> mmap f l = mmap g l.
Proof. intros I Y f g l H; induction l as [|x l IH]; simpl; auto. rewrite H by (left; auto). rewrite IH; auto. intros; apply H; right; auto. Qed.

Lemma ov3_rows : forall d : list (list (list R)), rect3 d (size2 d) (size3 d) -> orows (ov3_of A d) (concat d).
Proof.
  intros d H. destruct (rect3_concat _ _ _ _ H) as [R1 R2]. split; [|exact R2].
  transitivity (mmap (vget (concat d)) (zrange 0 (vlen (concat d)))); [|apply mmap_vget].
  rewrite (vlen_concat _ d (size2 d) R1). apply mmap_ext.
  intros k Hk. apply In_zrange in Hk. apply (flat2 (list R)); auto.
Qed.
Lemma ov4_rows : forall d : list (list (list (list R))), rect4 d (size2 d) (size3 d) (size4 d) -> orows (ov4_of A d) (concat (concat d)).
Proof.
  intros d H. destruct (rect4_concat _ _ _ _ _ H) as [R1 R2]. destruct (rect3_concat _ _ _ _ R2) as [R3 R4]. split; [|exact R4].
  assert (E : size1 d * size2 d * size3 d = vlen (concat (concat d))).
  { rewrite (vlen_concat _ (concat d) (size3 d) R3), (vlen_concat _ d (size2 d) R1). auto. }
  transitivity (mmap (vget (concat (concat d))) (zrange 0 (vlen (concat (concat d))))); [|apply mmap_vget].
  rewrite <- E. apply mmap_ext. intros k Hk. apply In_zrange in Hk.
  assert (R5 : rect3 d (size2 d) (size3 d)).
  { eapply Forall_impl; [|exact H]. intros r [E1 R]. split; auto. apply (rect3_concat _ _ _ _ R). }
  apply (flat3 (list R)); auto.
Qed.
End O.
