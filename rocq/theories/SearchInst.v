(** * The three partitioners as instances of the search. *)
From Coq Require Import Reals Lra Lia Permutation.
From Verif Require Import Base BaseFacts Arith Quality Utm UtmProofs Hierarchy SpecTree SpecParts HierarchyFacts Partitions Partitioners
  Search SpecSearch CoverFacts OReal OProofs HProofs DFacts DSel DProofs.

Section O.
Context (A : arith) (t : utm (quality A)) (n : Z) (Hn : 0 <= n <= 65535) (S : utm_shape t n).

Lemma o_ok : forall p, exists x, o_best A t p = Ok x /\ on_param x = p.
Proof. intro p. destruct (o_tiles_prf A t n p Hn S) as (x & E & Ep & _). eauto. Qed.
End O.

Lemma on_eqb_refl : forall A (x : opartition A), on_eqb A x x = true.
Proof. intros. apply on_eqb_spec. auto. Qed.
Lemma on_eqb_sym : forall A (x y : opartition A), on_eqb A x y = true -> on_eqb A y x = true.
Proof. intros A x y. rewrite !on_eqb_spec. auto. Qed.
Lemma on_eqb_trans : forall A (x y z : opartition A), on_eqb A x y = true -> on_eqb A y z = true -> on_eqb A x z = true.
Proof. intros A x y z. rewrite !on_eqb_spec. congruence. Qed.

Lemma hn_eqb_refl : forall A (x : hpartition A), hn_eqb A x x = true.
Proof. intros. apply hn_eqb_spec. auto. Qed.
Lemma hn_eqb_sym : forall A (x y : hpartition A), hn_eqb A x y = true -> hn_eqb A y x = true.
Proof. intros A x y. rewrite !hn_eqb_spec. auto. Qed.
Lemma hn_eqb_trans : forall A (x y z : hpartition A), hn_eqb A x y = true -> hn_eqb A y z = true -> hn_eqb A x z = true.
Proof. intros A x y z. rewrite !hn_eqb_spec. congruence. Qed.

Section H.
Context (m : meta) (W : well_built m) (H2 : 2 <= m_hsize m).
Context (A : arith) (t : list (quality A)) (Ht : vlen t = m_hsize m).
Lemma h_ok : forall p, exists x, h_best A t m p = Ok x /\ hn_param x = p.
Proof. intro p. destruct (h_cover_prf m W H2 A t p Ht) as (x & E & Ep & _). eauto. Qed.
End H.

Definition nodup {A} (x : dpartition A) : Prop := NoDup (dcoords x).

Lemma dn_eqb_refl : forall A (x : dpartition A), nodup x -> dn_eqb A x x = true.
Proof. intros A x N. apply dn_eqb_spec; auto. Qed.
Lemma dn_eqb_sym : forall A (x y : dpartition A), nodup x -> nodup y -> dn_eqb A x y = true -> dn_eqb A y x = true.
Proof. intros A x y N1 N2. rewrite !dn_eqb_spec by auto. apply Permutation_sym. Qed.
Lemma dn_eqb_trans : forall A (x y z : dpartition A), nodup x -> nodup y -> nodup z ->
  dn_eqb A x y = true -> dn_eqb A y z = true -> dn_eqb A x z = true.
Proof. intros A x y z N1 N2 N3. rewrite !dn_eqb_spec by auto. apply Permutation_trans. Qed.

Section D.
Context (m : meta) (W : well_built m).
Context (A : arith) (t : list (utm (quality A))) (n : Z) (Hn : 1 <= n <= 65535) (Ht : vlen t = m_hsize m)
  (F : Forall (fun u => utm_shape u n) t).
Lemma d_ok : forall p, exists x, d_best A t m p = Ok x /\ dn_param x = p.
Proof. intro p. destruct (d_cover_prf m W A t n p Hn Ht F) as (x & E & Ep & _). eauto. Qed.

Lemma d_nodup : forall p x, d_best A t m p = Ok x -> nodup x.
Proof.
  intros p x E. destruct (d_best_shape m W _ t n p Hn Ht F) as (R & y & C & T & E1 & OK & Ep & Ei & Eq & HG).
  rewrite E in E1. inversion E1; subst y.
  pose proof (dsel_cover m W n ltac:(lia) C OK (m_root m) 0 (root_node m W) ltac:(lia)) as RC.
  unfold nodup. apply (NoDup_map_inv fst). unfold dcoords. rewrite map_map. change (NoDup (map rect (dn_parts x))).
  rewrite Ep, rect_mkdpart. apply (rc_nd _ _ _ _ _ RC).
Qed.
End D.

(** Between two equal results (real parameters). *)
Section R.
Definition in01 (p : R) : Prop := (0 <= p <= 1)%R.

Lemma o_between_R : forall (t : utm (quality RA)) n, 0 <= n <= 65535 -> utm_shape t n ->
  forall (p1 p p2 : R) x1 x x2, in01 p1 -> in01 p2 -> (p1 < p)%R -> (p < p2)%R ->
  o_best RA t p1 = Ok x1 -> o_best RA t p = Ok x -> o_best RA t p2 = Ok x2 -> on_eqb RA x1 x2 = true -> on_eqb RA x x1 = true.
Proof.
  intros t n Hn S p1 p p2 x1 x x2 [I1 I2] [I3 I4] L1 L2 E1 E E2 H. change RA with (RP Rpar) in *.
  destruct (o_between_prf Rpar t n p1 p p2 x1 x x2 Hn S) as [K _]; auto.
  - apply Rpar_plt; lra.
  - apply Rpar_plt; lra.
  - apply on_eqb_spec. unfold ocoords. rewrite K. auto.
Qed.

Lemma h_between_R : forall m, well_built m -> 2 <= m_hsize m -> forall (t : list (quality RA)), vlen t = m_hsize m ->
  forall (p1 p p2 : R) x1 x x2, in01 p1 -> in01 p2 -> (p1 < p)%R -> (p < p2)%R ->
  h_best RA t m p1 = Ok x1 -> h_best RA t m p = Ok x -> h_best RA t m p2 = Ok x2 -> hn_eqb RA x1 x2 = true -> hn_eqb RA x x1 = true.
Proof.
  intros m W H2 t Ht p1 p p2 x1 x x2 [I1 I2] [I3 I4] L1 L2 E1 E E2 H. change RA with (RP Rpar) in *.
  destruct (h_between_prf m W H2 Rpar t p1 p p2 x1 x x2 Ht) as [K _]; auto.
  - apply Rpar_plt; lra.
  - apply Rpar_plt; lra.
  - apply hn_eqb_spec. unfold hcoords. rewrite K. auto.
Qed.

Lemma d_between_R : forall m, well_built m -> forall (t : list (utm (quality RA))) n, 1 <= n <= 65535 ->
  vlen t = m_hsize m -> Forall (fun u => utm_shape u n) t ->
  forall (p1 p p2 : R) x1 x x2, in01 p1 -> in01 p2 -> (p1 < p)%R -> (p < p2)%R ->
  d_best RA t m p1 = Ok x1 -> d_best RA t m p = Ok x -> d_best RA t m p2 = Ok x2 -> dn_eqb RA x1 x2 = true -> dn_eqb RA x x1 = true.
Proof.
  intros m W t n Hn Ht F p1 p p2 x1 x x2 [I1 I2] [I3 I4] L1 L2 E1 E E2 H. change RA with (RP Rpar) in *.
  destruct (d_between_prf m W Rpar t n p1 p p2 x1 x x2 Hn Ht F) as [K _]; auto.
  - apply Rpar_plt; lra.
  - apply Rpar_plt; lra.
  - apply dn_eqb_spec; [eapply (d_nodup m W RA t n); eauto|]. unfold dcoords. rewrite K. auto.
Qed.
End R.
