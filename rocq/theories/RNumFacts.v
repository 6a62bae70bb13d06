(** * Lemmas for C82: the R functions in the code's own arithmetic. *)
From Coq Require Import Lia Sorting.Sorted Reals Lra.
From Flocq Require Import Core BinarySingleNaN.
From Verif Require Import Base BaseFacts Arith Quality Utm UtmFacts UtmProofs Hierarchy SpecTree TreeFacts HierarchyFacts HierarchyProofs TreeDec SpecParts SpecInfo Values Qualities Partitions Partitioners
  TreePath CoverFacts InfoFacts OInfo DataFacts DataCons OProofs HProofs DProofs ODataProofs HDataProofs DDataProofs SpecData SpecValues ValuesFacts ValuesProofs
  Search SpecSearch RApi SpecR RFacts P_RApi P_RCurve P_RBest SpecBest SpecMacro Ieee SpecIeee IeeeFacts IeeeConv DoubleFacts SpecNear NearFacts SpecNum NumFacts P_RDefined SpecNorm SpecRNum.

(** ** The array *)
Lemma exact_cube : forall lg (micro : rarray (IA lg)) d0 d1 d2, r_cube micro d0 d1 d2 -> r_cube (exact_array micro) d0 d1 d2.
Proof. intros lg micro d0 d1 d2 (H & H0 & H1 & H2 & H3). repeat (split; [assumption|]). unfold exact_array, vlen in *. cbn [ra_data]. rewrite map_length. exact H3. Qed.

Lemma mmap_img : forall I X Y (f : I -> res X) (f' : I -> res Y) (g : X -> Y) l ys, (forall i x, f i = Ok x -> f' i = Ok (g x)) -> mmap f l = Ok ys -> mmap f' l = Ok (map g ys).
Proof.
  intros I X Y f f' g l ys H. revert ys. induction l as [|i l IH]; intros ys E; cbn [mmap] in *; [injection E as <-; reflexivity|].
  apply bind_ok in E. destruct E as (x & Ex & E). apply bind_ok in E. destruct E as (xs & Exs & E). injection E as <-. rewrite (H i x Ex). cbn [bind]. rewrite (IH xs Exs). reflexivity.
Qed.

Lemma convert_dim : forall A (micro : rarray A) d0 d1 d2, ra_dim micro = [d0; d1; d2] -> convertToMicroModel A micro =
  mmap (fun i => mmap (fun j => mmap (fun k => cube_at A micro d0 d1 d2 i j k) (zrange 0 d2)) (zrange 0 d1)) (zrange 0 d0).
Proof. intros A micro d0 d1 d2 E. unfold convertToMicroModel. rewrite E. reflexivity. Qed.

Lemma micro_exact : forall lg (micro : rarray (IA lg)) d0 d1 d2 m, r_cube micro d0 d1 d2 -> convertToMicroModel (IA lg) micro = Ok m ->
  map (map reals) m = r_nested (exact_array micro) d0 d1 d2.
Proof.
  intros lg micro d0 d1 d2 m C Em. pose proof (nested_prf _ _ _ _ (exact_cube _ _ _ _ _ C)) as En. destruct C as (Ed & _).
  rewrite (convert_dim _ _ d0 d1 d2 Ed) in Em. rewrite (convert_dim RA (exact_array micro) d0 d1 d2 Ed) in En.
  assert (K : forall i j k (x : f80), cube_at (IA lg) micro d0 d1 d2 i j k = Ok x -> cube_at RA (exact_array micro) d0 d1 d2 i j k = Ok (B2R x)).
  { intros i j k x. unfold cube_at. destruct (_ && _ && _ && _ && _ && _); [|discriminate]. intro Ex. cbn [exact_array ra_data]. apply (vget_map f80 R (fun x : f80 => B2R x)). exact Ex. }
  assert (K3 : mmap (fun i => mmap (fun j => mmap (fun k => cube_at RA (exact_array micro) d0 d1 d2 i j k) (zrange 0 d2)) (zrange 0 d1)) (zrange 0 d0) = Ok (map (map reals) m)).
  { eapply (mmap_img _ (list (list f80)) (list (list R))); [|exact Em]. intros i x Ex. eapply (mmap_img _ (list f80) (list R)); [|exact Ex]. intros j y Ey. eapply (mmap_img _ f80 R); [|exact Ey]. intros k z. apply K. }
  change (num RA) with R in *. rewrite En in K3. injection K3 as K3. symmetry. exact K3.
Qed.

Lemma micro_all : forall A (P : num A -> Prop) (micro : rarray A) d0 d1 d2 m, r_cube micro d0 d1 d2 -> convertToMicroModel A micro = Ok m -> Forall P (ra_data micro) -> Forall (Forall (Forall P)) m.
Proof.
  intros A P micro d0 d1 d2 m C Em HP. destruct (micro_prf A micro d0 d1 d2 C) as (m' & Em' & Lm & R3 & G). rewrite Em in Em'. injection Em' as <-. destruct C as (Ed & _).
  apply Forall_vget. intros i s Es. pose proof (vget_inv _ _ _ _ Es) as Hi. pose proof (proj1 (Forall_forall _ _) R3 s (vget_In _ _ _ _ Es)) as [L1 R2].
  apply Forall_vget. intros j r Er. pose proof (vget_inv _ _ _ _ Er) as Hj. pose proof (proj1 (Forall_forall _ _) R2 r (vget_In _ _ _ _ Er)) as L2. cbn beta in L2.
  apply Forall_vget. intros k x Ex. pose proof (vget_inv _ _ _ _ Ex) as Hk. destruct (G i j k ltac:(lia) ltac:(lia) ltac:(lia)) as (y & E1 & E2).
  unfold vget3, vget2 in E1. rewrite Es in E1. cbn [bind] in E1. rewrite Er in E1. cbn [bind] in E1. rewrite Ex in E1. injection E1 as <-.
  unfold r_at in E2. rewrite Ed in E2. apply (proj1 (Forall_forall _ _) HP). exact (vget_In _ _ _ _ E2).
Qed.

Lemma columns_img : forall X Y (f : X -> Y) d w rows, map (map f) (columns d w rows) = columns (f d) w (map (map f) rows).
Proof.
  intros X Y f d w rows. unfold columns. rewrite map_map. apply map_ext. intro k. rewrite !map_map. apply map_ext. intro r. unfold elt. symmetry. apply map_nth.
Qed.
Lemma concat_img : forall X Y (f : X -> Y) (m : list (list (list X))), map (map f) (map (@concat X) m) = map (@concat Y) (map (map (map f)) m).
Proof. intros. rewrite !map_map. apply map_ext. intro r. apply concat_map. Qed.

(** ** The values objects built from it *)
Lemma o_fdata : forall lg (m : list (list (list f80))) d0 d1 d2, vlen m = d0 -> 1 <= d0 -> 1 <= d1 -> 1 <= d2 <= 65535 -> rect3 m d1 d2 -> d0 * d1 <= 2147483647 ->
  odata_f (ov3_of (IA lg) m) (concat m) /\ ov_vsize (ov3_of (IA lg) m) = d0 * d1 /\ ov_osize (ov3_of (IA lg) m) = d2.
Proof.
  intros lg m d0 d1 d2 L3 H0 H1 H2 R3 Hs. destruct (size3_rect _ m d0 d1 d2 L3 H0 H1 R3) as (S1 & S2 & S3).
  assert (Ev : ov_vsize (ov3_of (IA lg) m) = d0 * d1) by (transitivity (size1 m * size2 m); [reflexivity|rewrite S1, S2; reflexivity]).
  assert (Eo : ov_osize (ov3_of (IA lg) m) = d2) by exact S3.
  split; [|auto]. unfold odata_f. rewrite Ev, Eo. split; [nia|]. split; [lia|]. destruct (rect3_concat _ _ _ _ R3) as [R1 R2]. split; [|exact R2].
  transitivity (mmap (vget (concat m)) (zrange 0 (vlen (concat m)))); [|apply mmap_vget].
  rewrite (vlen_concat _ m d1 R1), L3. apply mmap_ext. intros k Hk. apply In_zrange in Hk.
  transitivity (let* a := udiv k (size2 m) in let* c := umod k (size2 m) in vget2 m a c); [reflexivity|]. rewrite S2. apply (flat2 (list f80)); [auto|lia].
Qed.

Definition f0 : f80 := B754_zero false.
Lemma h_fdata : forall lg (m : list (list (list f80))) d0 d1 d2 ps v, vlen m = d0 -> 1 <= d0 -> 1 <= d1 -> 1 <= d2 -> rect3 m d1 d2 -> d1 * d2 <= 2147483647 -> d0 <= 2147483647 ->
  hv3_of (IA lg) m ps = Ok v -> well_built (hv_meta v) -> 2 <= m_hsize (hv_meta v) -> m_leaves (hv_meta v) = d0 ->
  hdata_f v (columns f0 (d1 * d2) (map (@concat f80) m)) /\ hv_vsize v = d1 * d2.
Proof.
  intros lg m d0 d1 d2 ps v L3 H0 H1 H2 R3 Hs Hs0 Ev W Hh El. destruct (size3_rect _ m d0 d1 d2 L3 H0 H1 R3) as (S1 & S2 & S3).
  unfold hv3_of in Ev. change (num (IA lg)) with f80 in Ev. rewrite S1, S2, S3 in Ev. apply bind_ok in Ev. destruct Ev as (me & _ & Ev). injection Ev as <-. cbn [hv_meta hv_vsize] in *.
  split; [|reflexivity]. unfold hdata_f. cbn [hv_meta hv_vsize]. split; [nia|]. split; [exact W|]. split; [lia|]. split; [lia|]. rewrite El.
  replace d0 with (vlen (map (@concat f80) m)) by (unfold vlen in *; rewrite map_length; auto).
  apply (columns_mmap f80 f0); [nia|apply rect3_flat; auto|].
  intros h k Hh' Hk. apply (flat2_rows f80 m d1 d2); auto. unfold vlen in *; rewrite map_length in Hh'; auto.
Qed.

Lemma d_fdata : forall lg (m : list (list (list f80))) d0 d1 d2 ps v, vlen m = d0 -> 1 <= d0 -> 1 <= d1 -> 1 <= d2 <= 65535 -> rect3 m d1 d2 -> d1 <= 2147483647 -> d0 * d2 <= 2147483647 ->
  dv3_of (IA lg) m ps = Ok v -> well_built (dv_meta v) -> 2 <= m_hsize (dv_meta v) -> m_leaves (dv_meta v) = d0 ->
  ddata_f v (columns [] d1 m) /\ dv_vsize v = d1 /\ dv_osize v = d2.
Proof.
  intros lg m d0 d1 d2 ps v L3 H0 H1 H2 R3 Hs Hs0 Ev W Hh El. destruct (size3_rect _ m d0 d1 d2 L3 H0 H1 R3) as (S1 & S2 & S3).
  unfold dv3_of in Ev. change (num (IA lg)) with f80 in Ev. rewrite S1, S2, S3 in Ev. apply bind_ok in Ev. destruct Ev as (me & _ & Ev). injection Ev as <-. cbn [dv_meta dv_vsize dv_osize] in *.
  split; [|auto]. unfold ddata_f. cbn [dv_meta dv_vsize dv_osize]. split; [lia|]. split; [lia|]. split; [exact W|]. split; [lia|]. split; [lia|]. rewrite El.
  destruct (rect3_concat _ _ _ _ R3) as [R1 _]. split; [|apply columns_rows; [lia|exact R1|apply (rect3_rows f80 m _ _ R3)]].
  rewrite <- L3. apply (columns_mmap (list f80) []); [lia|exact R1|]. intros h k Hh' Hk. reflexivity.
Qed.

(** ** Doubles for R *)
Lemma F64_F80 : forall x, generic_format radix2 (FLT_exp (-1074) 53) x -> generic_format radix2 (FLT_exp (-16445) 64) x.
Proof. intros x H. apply (generic_inclusion_mag radix2 (FLT_exp (-1074) 53)); auto. intros _. unfold FLT_exp. lia. Qed.

Lemma widen64 : forall x : f64, is_finite x = true -> B2R (to80 x) = B2R x /\ is_finite (to80 x) = true.
Proof.
  intros x Hx. pose proof (generic_format_B2R 53 1024 x) as Fx. change (SpecFloat.fexp 53 1024) with (FLT_exp (-1074) 53) in Fx.
  pose proof (abs_B2R_lt_emax 53 1024 x) as Bx. destruct x as [s| | |s m e B]; try discriminate; [split; reflexivity|].
  unfold to80, conv.
  pose proof (binary_normalize_correct 64 16384 prec80 emax80 mode_NE (cond_Zopp s (Zpos m)) e s) as K. cbv zeta in K.
  change (F2R {| Fnum := cond_Zopp s (Zpos m); Fexp := e |}) with (B2R (B754_finite s m e B : f64)) in K.
  change (SpecFloat.fexp 64 16384) with (FLT_exp (-16445) 64) in K.
  rewrite round_generic in K; [|auto with typeclass_instances|apply F64_F80; exact Fx].
  rewrite Rlt_bool_true in K.
  - destruct K as (K1 & K2 & _). split; auto.
  - eapply Rlt_trans; [exact Bx|]. apply bpow_lt. lia.
Qed.

Lemma narrow64 : forall x : f80, is_finite x = true -> (Rabs (B2R x) <= b2 1023)%R -> B2R (to64 x) = round radix2 (FLT_exp (-1074) 53) ZnearestE (B2R x) /\ is_finite (to64 x) = true.
Proof.
  intros x Hx Bx. destruct x as [s| | |s m e B]; try discriminate; [split; [cbn [B2R to64 conv]; symmetry; apply round_0; auto with typeclass_instances|reflexivity]|].
  unfold to64, conv.
  pose proof (binary_normalize_correct 53 1024 prec64 emax64 mode_NE (cond_Zopp s (Zpos m)) e s) as K. cbv zeta in K.
  change (F2R {| Fnum := cond_Zopp s (Zpos m); Fexp := e |}) with (B2R (B754_finite s m e B : f80)) in K.
  change (SpecFloat.fexp 53 1024) with (FLT_exp (-1074) 53) in K. change (round_mode mode_NE) with ZnearestE in K.
  rewrite no_ovf64 in K by exact Bx. destruct K as (K1 & K2 & _). split; auto.
Qed.

Lemma as_double_close : forall x : f80, is_finite x = true -> (Rabs (B2R x) <= 12)%R -> is_finite (as_double x) = true /\ (Rabs (B2R (as_double x) - B2R x) <= rd_err)%R.
Proof.
  intros x Fx Bx.
  assert (B4 : (12 <= b2 1023)%R). { apply Rle_trans with (b2 4); [cbn; lra|apply bpow_le; lia]. }
  destruct (narrow64 x Fx ltac:(lra)) as (E1 & F1). destruct (widen64 (to64 x) F1) as (E2 & F2). unfold as_double. split; [exact F2|].
  rewrite E2, E1. eapply Rle_trans; [apply r64_err|]. unfold rd_err.
  assert (b2 (-1075) <= b2 (-53))%R by (apply bpow_le; lia).
  change (b2 (-49)) with (b2 (4 + -53)). rewrite bpow_plus. change (b2 4) with 16%R. pose proof (bpow_gt_0 radix2 (-53)).
  assert (b2 (-53) * Rabs (B2R x) <= b2 (-53) * 12)%R by (apply Rmult_le_compat_l; lra). lra.
Qed.

Lemma shown : forall e (x : f80) r, within e x r -> (Rabs (B2R x) <= 12)%R -> within (e + rd_err) (as_double x) r.
Proof.
  intros e x r (F & B) H. destruct (as_double_close x F H) as (F1 & B1). split; [exact F1|].
  replace (B2R (as_double x) - r)%R with ((B2R (as_double x) - B2R x) + (B2R x - r))%R by ring. eapply Rle_trans; [apply Rabs_triang|]. lra.
Qed.

(** A score is at most RAND_MAX. *)
Lemma small_score : forall lg (g l : f80), is_finite g = true -> is_finite l = true -> (Rabs (B2R g) <= 12)%R -> (Rabs (B2R l) <= 12)%R -> good_score lg g l.
Proof.
  intros lg g l Fg Fl Bg Bl. unfold good_score. change (n_one (IA lg)) with (int80 1).
  destruct (int80_exact 1 ltac:(lia)) as [E1 F1]. destruct (int80_exact 2147483647 ltac:(lia)) as [E2 F2].
  assert (S : forall e r M, (Rabs r <= M)%R -> (M <= b2 e)%R -> (-16381 <= e)%Z -> (Rabs (round radix2 (FLT_exp (-16445) 64) ZnearestE r) <= b2 e)%R) by (intros e r M Q1 Q2 Q3; apply rnd80_abs; [lra|auto]).
  assert (P : forall e, (e <= 16383)%Z -> (b2 e <= b2 16383)%R) by (intros; apply bpow_le; auto).
  assert (A1 : (Rabs (B2R g - B2R (int80 1)) <= 16)%R) by (rewrite E1; apply Rabs_le_inv in Bg; apply Rabs_le; lra).
  destruct (minus80 g (int80 1) Fg F1) as [G1 G2]; [eapply Rle_trans; [exact A1|]; apply (P 4%Z); lia|].
  set (a := Bminus mode_NE g (int80 1)) in *. assert (Ba : (Rabs (B2R a) <= 16)%R) by (rewrite G1; apply (S 4%Z _ 16%R); [exact A1|cbn; lra|lia]).
  assert (Sq : forall x : f80, is_finite x = true -> (Rabs (B2R x) <= 16)%R -> is_finite (Bmult mode_NE x x) = true /\ (Rabs (B2R (Bmult mode_NE x x)) <= 256)%R).
  { intros x Fx Bx. assert (Q : (Rabs (B2R x * B2R x) <= 256)%R) by (rewrite Rabs_mult; replace 256%R with (16 * 16)%R by ring; apply Rmult_le_compat; auto; apply Rabs_pos).
    destruct (mult80 x x Fx Fx) as [M1 M2]; [eapply Rle_trans; [exact Q|]; apply (P 8%Z); lia|]. split; [exact M2|]. rewrite M1. apply (S 8%Z _ 256%R); [exact Q|cbn; lra|lia]. }
  destruct (Sq a G2 Ba) as [Sa Qa]. destruct (Sq l Fl ltac:(lra)) as [Sl Ql].
  set (b := Bmult mode_NE a a) in *. set (c := Bmult mode_NE l l) in *.
  assert (A2 : (Rabs (B2R b + B2R c) <= 512)%R) by (eapply Rle_trans; [apply Rabs_triang|]; lra).
  destruct (plus80 b c Sa Sl) as [P1 P2]; [eapply Rle_trans; [exact A2|]; apply (P 9%Z); lia|].
  assert (A3 : (Rabs (B2R (Bplus mode_NE b c)) <= 512)%R) by (rewrite P1; apply (S 9%Z _ 512%R); [exact A2|cbn; lra|lia]).
  rewrite (Bleb_correct _ _ _ _ P2 F2), E2. apply Rle_bool_true. apply Rabs_le_inv in A3. lra.
Qed.

(** Entries and totals are at most 12. *)
Lemma entry_small : forall e (x : f80) r, within e x r -> (e <= 3)%R -> (0 <= r <= 1)%R -> (Rabs (B2R x) <= 12)%R.
Proof. intros e x r (_ & B) He Hr. apply Rabs_le_inv in B. apply Rabs_le. lra. Qed.

Lemma norm_err_3 : forall E k d t0 g0, well_above E k d t0 g0 -> (norm_err E k d t0 g0 <= 3)%R.
Proof.
  intros E k d t0 g0 [P H]. unfold norm_err. replace (6 * num_err E k d * (t0 / g0))%R with (3 * (2 * num_err E k d * t0 * / g0))%R by (field; lra).
  assert (2 * num_err E k d * t0 * / g0 <= 1)%R; [|lra]. apply Rmult_le_reg_r with g0; auto. rewrite Rmult_assoc, Rinv_l; lra.
Qed.

Lemma total_small : forall E N K d t0 g0 (x : f80) r, well_above E (N + K) d t0 g0 -> 0 <= N <= 2147483647 -> within (ntot_err E N K d t0 g0) x r -> (0 <= r <= 1)%R -> (Rabs (B2R x) <= 12)%R.
Proof.
  intros E N K d t0 g0 x r HW HN (_ & B) Hr. unfold ntot_err in B. pose proof (norm_err_3 _ _ _ _ _ HW) as H3.
  assert (Q : (IZR (N * N) * b2 (-59) <= 8)%R).
  { assert (IZR (N * N) <= b2 62)%R. { change (b2 62) with (IZR (2 ^ 62)). apply IZR_le. change (2 ^ 62) with (2 ^ 31 * 2 ^ 31). nia. }
    replace 8%R with (b2 62 * b2 (-59))%R by (rewrite <- bpow_plus; cbn; lra). apply Rmult_le_compat_r; [apply bpow_ge_0|auto]. }
  apply Rabs_le_inv in B. apply Rabs_le. lra.
Qed.

(** One row of Qualities per parameter. *)
Lemma quals_one : forall A X (l : list (par A * X)) p q q', (forall p, p_ltb A p p = false) -> StronglySorted (plt A) (map fst l) -> In (p, q) l -> In (p, q') l -> q = q'.
Proof.
  intros A X l p q q' Irr S I1 I2. induction l as [|[a x] l IH]; [destruct I1|]. cbn [map fst] in S. inversion S as [|? ? S' F]; subst. rewrite Forall_forall in F.
  assert (N : forall y, ~ In (a, y) l). { intros y I. specialize (F a (in_map fst _ _ I)). unfold plt in F. rewrite Irr in F. discriminate. }
  destruct I1 as [K1|I1], I2 as [K2|I2]; auto.
  - congruence.
  - exfalso. apply (N q'). congruence.
  - exfalso. apply (N q). congruence.
Qed.
