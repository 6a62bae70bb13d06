(** * Property C61: when the R functions return, in the code's floating-point arithmetic.

    [IA lg] is the code's arithmetic (Ieee.v), [UB] undefined behaviour: here always the uninitialised POpt of getP(P_OPT). *)
From Coq Require Import Lia Sorting.Sorted Reals Lra Permutation.
From Flocq Require Import Core BinarySingleNaN.
From Verif Require Import Base BaseFacts Arith Quality Utm UtmFacts UtmProofs Hierarchy SpecTree HierarchyFacts HierarchyProofs TreeDec SpecParts Values Qualities Partitions Partitioners
  TreePath CoverFacts OProofs HProofs DProofs ODataProofs HDataProofs DDataProofs OQual SpecData SpecValues ValuesFacts ValuesProofs QualInv DegFacts
  Search SpecSearch SearchFacts SearchProofs SearchInst P_Search P_Values P_Session RApi SpecR RFacts P_RApi RDefFacts Ieee SpecIeee IeeeFacts IeeeConv P_Degenerate P_Ieee.

(** ** The hypotheses of C59 hold in this arithmetic *)
Lemma ltb_irr : forall p e (x : binary_float p e), Bltb x x = false.
Proof. intros p e x. unfold Bltb, SpecFloat.SFltb. destruct x as [s|s| |s m ex H]; try reflexivity; try (destruct s; reflexivity). cbn. rewrite Z.compare_refl, Pos.compare_refl. destruct s; reflexivity. Qed.

Lemma unit_zero : unit32 (B754_zero false). Proof. split; [reflexivity|cbn; lra]. Qed.
Lemma p_one_IA : forall lg, p_one (IA lg) = int32 1. Proof. reflexivity. Qed.
Lemma unit_one : unit32 (int32 1). Proof. destruct one32_R as [E F]. split; [exact F|rewrite E; lra]. Qed.
Lemma zero_one : forall lg, plt (IA lg) (p_zero (IA lg)) (p_one (IA lg)).
Proof. intro lg. apply plt_IA; [exact unit_zero|exact unit_one|]. rewrite p_one_IA, (proj1 one32_R). cbn. lra. Qed.

Theorem C61_ieee_parameters : forall lg th, thr32 th ->
  (forall p, p_ltb (IA lg) p p = false) /\ bisectable (IA lg) unit32 th /\ unit32 (p_zero (IA lg)) /\ unit32 (p_one (IA lg)) /\ plt (IA lg) (p_zero (IA lg)) (p_one (IA lg)).
Proof.
  intros lg th T. split; [intro; apply ltb_irr|]. split; [apply ieee_bisectable; auto|]. split; [exact unit_zero|]. split; [exact unit_one|]. apply zero_one.
Qed.
Print Assumptions C61_ieee_parameters.

(** ** Scores of qualities that are not finite *)
Definition nf (x : f80) : Prop := is_finite x = false.
Lemma nf_add_l : forall x y, nf x -> nf (Bplus mode_NE x y).
Proof. intros x y H. destruct x as [| [] | |], y as [| [] | |]; try discriminate; reflexivity. Qed.
Lemma nf_add_r : forall x y, nf y -> nf (Bplus mode_NE x y).
Proof. intros x y H. destruct x as [| [] | |], y as [| [] | |]; try discriminate; reflexivity. Qed.
Lemma nf_fold : forall l x, (nf x \/ Exists nf l) -> nf (fold_left (Bplus mode_NE) l x : f80).
Proof.
  induction l as [|y l IH]; intros x H; cbn [fold_left].
  - destruct H as [H|H]; auto. inversion H.
  - apply IH. destruct H as [H|H]; [left; apply nf_add_l; auto|]. inversion H; subst; auto. left. apply nf_add_r; auto.
Qed.
Lemma nf_div : forall x y : f80, zn y -> nf (Bdiv mode_NE x y).
Proof. intros x y [H|H]; destruct x as [[]|[]| |[]], y as [[]|[]| |[]]; try discriminate; reflexivity. Qed.

Definition sqp (x : f80) : Prop := x = B754_infinity false \/ x = B754_nan.
Lemma sq_nf : forall x : f80, nf x -> sqp (Bmult mode_NE x x).
Proof. intros x H. destruct x as [| [] | |]; try discriminate; [left|left|right]; reflexivity. Qed.
(** A square is never negative infinity. *)
Lemma sq_sign : forall x : f80, Bmult mode_NE x x <> B754_infinity true.
Proof.
  intros x. destruct x as [| [] | | s m e H]; [discriminate|discriminate|discriminate|discriminate|]. intro C.
  pose proof (Bmult_correct 64 16384 prec80 emax80 mode_NE (B754_finite s m e H) (B754_finite s m e H)) as K.
  destruct (Rlt_bool _ _).
  - destruct K as (_ & K & _). rewrite C in K. discriminate K.
  - rewrite C in K. destruct s; discriminate K.
Qed.
Lemma score_nf : forall lg (q : quality (IA lg)), nf (gain q) \/ nf (loss q) -> n_leb (IA lg) (s_score (IA lg) q) (n_ofZ (IA lg) RAND_MAX) = false.
Proof.
  intros lg q H. unfold s_score. cbn [n_leb n_sub n_mul n_add n_one n_ofZ IA].
  assert (P : sqp (Bplus mode_NE (Bmult mode_NE (Bminus mode_NE (gain q) (int80 1)) (Bminus mode_NE (gain q) (int80 1))) (Bmult mode_NE (loss q) (loss q)))).
  { set (a := Bminus mode_NE (gain q : f80) (int80 1)). set (b := loss q : f80).
    assert (H' : nf a \/ nf b). { destruct H as [H|H]; [left|right; exact H]. unfold a. change (num (IA lg)) with f80 in *. destruct (gain q) as [| [] | |]; try discriminate; reflexivity. }
    pose proof (sq_sign a) as Sa. pose proof (sq_sign b) as Sb. change (num (IA lg)) with f80 in *.
    destruct H' as [K|K]; apply sq_nf in K.
    - destruct (Bmult mode_NE b b) as [| [] | |]; destruct K as [-> | ->]; try (right; reflexivity); try (left; reflexivity); congruence.
    - destruct (Bmult mode_NE a a) as [| [] | |]; destruct K as [-> | ->]; try (right; reflexivity); try (left; reflexivity); congruence. }
  destruct P as [-> | ->]; reflexivity.
Qed.

(** ** Ordered *)
(** If the computed gain or loss of the whole interval is zero or NaN, oaggregate has no POpt to return. *)
Theorem C61_ordered_degenerate : forall lg rd strict fuel (micro : rarray (IA lg)) th d0 d1 d2 m t0 q, r_cube micro d0 d1 d2 -> d2 <= 65535 ->
  convertToMicroModel (IA lg) micro = Ok m -> oq_compute (IA lg) (oq_ofValues (IA lg) (ov3_of (IA lg) m)) = Ok (mkOQ (IA lg) (Some (ov3_of (IA lg) m)) (Some t0)) ->
  u_get t0 0 (d2 - 1) = Ok q -> (is_zero (gain q : f80) = true \/ gain q = B754_nan \/ is_zero (loss q : f80) = true \/ loss q = B754_nan) ->
  r_oaggregate (IA lg) rd strict (S fuel) micro th = UB.
Proof.
  intros lg rd strict fuel micro th d0 d1 d2 m t0 q C Hn Em Ec Gq Hq.
  destruct (o_setup (IA lg) micro d0 d1 d2 C Hn) as (m' & t0' & t & q' & Em' & Sh & Ho & Ec' & En & St0 & St & Gq' & Er0).
  rewrite Em in Em'. inversion Em'; subst m'. rewrite Ec in Ec'. inversion Ec'; subst t0'. rewrite Gq in Gq'. inversion Gq'; subst q'. clear Em' Ec' Gq'.
  destruct C as (_ & H0 & H1 & H2 & _).
  destruct (o_normalize_prf (IA lg) _ t0 d2 q ltac:(lia) St0 Ho Gq) as (t' & En' & St' & Hc). rewrite En in En'. inversion En'; subst t'. clear En'.
  pose proof (Hc 0 (d2 - 1) q ltac:(lia) ltac:(lia) Gq) as Gn.
  assert (N : forall p, exists x, o_best (IA lg) t p = Ok x /\ map (fun y => (op_start y, op_end y)) (on_parts x) = [(0, d2 - 1)]).
  { intro p. destruct (C50_ordered_normalized lg _ t0 d2 q ltac:(lia) St0 Ho Gq Hq) as (t' & En' & K). rewrite En in En'. inversion En'; subst t'. apply K. }
  assert (One : forall x, map (fun y => (op_start y, op_end y)) (on_parts x) = [(0, d2 - 1)] -> exists y : opart (IA lg), on_parts x = [y] /\ op_start y = 0 /\ op_end y = d2 - 1).
  { intros x K. destruct (on_parts x) as [|y [|]]; try discriminate. inversion K. exists y. auto. }
  destruct (N (p_zero (IA lg))) as (a & Ea & Ka). destruct (N (p_one (IA lg))) as (b & Eb & Kb).
  destruct (One a Ka) as (ya & Pa & Sa & Fa). destruct (One b Kb) as (yb & Pb & Sb & Fb).
  rewrite Er0. unfold o_search.
  rewrite (search_flat (IA lg) (o_best (IA lg) t) on_param (on_eqb (IA lg)) on_quality (o_tuples (IA lg)) strict fuel _ th _ _ a b Ea Eb); try (apply ltb_irr).
  2,3: unfold on_eqb; rewrite Pa, Pb; cbn [list_eqb]; unfold opart_eqb; rewrite Sa, Sb, Fa, Fb, !Z.eqb_refl; reflexivity.
  2: exact (zero_one lg).
  2: { destruct (p_ltb (IA lg) (p_one (IA lg)) (p_zero (IA lg))) eqn:E; [|reflexivity]. vm_compute in E. discriminate. }
  destruct strict; [reflexivity|]. cbn [bind]. apply frames_ub. cbn [ps_qual]. intros p q0 [E|[]]. injection E as _ <-. apply score_nf.
  destruct (o_quality_prf (IA lg) t d2 _ a ltac:(lia) St Ea) as (Q1 & Q2 & Q3). rewrite Q2, Q3, Pa. cbn [map].
  pose proof (Q1 ya ltac:(rewrite Pa; left; auto)) as Q4. rewrite Sa, Fa, Gn in Q4. inversion Q4 as [Q5].
  cbn [gain loss]. destruct Hq as [Hq|[Hq|[Hq|Hq]]]; [left|left|right|right]; apply nf_fold; right; constructor; apply nf_div; unfold zn; auto.
Qed.
Print Assumptions C61_ordered_degenerate.

(** In terms of the array: at most one value other than 0 in every series micro[i,j,] (in particular: a single slice, or all zeros). *)
Theorem C61_ordered_busy : forall lg rd strict fuel (micro : rarray (IA lg)) th d0 d1 d2, r_cube micro d0 d1 d2 -> d2 <= 65535 ->
  (forall i j k k' (x y : f80), 1 <= i <= d0 -> 1 <= j <= d1 -> 1 <= k < k' -> k' <= d2 -> r_at micro i j k = Ok x -> r_at micro i j k' = Ok y -> is_zero x = true \/ is_zero y = true) ->
  r_oaggregate (IA lg) rd strict (S fuel) micro th = UB.
Proof.
  intros lg rd strict fuel micro th d0 d1 d2 C Hn H. pose proof C as (_ & H0 & H1 & H2 & _).
  destruct (micro_prf (IA lg) micro d0 d1 d2 C) as (m & Em & Lm & R3 & G).
  destruct (o_setup (IA lg) micro d0 d1 d2 C Hn) as (m' & t0 & t & q' & Em' & Sh & Ho & Ec & _). rewrite Em in Em'. inversion Em'; subst m'. clear Em'.
  destruct (C46_ordered (IA lg) _ _ _ _ Sh) as [Ix Cv].
  destruct (o_busy_whole lg (ov3_of (IA lg) m)) as (t0' & q & Ec' & St0 & Gq & Z).
  { destruct Sh as (_ & _ & _ & _ & -> & _). nia. } { rewrite Ho. lia. }
  { intros k Hk. destruct (Cv k Hk) as (a & b & c & Ha & Hb & Hc & -> & _). destruct (Ix a b c Ha Hb Hc) as (_ & row & Er & Lr & Gr). exists row. split; [exact Er|]. split; [exact Lr|].
    intros o o' x y Hoo Ex Ey. rewrite Gr in Ex, Ey. cbn [ov_get ov3_of ov_data] in Ex, Ey.
    pose proof (vget_inv _ _ _ _ (eq_trans (Gr o') Ey)) as Hlt. rewrite Lr, Ho in Hlt.
    destruct (G a b o Ha Hb ltac:(lia)) as (x' & E1 & E2). destruct (G a b o' Ha Hb ltac:(lia)) as (y' & E3 & E4). unfold ov_get, ov3_of in Ex, Ey. cbn [ov_data] in Ex, Ey.
    rewrite E1 in Ex. inversion Ex; subst x'. rewrite E3 in Ey. inversion Ey; subst y'.
    apply (H (a + 1) (b + 1) (o + 1) (o' + 1) x y); auto; lia. }
  rewrite Ho in Gq. apply (C61_ordered_degenerate lg rd strict fuel micro th d0 d1 d2 m t0' q C Hn Em Ec' Gq). destruct Z; auto.
Qed.
Print Assumptions C61_ordered_busy.

(** ** Spatiotemporal *)
Theorem C61_spatio_degenerate : forall lg rd strict fuel (micro : rarray (IA lg)) h th d0 d1 d2 root m v t0 q, r_cube micro d0 d1 d2 -> d2 <= 65535 -> r_tree h d0 root ->
  convertToMicroModel (IA lg) micro = Ok m -> dv3_of (IA lg) m (map (fun x => x - 1) h) = Ok v ->
  dq_compute (IA lg) (dq_ofValues (IA lg) v) = Ok (mkDQ (IA lg) (Some v) (Some t0) (dv_meta v)) ->
  mm_get t0 root 0 (d2 - 1) = Ok q -> (is_zero (gain q : f80) = true \/ gain q = B754_nan \/ is_zero (loss q : f80) = true \/ loss q = B754_nan) ->
  r_daggregate (IA lg) rd strict (S fuel) micro h th = UB.
Proof.
  intros lg rd strict fuel micro h th d0 d1 d2 root m v t0 q C Hn Tr Em Ev Ec Gq Hq.
  destruct (d_setup (IA lg) micro d0 d1 d2 h root C Hn Tr) as (m' & v' & t0' & t & q' & Em' & Ev' & Sh & Eo & W & El & Ep & Ero & Ehs & Ec' & En & (Lt0 & F0) & (Lt & Ft) & Gq' & Er0).
  rewrite Em in Em'. inversion Em'; subst m'. rewrite Ev in Ev'. inversion Ev'; subst v'. rewrite Ec in Ec'. inversion Ec'; subst t0'. rewrite Gq in Gq'. inversion Gq'; subst q'. clear Em' Ev' Ec' Gq'.
  pose proof C as (_ & H0 & H1 & H2 & _). rewrite <- Eo in Hn, H2, F0, Ft, Gq. rewrite <- Ero in Gq. rewrite <- Ehs in Lt0, Lt.
  destruct (d_normalize_prf (IA lg) v t0 _ q W ltac:(lia) Lt0 F0 Gq) as (t' & En' & Lt' & Ft' & Hc & _). rewrite En in En'. inversion En'; subst t'. clear En'.
  pose proof (root_node _ W) as Hr.
  pose proof (Hc (m_root (dv_meta v)) 0 (dv_osize v - 1) q ltac:(lia) ltac:(lia) ltac:(lia) Gq) as Gn.
  assert (N : forall p, exists x, d_best (IA lg) t (dv_meta v) p = Ok x /\ map (fun y => (dp_h y, dp_start y, dp_end y)) (dn_parts x) = [(m_root (dv_meta v), 0, dv_osize v - 1)]).
  { intro p. destruct (C50_spatio_normalized lg v t0 _ q W ltac:(lia) Lt0 F0 Gq Hq) as (t' & En' & K). rewrite En in En'. inversion En'; subst t'. apply K. }
  assert (One : forall p x, d_best (IA lg) t (dv_meta v) p = Ok x -> map (fun y => (dp_h y, dp_start y, dp_end y)) (dn_parts x) = [(m_root (dv_meta v), 0, dv_osize v - 1)] ->
    exists y : dpart (IA lg), dn_parts x = [y] /\ dp_h y = m_root (dv_meta v) /\ dp_start y = 0 /\ dp_end y = dv_osize v - 1 /\
      dp_size y = vlen (leavesof (m_leaves (dv_meta v)) (m_parents (dv_meta v)) (m_root (dv_meta v))) * (dv_osize v - 1 - 0 + 1)).
  { intros p x Ex K. destruct (d_cover_prf _ W (IA lg) t (dv_osize v) p ltac:(lia) Lt Ft) as (x' & Ex' & _ & _ & _ & Sx). rewrite Ex in Ex'. inversion Ex'; subst x'.
    destruct (dn_parts x) as [|y [|]] eqn:Ey; try discriminate. inversion K. exists y. split; auto. destruct (Sx y (or_introl eq_refl)) as [_ Sy].
    repeat (split; [auto|]). rewrite Sy. congruence. }
  destruct (N (p_zero (IA lg))) as (a & Ea & Ka). destruct (N (p_one (IA lg))) as (b & Eb & Kb).
  destruct (One _ a Ea Ka) as (ya & Pa & Ha & Sa & Fa & Za). destruct (One _ b Eb Kb) as (yb & Pb & Hb & Sb & Fb & Zb).
  rewrite Er0. unfold d_search.
  rewrite (search_flat (IA lg) (d_best (IA lg) t (dv_meta v)) dn_param (dn_eqb (IA lg)) dn_quality (d_tuples (IA lg)) strict fuel _ th _ _ a b Ea Eb); try (apply ltb_irr).
  2,3: unfold dn_eqb; rewrite Pa, Pb; cbn [forallb existsb]; unfold dpart_eqb; rewrite Ha, Hb, Sa, Sb, Fa, Fb, Za, Zb, !Z.eqb_refl; reflexivity.
  2: exact (zero_one lg).
  2: { destruct (p_ltb (IA lg) (p_one (IA lg)) (p_zero (IA lg))) eqn:E; [|reflexivity]. vm_compute in E. discriminate. }
  destruct strict; [reflexivity|]. cbn [bind]. apply frames_ub. cbn [ps_qual]. intros p q0 [E|[]]. injection E as _ <-. apply score_nf.
  destruct (d_quality_prf _ W (IA lg) t (dv_osize v) _ a ltac:(lia) Lt Ft Ea) as (Q1 & Q2 & Q3). rewrite Q2, Q3, Pa. cbn [map].
  pose proof (Q1 ya ltac:(rewrite Pa; left; auto)) as Q4. rewrite Ha, Sa, Fa, Gn in Q4. inversion Q4 as [Q5].
  cbn [gain loss]. destruct Hq as [Hq|[Hq|[Hq|Hq]]]; [left|left|right|right]; apply nf_fold; right; constructor; apply nf_div; unfold zn; auto.
Qed.
Print Assumptions C61_spatio_degenerate.

(** All values 0. *)
Theorem C61_spatio_zero : forall lg rd strict fuel (micro : rarray (IA lg)) h th d0 d1 d2 root, log_ok lg -> r_cube micro d0 d1 d2 -> d2 <= 65535 -> d2 * d0 <= 2147483647 -> r_tree h d0 root ->
  Forall (fun x : f80 => is_zero x = true) (ra_data micro) -> r_daggregate (IA lg) rd strict (S fuel) micro h th = UB.
Proof.
  intros lg rd strict fuel micro h th d0 d1 d2 root HL C Hn HM Tr HZ. pose proof Tr as Tr0. pose proof C as (_ & H0 & H1 & H2 & _).
  destruct (micro_prf (IA lg) micro d0 d1 d2 C) as (m & Em & Lm & R3 & G).
  destruct (d_setup (IA lg) micro d0 d1 d2 h root C Hn Tr) as (m' & v & t0 & t & q & Em' & Ev & Sh & Eo & W & El & Ep & Ero & Ehs & Ec & _ & _ & _ & Gq & _).
  rewrite Em in Em'. inversion Em'; subst m'. clear Em'.
  destruct (C46_spatio (IA lg) _ _ _ Sh) as [Ix Cv]. destruct Tr as (_ & _ & Hh).
  destruct (d_compute_all (IA lg) _ _ _ _ _ (zero_closed lg HL) v W ltac:(lia) ltac:(lia)) as (t0' & Ec' & f & R & HQ). { rewrite Eo, El. lia. }
  { intros k y Hk Hy. destruct (Cv k Hk) as (a & b & Ha & Hb & -> & _). destruct (Ix y a b Hy Ha Hb) as (_ & row & Er & Lr & Gr). exists row. split; [exact Er|].
    intros o Ho. destruct (vget_ok _ row o ltac:(lia)) as (x & Ex). exists x. split; [exact Ex|]. rewrite Gr in Ex.
    assert (Dm : dv_data v = DN3 (IA lg) m). { clear -Ev. unfold dv3_of in Ev. apply bind_ok in Ev. destruct Ev as (me & _ & E). inversion E. reflexivity. }
    unfold dv_get in Ex. rewrite Dm in Ex. destruct (G y a o ltac:(lia) ltac:(lia) ltac:(lia)) as (x' & E1 & E2). rewrite E1 in Ex. inversion Ex; subst x'.
    unfold r_at in E2. destruct (ra_dim micro) as [|? [|? [|? [|]]]]; try discriminate. apply (Forall_forall _ _) with (x := x) in HZ; auto. exact (vget_In _ _ _ _ E2). }
  rewrite Ec in Ec'. inversion Ec'; subst t0'.
  apply (C61_spatio_degenerate lg rd strict fuel micro h th d0 d1 d2 root m v t0 q); auto.
  left. rewrite <- Eo in Gq. pose proof (root_node _ W) as Hr. rewrite (mrepr_get _ _ _ _ _ root 0 (dv_osize v - 1) R) in Gq by lia. inversion Gq; subst q. apply (HQ root 0 (dv_osize v - 1)); lia.
Qed.
Print Assumptions C61_spatio_zero.

(** ** Hierarchical *)
(** If the computed gain or loss of the root is zero or NaN, haggregate never returns a result. *)
Theorem C61_hier_degenerate : forall lg rd (micro : rarray (IA lg)) h th d0 d1 d2 root m v t0 q, r_cube micro d0 d1 d2 -> r_tree h d0 root -> thr32 th ->
  convertToMicroModel (IA lg) micro = Ok m -> hv3_of (IA lg) m (map (fun x => x - 1) h) = Ok v ->
  hq_compute (IA lg) (hq_ofValues (IA lg) v) = Ok (mkHQ (IA lg) (Some v) (Some t0) (hv_meta v)) ->
  vget t0 root = Ok q -> (is_zero (gain q : f80) = true \/ gain q = B754_nan \/ is_zero (loss q : f80) = true \/ loss q = B754_nan) ->
  (forall fuel r, r_haggregate (IA lg) rd false fuel micro h th <> Ok r) /\ exists fuel, r_haggregate (IA lg) rd false fuel micro h th = UB.
Proof.
  intros lg rd micro h th d0 d1 d2 root m v t0 q C Tr T Em Ev Ec Gq Hq.
  destruct (h_setup (IA lg) micro d0 d1 d2 h root C Tr) as (m' & v' & t0' & t & q' & Em' & Ev' & Sh & W & El & Ep & Ero & Ehs & Ec' & En & Lt0 & Lt & Gq' & Er0).
  rewrite Em in Em'. inversion Em'; subst m'. rewrite Ev in Ev'. inversion Ev'; subst v'. rewrite Ec in Ec'. inversion Ec'; subst t0'. rewrite Gq in Gq'. inversion Gq'; subst q'. clear Em' Ev' Ec' Gq'.
  destruct Tr as (_ & _ & Hh). rewrite <- Ehs in Lt0, Lt, Hh. rewrite <- Ero in Gq.
  destruct (h_normalize_prf (IA lg) (Some v) t0 _ q W Lt0 Gq) as (t' & En' & _ & HA & HB). rewrite En in En'. inversion En'; subst t'. clear En'.
  destruct (C61_ieee_parameters lg th T) as (Irr & B & D0 & D1 & L01).
  assert (N : forall n x, vget t n = Ok x -> nf (gain x) \/ nf (loss x)).
  { intros n x Ex. pose proof (vget_inv _ _ _ _ Ex) as Hi. destruct (vget_ok _ t0 n ltac:(lia)) as (x0 & Ex0).
    destruct (Z_le_gt_dec n (m_root (hv_meta v))) as [L|L].
    - rewrite (HA n x0 ltac:(lia) Ex0) in Ex. inversion Ex; subst x. cbn [gain loss q_div]. destruct Hq as [Hq|[Hq|[Hq|Hq]]]; [left|left|right|right]; apply nf_div; unfold zn; auto.
    - rewrite (HB n x0 ltac:(lia) Ex0) in Ex. inversion Ex; subst x. cbn [gain loss q_div].
      destruct Hq as [Hq|[Hq|[Hq|Hq]]]; [left|left|right|right]; apply nf_div; right; apply (zn_div lg); unfold zn; auto. }
  assert (Nx : forall p x, h_best (IA lg) t (hv_meta v) p = Ok x -> n_leb (IA lg) (s_score (IA lg) (hn_quality x)) (n_ofZ (IA lg) RAND_MAX) = false).
  { intros p x Ex. apply score_nf. destruct (h_quality_prf _ W Hh (IA lg) t p x Lt Ex) as (Q1 & Q2 & Q3). rewrite Q2, Q3.
    destruct (h_cover_prf _ W Hh (IA lg) t p Lt) as (x' & Ex' & _ & Cx & _). rewrite Ex in Ex'. inversion Ex'; subst x'.
    destruct (hn_parts x) as [|y ys] eqn:Ey. { destruct Cx as (_ & _ & Cx). pose proof (wb_L _ W) as HL. destruct (Cx 0) as (n & Hn & _); [unfold leaf; lia|]. destruct Hn. }
    destruct (N _ _ (Q1 y (or_introl eq_refl))) as [K|K]; [left|right]; apply nf_fold; right; left; auto. }
  assert (U : forall fuel st, h_search (IA lg) false fuel t (hv_meta v) (ps_empty (IA lg)) th (p_zero (IA lg)) (p_one (IA lg)) = Ok st -> r_frames (IA lg) rd (h_row (IA lg) rd) st = UB).
  { intros fuel st Es. destruct (C30_hier _ W Hh (IA lg) t Lt unit32 th B fuel _ _ _ st D0 D1 L01 Es) as (_ & _ & _ & _ & _ & _ & Hl). apply frames_ub.
    intros p q0 Iq. destruct (Hl p q0 Iq) as (x & Ex & ->). apply (Nx p x Ex). }
  split.
  - intros fuel r E. rewrite Er0 in E. apply bind_ok in E. destruct E as (st & Es & Ef). rewrite (U fuel st Es) in Ef. discriminate.
  - destruct (C34_hier _ W Hh lg t Lt th _ _ T D0 D1) as (fuel & K). { rewrite p_one_IA, (proj1 one32_R). cbn. lra. }
    exists fuel. rewrite Er0. destruct (K (ps_empty (IA lg))) as (st & Es). rewrite Es. cbn [bind]. apply (U fuel st Es).
Qed.
Print Assumptions C61_hier_degenerate.

Theorem C61_hier_zero : forall lg rd (micro : rarray (IA lg)) h th d0 d1 d2 root, log_ok lg -> r_cube micro d0 d1 d2 -> d0 <= 2147483647 -> r_tree h d0 root -> thr32 th ->
  Forall (fun x : f80 => is_zero x = true) (ra_data micro) ->
  (forall fuel r, r_haggregate (IA lg) rd false fuel micro h th <> Ok r) /\ exists fuel, r_haggregate (IA lg) rd false fuel micro h th = UB.
Proof.
  intros lg rd micro h th d0 d1 d2 root HL C HM Tr T HZ. pose proof Tr as Tr0. pose proof C as (_ & H0 & H1 & H2 & _).
  destruct (micro_prf (IA lg) micro d0 d1 d2 C) as (m & Em & Lm & R3 & G).
  destruct (h_setup (IA lg) micro d0 d1 d2 h root C Tr) as (m' & v & t0 & t & q & Em' & Ev & Sh & W & El & Ep & Ero & Ehs & Ec & _ & _ & _ & Gq & _).
  rewrite Em in Em'. inversion Em'; subst m'. clear Em'.
  destruct (C46_hier (IA lg) _ _ _ _ Sh) as [Ix Cv]. destruct Tr as (_ & _ & Hh).
  destruct (h_compute_all (IA lg) _ _ _ _ _ (zero_closed lg HL) v W ltac:(lia) ltac:(lia)) as (t0' & Ec' & f & R & HQ).
  { intros k y Hk Hy. destruct (Cv k Hk) as (a & b & c & Ha & Hb & Hc & -> & _). destruct (Ix y a b c Ha Hb Hc) as (_ & ->).
    assert (Dm : hv_data v = HN3 (IA lg) (size2 m) (size3 m) m). { clear -Ev. unfold hv3_of in Ev. apply bind_ok in Ev. destruct Ev as (me & _ & E). inversion E. reflexivity. }
    unfold hv_get. rewrite Dm. destruct (G y a b ltac:(lia) ltac:(lia) ltac:(lia)) as (x & E1 & E2). exists x. split; [exact E1|].
    unfold r_at in E2. destruct (ra_dim micro) as [|? [|? [|? [|]]]]; try discriminate. apply (Forall_forall _ _) with (x := x) in HZ; auto. exact (vget_In _ _ _ _ E2). }
  rewrite Ec in Ec'. inversion Ec'; subst t0'. apply (C61_hier_degenerate lg rd micro h th d0 d1 d2 root m v t0 q); auto.
  left. pose proof (root_node _ W) as Hr. rewrite (vrepr_get _ _ _ _ root R) in Gq by lia. inversion Gq; subst q. apply (HQ root); lia.
Qed.
Print Assumptions C61_hier_zero.

(** ** When they do return: as soon as the partition at p = 0 has a score of at most RAND_MAX *)
(** (gain-1)^2 + loss^2 <= 2147483647, as computed. *)
Definition good_score lg (g l : f80) : Prop :=
  Bleb (Bplus mode_NE (Bmult mode_NE (Bminus mode_NE g (n_one (IA lg))) (Bminus mode_NE g (n_one (IA lg)))) (Bmult mode_NE l l)) (int80 2147483647) = true.

Lemma between_unit : forall p : f32, Bltb (B754_zero false) p = true -> Bltb p (int32 1) = true -> unit32 p.
Proof.
  intros p H1 H2. assert (F : is_finite p = true) by (destruct p as [| [] | |]; try discriminate; auto). split; auto. destruct one32_R as [E1 F1].
  apply ltb32 in H1; auto. apply ltb32 in H2; auto. rewrite E1 in H2. cbn in H1. lra.
Qed.
Lemma listed_unit : forall lg Pn Q (best : par (IA lg) -> res Pn) (qual : Pn -> Q) l ps qs, results_agree (IA lg) best qual (p_zero (IA lg)) (p_one (IA lg)) l ps qs -> Forall unit32 l.
Proof.
  intros lg Pn Q best qual l ps qs (_ & _ & H & _). apply Forall_forall. intros p Hp. destruct (H p Hp) as [->|[->|[H1 H2]]]; [exact unit_zero|exact unit_one|]. apply between_unit; auto.
Qed.

Theorem C61_ordered_defined : forall lg rd (micro : rarray (IA lg)) th d0 d1 d2 m o t x, r_cube micro d0 d1 d2 -> d2 <= 65535 -> thr32 th ->
  convertToMicroModel (IA lg) micro = Ok m -> oq_compute (IA lg) (oq_ofValues (IA lg) (ov3_of (IA lg) m)) = Ok o ->
  oq_normalize (IA lg) o = Ok (mkOQ (IA lg) (Some (ov3_of (IA lg) m)) (Some t)) -> o_best (IA lg) t (p_zero (IA lg)) = Ok x ->
  good_score lg (gain (on_quality x)) (loss (on_quality x)) -> exists fuel r, r_oaggregate (IA lg) rd false fuel micro th = Ok r.
Proof.
  intros lg rd micro th d0 d1 d2 m o t x C Hn T Em Eo Et Ex HS.
  destruct (o_setup (IA lg) micro d0 d1 d2 C Hn) as (m' & t0' & t' & q' & Em' & Sh & Ho & Ec' & En & St0 & St & Gq' & Er0). pose proof C as (_ & H0 & H1 & H2 & _).
  rewrite Em in Em'. inversion Em'; subst m'. rewrite Eo in Ec'. inversion Ec'; subst o. rewrite Et in En. inversion En; subst t'. clear Em' Ec' En.
  destruct (C61_ieee_parameters lg th T) as (Irr & B & D0 & D1 & L01).
  destruct (C34_ordered lg t d2 ltac:(lia) St th _ _ T D0 D1) as (fuel & K). { rewrite p_one_IA, (proj1 one32_R). cbn. lra. }
  destruct (K (ps_empty (IA lg))) as (st & Es). exists fuel. setoid_rewrite Er0. rewrite Es. cbn [bind].
  pose proof (C30_ordered (IA lg) t d2 ltac:(lia) St unit32 th B fuel _ _ _ st D0 D1 L01 Es) as Ag.
  apply (frames_defined (IA lg) (o_best (IA lg) t) on_quality (o_row (IA lg) rd) rd unit32 th _ _ st B Ag).
  - apply (listed_unit lg) with (1 := Ag).
  - destruct Ag as (_ & Hh & _ & _ & Kq & _ & Hq). assert (I0 : In (p_zero (IA lg)) (map fst (ps_qual st))).
    { rewrite Kq. destruct (ps_list st); [discriminate|]. inversion Hh. left. auto. }
    apply in_map_iff in I0. destruct I0 as ([p q] & E & I0). cbn in E. subst p. exists (B754_zero false), q. split; [exact I0|].
    destruct (Hq _ _ I0) as (x' & Ex' & ->). cbn [p_zero IA] in Ex. change (par (IA lg)) with f32 in *. rewrite Ex in Ex'. inversion Ex'; subst x'. exact HS.
Qed.
Print Assumptions C61_ordered_defined.

Theorem C61_hier_defined : forall lg rd (micro : rarray (IA lg)) h th d0 d1 d2 root m v o t x, r_cube micro d0 d1 d2 -> r_tree h d0 root -> thr32 th ->
  convertToMicroModel (IA lg) micro = Ok m -> hv3_of (IA lg) m (map (fun x => x - 1) h) = Ok v -> hq_compute (IA lg) (hq_ofValues (IA lg) v) = Ok o ->
  hq_normalize (IA lg) o = Ok (mkHQ (IA lg) (Some v) (Some t) (hv_meta v)) -> h_best (IA lg) t (hv_meta v) (p_zero (IA lg)) = Ok x ->
  good_score lg (gain (hn_quality x)) (loss (hn_quality x)) -> exists fuel r, r_haggregate (IA lg) rd false fuel micro h th = Ok r.
Proof.
  intros lg rd micro h th d0 d1 d2 root m v o t x C Tr T Em Ev Eo Et Ex HS.
  destruct (h_setup (IA lg) micro d0 d1 d2 h root C Tr) as (m' & v' & t0' & t' & q' & Em' & Ev' & Sh & W & El & Ep & Ero & Ehs & Ec' & En & Lt0 & Lt & Gq' & Er0).
  rewrite Em in Em'. inversion Em'; subst m'. rewrite Ev in Ev'. inversion Ev'; subst v'. rewrite Eo in Ec'. inversion Ec'; subst o. rewrite Et in En. inversion En; subst t'. clear Em' Ev' Ec' En.
  destruct Tr as (_ & _ & Hh). rewrite <- Ehs in Lt, Hh.
  destruct (C61_ieee_parameters lg th T) as (Irr & B & D0 & D1 & L01).
  destruct (C34_hier _ W Hh lg t Lt th _ _ T D0 D1) as (fuel & K). { rewrite p_one_IA, (proj1 one32_R). cbn. lra. }
  destruct (K (ps_empty (IA lg))) as (st & Es). exists fuel. setoid_rewrite Er0. rewrite Es. cbn [bind].
  pose proof (C30_hier _ W Hh (IA lg) t Lt unit32 th B fuel _ _ _ st D0 D1 L01 Es) as Ag.
  apply (frames_defined (IA lg) (h_best (IA lg) t (hv_meta v)) hn_quality (h_row (IA lg) rd) rd unit32 th _ _ st B Ag).
  - apply (listed_unit lg) with (1 := Ag).
  - destruct Ag as (_ & Hd & _ & _ & Kq & _ & Hq). assert (I0 : In (p_zero (IA lg)) (map fst (ps_qual st))).
    { rewrite Kq. destruct (ps_list st); [discriminate|]. inversion Hd. left. auto. }
    apply in_map_iff in I0. destruct I0 as ([p q] & E & I0). cbn in E. subst p. exists (B754_zero false), q. split; [exact I0|].
    destruct (Hq _ _ I0) as (x' & Ex' & ->). cbn [p_zero IA] in Ex. change (par (IA lg)) with f32 in *. rewrite Ex in Ex'. inversion Ex'; subst x'. exact HS.
Qed.
Print Assumptions C61_hier_defined.

Theorem C61_spatio_defined : forall lg rd (micro : rarray (IA lg)) h th d0 d1 d2 root m v o t x, r_cube micro d0 d1 d2 -> d2 <= 65535 -> r_tree h d0 root -> thr32 th ->
  convertToMicroModel (IA lg) micro = Ok m -> dv3_of (IA lg) m (map (fun x => x - 1) h) = Ok v -> dq_compute (IA lg) (dq_ofValues (IA lg) v) = Ok o ->
  dq_normalize (IA lg) o = Ok (mkDQ (IA lg) (Some v) (Some t) (dv_meta v)) -> d_best (IA lg) t (dv_meta v) (p_zero (IA lg)) = Ok x ->
  good_score lg (gain (dn_quality x)) (loss (dn_quality x)) -> exists fuel r, r_daggregate (IA lg) rd false fuel micro h th = Ok r.
Proof.
  intros lg rd micro h th d0 d1 d2 root m v o t x C Hn Tr T Em Ev Eo Et Ex HS.
  destruct (d_setup (IA lg) micro d0 d1 d2 h root C Hn Tr) as (m' & v' & t0' & t' & q' & Em' & Ev' & Sh & Eos & W & El & Ep & Ero & Ehs & Ec' & En & _ & (Lt & Ft) & Gq' & Er0).
  rewrite Em in Em'. inversion Em'; subst m'. rewrite Ev in Ev'. inversion Ev'; subst v'. rewrite Eo in Ec'. inversion Ec'; subst o. rewrite Et in En. inversion En; subst t'. clear Em' Ev' Ec' En.
  rewrite <- Ehs in Lt. destruct C as (_ & _ & _ & H2 & _). assert (Hn' : 1 <= d2 <= 65535) by lia.
  destruct (C61_ieee_parameters lg th T) as (Irr & B & D0 & D1 & L01).
  destruct (C34_spatio _ W lg t d2 Hn' Lt Ft th _ _ T D0 D1) as (fuel & K). { rewrite p_one_IA, (proj1 one32_R). cbn. lra. }
  destruct (K (ps_empty (IA lg))) as (st & Es). exists fuel. setoid_rewrite Er0. rewrite Es. cbn [bind].
  pose proof (C30_spatio _ W (IA lg) t d2 Hn' Lt Ft unit32 th B fuel _ _ _ st D0 D1 L01 Es) as Ag.
  apply (frames_defined (IA lg) (d_best (IA lg) t (dv_meta v)) dn_quality (d_row (IA lg) rd) rd unit32 th _ _ st B Ag).
  - apply (listed_unit lg) with (1 := Ag).
  - destruct Ag as (_ & Hd & _ & _ & Kq & _ & Hq). assert (I0 : In (p_zero (IA lg)) (map fst (ps_qual st))).
    { rewrite Kq. destruct (ps_list st); [discriminate|]. inversion Hd. left. auto. }
    apply in_map_iff in I0. destruct I0 as ([p q] & E & I0). cbn in E. subst p. exists (B754_zero false), q. split; [exact I0|].
    destruct (Hq _ _ I0) as (x' & Ex' & ->). cbn [p_zero IA] in Ex. change (par (IA lg)) with f32 in *. rewrite Ex in Ex'. inversion Ex'; subst x'. exact HS.
Qed.
Print Assumptions C61_spatio_defined.

(** ** Examples: whole runs of the three functions in the code's arithmetic, with x - 1 for the logarithm *)
Definition lin (x : f80) : f80 := Bminus mode_NE x (int80 1).
Definition rd64 (x : f80) : f80 := to80 (to64 x).
Definition ex61 (d c b a : Z) : rarray (IA lin) := @mkRArr (IA lin) [int80 d; int80 c; int80 b; int80 a] [2; 1; 2].
Definition th8 : f32 := Bdiv mode_NE (int32 1) (int32 8).
Definition outcome {X} (r : res X) : Z := match r with Ok _ => 0 | UB => 1 | OutOfFuel => 2 end.
Example C61_examples :
  outcome (r_oaggregate (IA lin) rd64 false 5 (ex61 1 1 1 0) th8) = 0 /\
  outcome (r_haggregate (IA lin) rd64 false 5 (ex61 1 1 1 0) [3; 3; 0] th8) = 0 /\
  outcome (r_daggregate (IA lin) rd64 false 5 (ex61 1 1 1 0) [3; 3; 0] th8) = 0 /\
  outcome (r_oaggregate (IA lin) rd64 false 5 (ex61 1 2 0 0) th8) = 1 /\
  outcome (r_haggregate (IA lin) rd64 false 5 (ex61 0 0 0 0) [3; 3; 0] th8) = 1 /\
  outcome (r_daggregate (IA lin) rd64 false 5 (ex61 0 0 0 0) [3; 3; 0] th8) = 1.
Proof. vm_compute. auto 10. Qed.

(** The hypotheses of C61_ordered_defined hold of the first example. *)
Example C61_nonvacuous : thr32 th8 /\ r_cube (ex61 1 1 1 0) 2 1 2 /\ r_tree [3; 3; 0] 2 2 /\
  (let* m := convertToMicroModel (IA lin) (ex61 1 1 1 0) in
   let* o := oq_compute (IA lin) (oq_ofValues (IA lin) (ov3_of (IA lin) m)) in
   let* o := oq_normalize (IA lin) o in
   match oq_table o with
   | Some t => let* x := o_best (IA lin) t (p_zero (IA lin)) in
       Ok (Bleb (Bplus mode_NE (Bmult mode_NE (Bminus mode_NE (gain (on_quality x)) (int80 1)) (Bminus mode_NE (gain (on_quality x)) (int80 1)))
                               (Bmult mode_NE (loss (on_quality x)) (loss (on_quality x)))) (int80 2147483647))
   | None => UB
   end) = Ok true.
Proof.
  split. { split; [reflexivity|]. replace (B2R th8) with (/ 8)%R; [rewrite bp_24; lra|]. unfold th8. cbn. unfold F2R. cbn. field. }
  split. { split; [reflexivity|]. cbn. lia. }
  split. { split; [apply valid_treeb_ok; reflexivity|]. split; [apply (uniformb_ok 1); reflexivity|]. cbn. lia. }
  vm_compute. reflexivity.
Qed.
Print Assumptions C61_nonvacuous.
