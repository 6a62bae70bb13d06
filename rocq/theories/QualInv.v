(** * Quality computation over any arithmetic: it never fails, and every class of numbers that is closed under its
    operations contains all results. *)
From Coq Require Import Lia Permutation.
From Verif Require Import Base BaseFacts Arith Quality Utm UtmFacts UtmProofs Hierarchy SpecTree TreeFacts Values Qualities TreePath CoverFacts.

Definition vall {X} (P : X -> Prop) (n : Z) (v : list X) : Prop := exists f, vrepr v n f /\ forall i, 0 <= i < n -> P (f i).
Definition mall {X} (P : X -> Prop) (H n : Z) (ms : list (utm X)) : Prop :=
  exists f, mrepr ms H n f /\ forall h i j, 0 <= h < H -> 0 <= i <= j -> j < n -> P (f h i j).

Lemma vall_get : forall X (P : X -> Prop) n v i, vall P n v -> 0 <= i < n -> exists x, vget v i = Ok x /\ P x.
Proof. intros X P n v i (f & R & H) Hi. exists (f i). split; auto. apply (vrepr_get _ _ _ _ _ R Hi). Qed.
Lemma vall_set : forall X (P : X -> Prop) n v i x, vall P n v -> 0 <= i < n -> P x -> exists v', vset v i x = Ok v' /\ vall P n v'.
Proof.
  intros X P n v i x (f & R & H) Hi Hx. destruct (vrepr_set _ _ _ _ i x R Hi) as (v' & E & R'). exists v'. split; auto.
  exists (fupd f i x). split; auto. intros k Hk. unfold fupd. destruct (k =? i); auto.
Qed.
Lemma vall_rep : forall X (P : X -> Prop) n x, 0 <= n -> P x -> vall P n (vrep n x).
Proof. intros X P n x Hn Hx. exists (fun _ => x). split; auto. apply vrepr_vrep; auto. Qed.

Lemma mall_get : forall X (P : X -> Prop) H n ms h i j, mall P H n ms -> 0 <= h < H -> 0 <= i <= j -> j < n -> exists x, mm_get ms h i j = Ok x /\ P x.
Proof. intros X P H n ms h i j (f & R & K) Hh Hi Hj. exists (f h i j). split; auto. apply (mrepr_get _ _ _ _ _ _ _ _ R Hh Hi Hj). Qed.
Lemma mall_set : forall X (P : X -> Prop) H n ms h i j x, mall P H n ms -> 0 <= h < H -> 0 <= i <= j -> j < n -> P x ->
  exists ms', mm_set ms h i j x = Ok ms' /\ mall P H n ms'.
Proof.
  intros X P H n ms h i j x (f & R & K) Hh Hi Hj Hx. destruct (mrepr_set _ _ _ _ _ h i j x R Hh Hi Hj) as (ms' & E & R'). exists ms'. split; auto.
  exists (fupd3 f h i j x). split; auto. intros c a b Hc Ha Hb. unfold fupd3. destruct ((c =? h) && ((a =? i) && (b =? j))); auto.
Qed.
Lemma mall_new : forall X (P : X -> Prop) H n x, 0 <= H -> 0 <= n <= 65535 -> P x -> mall P H n (vrep H (u_new n x)).
Proof. intros X P H n x HH Hn Hx. exists (fun _ _ _ => x). split; auto. apply mrepr_new; auto. Qed.

Lemma mfold_all : forall I S (f : I -> S -> res S) (Inv : S -> Prop) l s,
  (forall x s, In x l -> Inv s -> exists s', f x s = Ok s' /\ Inv s') -> Inv s -> exists s', mfold f l s = Ok s' /\ Inv s'.
Proof.
  intros I S f Inv l. induction l as [|x l IH]; intros s H Hs; cbn [mfold]; [eauto|].
  destruct (H x s (or_introl eq_refl) Hs) as (s' & E & Hs'). rewrite E. cbn [bind]. apply IH; auto. intros; apply H; auto. right; auto.
Qed.
Lemma for_up_all : forall S (body : Z -> S -> res S) (Inv : S -> Prop) a b s,
  (forall i s, a <= i < b -> Inv s -> exists s', body i s = Ok s' /\ Inv s') -> Inv s -> exists s', for_up a b body s = Ok s' /\ Inv s'.
Proof. intros S body Inv a b s H. apply mfold_all. intros x s' K. apply In_zrange in K. auto. Qed.
Lemma for_down_all : forall S (body : Z -> S -> res S) (Inv : S -> Prop) a b s,
  (forall i s, b <= i < a -> Inv s -> exists s', body i s = Ok s' /\ Inv s') -> Inv s -> exists s', for_down a b body s = Ok s' /\ Inv s'.
Proof. intros S body Inv a b s H. apply mfold_all. intros x s' K. apply in_rev, In_zrange in K. auto. Qed.

Lemma sizeof_range : forall m, well_built m -> forall h, 0 <= h < m_hsize m -> 1 <= m_sizeof m h <= m_leaves m.
Proof.
  intros m W h Hh. rewrite (size_leaves m W h Hh).
  pose proof (lv_nonempty m W h Hh) as N. pose proof (wb_L m W) as HL.
  assert (K : (length (leavesof (m_leaves m) (m_parents m) h) <= length (zrange 0 (m_leaves m)))%nat).
  { apply NoDup_incl_length; [apply NoDup_filter, NoDup_zrange|]. unfold leavesof. intros x Hx. apply filter_In in Hx. tauto. }
  rewrite zrange_length in K. unfold vlen. destruct (leavesof (m_leaves m) (m_parents m) h); [congruence|]. cbn [length] in *. lia.
Qed.

(** Classes: data [V], sums [S], informations [F], qualities [Q]; sizes from 1 to [M]. *)
Record closed (A : arith) (M : Z) (V S F : num A -> Prop) (Q : quality A -> Prop) : Prop := {
  cl_S0 : S (n_zero A);
  cl_F0 : F (n_zero A);
  cl_Q0 : Q (q_zero A);
  cl_V : forall x, V x -> S x;
  cl_S : forall x y, S x -> S y -> S (n_add A x y);
  cl_er : forall x, S x -> F (entropyReduction A x (n_zero A));
  cl_F : forall x y, F x -> F y -> F (n_add A x y);
  cl_Q : forall c s f k, 1 <= k <= M -> Q c -> S s -> F f -> Q (q_bump A c (entropyReduction A s f) (divergence A k s f))
}.

Lemma closed_True : forall A M, closed A M (fun _ => True) (fun _ => True) (fun _ => True) (fun _ => True).
Proof. intros. constructor; auto. Qed.

Ltac getv K H := destruct (vall_get _ _ _ _ _ H ltac:(lia)) as (? & K & ?); rewrite K; cbn [bind].

Section H.
Context (A : arith) (M : Z) (V S F : num A -> Prop) (Q : quality A -> Prop) (CL : closed A M V S F Q).
Context (m : meta) (W : well_built m) (H2 : 2 <= m_hsize m).
Notation hsize := (m_hsize m).
Notation L := (m_leaves m).
Context (HM : L <= M).
Context (v : hvalues A) (k : Z).
Context (Hv : forall h, 0 <= h < L -> exists x, hv_value v h k = Ok x /\ V x).

Lemma hq_leaf_all : forall y st, 0 <= y < L -> (vall S hsize (fst st) /\ vall F hsize (snd st)) ->
  exists st', hq_leaf A v m k y st = Ok st' /\ (vall S hsize (fst st') /\ vall F hsize (snd st')).
Proof.
  intros y [sum info] Hy [RS RF]. cbn [fst snd] in *. pose proof (wb_L m W) as HL. pose proof (wb_root_inner m W H2) as HR.
  destruct (parent_range m W y ltac:(lia) ltac:(lia)) as (Rp & Ep & _). unfold hq_leaf.
  destruct (Hv y Hy) as (x & Ex & Vx). rewrite Ex. cbn [bind].
  destruct (vall_set _ _ _ _ y x RS ltac:(lia) (cl_V _ _ _ _ _ _ CL x Vx)) as (s1 & E1 & R1). rewrite E1. cbn [bind]. rewrite Ep. cbn [bind].
  destruct (vall_get _ _ _ _ (parent (m_parents m) y) R1 ltac:(lia)) as (a & Ea & Sa). rewrite Ea. cbn [bind].
  destruct (vall_get _ _ _ _ y R1 ltac:(lia)) as (b & Eb & Sb). rewrite Eb. cbn [bind].
  destruct (vall_set _ _ _ _ (parent (m_parents m) y) (n_add A a b) R1 ltac:(lia) (cl_S _ _ _ _ _ _ CL a b Sa Sb)) as (s2 & E2 & R2). rewrite E2. cbn [bind].
  destruct (vall_get _ _ _ _ y R2 ltac:(lia)) as (c & Ec & Sc). rewrite Ec. cbn [bind].
  destruct (vall_set _ _ _ _ y _ RF ltac:(lia) (cl_er _ _ _ _ _ _ CL c Sc)) as (f1 & E3 & T1). rewrite E3. cbn [bind].
  destruct (vall_get _ _ _ _ (parent (m_parents m) y) T1 ltac:(lia)) as (d & Ed & Fd). rewrite Ed. cbn [bind].
  destruct (vall_get _ _ _ _ y T1 ltac:(lia)) as (e & Ee & Fe). rewrite Ee. cbn [bind].
  destruct (vall_set _ _ _ _ (parent (m_parents m) y) (n_add A d e) T1 ltac:(lia) (cl_F _ _ _ _ _ _ CL d e Fd Fe)) as (f2 & E4 & T2). rewrite E4. cbn [bind].
  eexists; split; [reflexivity|]. auto.
Qed.

Lemma hq_update_all : forall y sum info q, 0 <= y < hsize -> vall S hsize sum -> vall F hsize info -> vall Q hsize q ->
  exists q', hq_update A m sum info y q = Ok q' /\ vall Q hsize q'.
Proof.
  intros y sum info q Hy RS RF RQ. unfold hq_update. pose proof (sizeof_range m W y Hy) as Z1.
  destruct (vall_get _ _ _ _ y RS ltac:(lia)) as (a & Ea & Sa). rewrite Ea. cbn [bind].
  destruct (vall_get _ _ _ _ y RF ltac:(lia)) as (b & Eb & Fb). rewrite Eb. cbn [bind].
  destruct (vall_get _ _ _ _ y RQ ltac:(lia)) as (c & Ec & Qc). rewrite Ec. cbn [bind].
  apply vall_set; auto. apply (cl_Q _ _ _ _ _ _ CL); auto. lia.
Qed.

Definition hall (st : list (num A) * list (num A) * list (quality A)) : Prop :=
  vall S hsize (fst (fst st)) /\ vall F hsize (snd (fst st)) /\ vall Q hsize (snd st).

Lemma hq_node_all : forall y st, L <= y < hsize -> y <> m_root m -> hall st -> exists st', hq_node A m y st = Ok st' /\ hall st'.
Proof.
  intros y [[sum info] q] Hy D (RS & RF & RQ). cbn [fst snd] in *. pose proof (wb_L m W) as HL.
  destruct (parent_range m W y ltac:(lia) D) as (Rp & Ep & _). unfold hq_node. rewrite Ep. cbn [bind].
  destruct (vall_get _ _ _ _ (parent (m_parents m) y) RS ltac:(lia)) as (a & Ea & Sa). rewrite Ea. cbn [bind].
  destruct (vall_get _ _ _ _ y RS ltac:(lia)) as (b & Eb & Sb). rewrite Eb. cbn [bind].
  destruct (vall_set _ _ _ _ (parent (m_parents m) y) (n_add A a b) RS ltac:(lia) (cl_S _ _ _ _ _ _ CL a b Sa Sb)) as (s2 & E2 & R2). rewrite E2. cbn [bind].
  destruct (vall_get _ _ _ _ (parent (m_parents m) y) RF ltac:(lia)) as (d & Ed & Fd). rewrite Ed. cbn [bind].
  destruct (vall_get _ _ _ _ y RF ltac:(lia)) as (e & Ee & Fe). rewrite Ee. cbn [bind].
  destruct (vall_set _ _ _ _ (parent (m_parents m) y) (n_add A d e) RF ltac:(lia) (cl_F _ _ _ _ _ _ CL d e Fd Fe)) as (f2 & E4 & T2). rewrite E4. cbn [bind].
  destruct (hq_update_all y s2 f2 q ltac:(lia) R2 T2 RQ) as (q' & E5 & R5). rewrite E5. cbn [bind]. eexists; split; [reflexivity|]. repeat split; auto.
Qed.

Lemma hq_component_all : forall q, vall Q hsize q -> exists q', hq_component A v m k q = Ok q' /\ vall Q hsize q'.
Proof.
  intros q RQ. pose proof (wb_L m W) as HL. unfold hq_component. rewrite (leaf_loop m W) by auto.
  destruct (mfold_all _ _ (hq_leaf A v m k) (fun st => vall S hsize (fst st) /\ vall F hsize (snd st)) (zrange 0 L) (vrep hsize (n_zero A), vrep hsize (n_zero A)))
    as ([sum info] & E1 & R1 & R2).
  { intros y st Hy. apply In_zrange in Hy. apply hq_leaf_all; auto. }
  { cbn [fst snd]. split; apply vall_rep; try lia; apply CL. }
  rewrite E1. cbn [bind]. rewrite (mid_loop m W) by auto. cbn [fst snd] in *.
  destruct (mfold_all _ _ (hq_node A m) hall (mid m) (sum, info, q)) as ([[s2 f2] q2] & E2 & (J1 & J2 & J3)).
  { intros y st Hy. destruct (mid_inner m W y H2 Hy). apply hq_node_all; auto. }
  { repeat split; auto. }
  rewrite E2. cbn [bind fst snd] in *. apply hq_update_all; auto. apply root_node; auto.
Qed.
End H.

Lemma h_compute_all : forall A M V S F Q, closed A M V S F Q -> forall (v : hvalues A), well_built (hv_meta v) -> 2 <= m_hsize (hv_meta v) -> m_leaves (hv_meta v) <= M ->
  (forall k h, 0 <= k < hv_vsize v -> 0 <= h < m_leaves (hv_meta v) -> exists x, hv_value v h k = Ok x /\ V x) ->
  exists t, hq_compute A (hq_ofValues A v) = Ok (mkHQ A (Some v) (Some t) (hv_meta v)) /\ vall Q (m_hsize (hv_meta v)) t.
Proof.
  intros A M V S F Q CL v W H2 HM Hv. unfold hq_compute, hq_ofValues, hq_computeTable. cbn [hq_values hq_meta].
  pose proof (wb_L _ W) as HL.
  destruct (for_up_all _ (hq_component A v (hv_meta v)) (vall Q (m_hsize (hv_meta v))) 0 (hv_vsize v) (vrep (m_hsize (hv_meta v)) (q_zero A))) as (t & E & R).
  - intros k q Hk. apply (hq_component_all A M V S F Q CL _ W H2 HM v k). intros h. apply Hv; auto.
  - apply vall_rep; [lia|apply CL].
  - rewrite E. cbn [bind]. exists t; auto.
Qed.

(** ** Spatiotemporal *)
Section D.
Context (A : arith) (M : Z) (V S F : num A -> Prop) (Q : quality A -> Prop) (CL : closed A M V S F Q).
Context (m : meta) (W : well_built m) (H2 : 2 <= m_hsize m).
Notation hsize := (m_hsize m).
Notation L := (m_leaves m).
Context (n : Z) (Hn : 0 <= n <= 65535) (HM : n * L <= M).
Context (v : dvalues A) (k : Z).
Context (Hv : forall h, 0 <= h < L -> exists r, dv_row v h k = Ok r /\ forall i, 0 <= i < n -> exists x, vget r i = Ok x /\ V x).

Definition dall (st : dq_state A) : Prop :=
  mall S hsize n (fst (fst st)) /\ mall F hsize n (snd (fst st)) /\ mall Q hsize n (snd st).

Lemma toParent_all : forall y i j sum info, 0 <= y < hsize -> y <> m_root m -> 0 <= i <= j -> j < n -> mall S hsize n sum -> mall F hsize n info ->
  exists s' f', dq_toParent A m y i j sum info = Ok (s', f') /\ mall S hsize n s' /\ mall F hsize n f'.
Proof.
  intros y i j sum info Hy D Hi Hj RS RF. destruct (parent_range m W y Hy D) as (Rp & Ep & _). pose proof (wb_L m W) as HL.
  unfold dq_toParent, mm_addto. rewrite Ep. cbn [bind].
  destruct (mall_get _ _ _ _ _ y i j RS ltac:(lia) Hi Hj) as (a & Ea & Sa). rewrite Ea. cbn [bind].
  destruct (mall_get _ _ _ _ _ (parent (m_parents m) y) i j RS ltac:(lia) Hi Hj) as (b & Eb & Sb). rewrite Eb. cbn [bind].
  destruct (mall_set _ _ _ _ _ (parent (m_parents m) y) i j (n_add A b a) RS ltac:(lia) Hi Hj (cl_S _ _ _ _ _ _ CL _ _ Sb Sa)) as (s2 & E2 & R2). rewrite E2. cbn [bind].
  destruct (mall_get _ _ _ _ _ y i j RF ltac:(lia) Hi Hj) as (c & Ec & Fc). rewrite Ec. cbn [bind].
  destruct (mall_get _ _ _ _ _ (parent (m_parents m) y) i j RF ltac:(lia) Hi Hj) as (d & Ed & Fd). rewrite Ed. cbn [bind].
  destruct (mall_set _ _ _ _ _ (parent (m_parents m) y) i j (n_add A d c) RF ltac:(lia) Hi Hj (cl_F _ _ _ _ _ _ CL _ _ Fd Fc)) as (f2 & E4 & T2). rewrite E4. cbn [bind].
  exists s2, f2. auto.
Qed.

Lemma dupdate_all : forall y i j N sum info q, 0 <= y < hsize -> 0 <= i <= j -> j < n -> 1 <= N <= M -> mall S hsize n sum -> mall F hsize n info -> mall Q hsize n q ->
  exists q', dq_update A sum info N y i j q = Ok q' /\ mall Q hsize n q'.
Proof.
  intros y i j N sum info q Hy Hi Hj HN RS RF RQ. unfold dq_update.
  destruct (mall_get _ _ _ _ _ y i j RS ltac:(lia) Hi Hj) as (a & Ea & Sa). rewrite Ea. cbn [bind].
  destruct (mall_get _ _ _ _ _ y i j RF ltac:(lia) Hi Hj) as (b & Eb & Fb). rewrite Eb. cbn [bind].
  destruct (mall_get _ _ _ _ _ y i j RQ ltac:(lia) Hi Hj) as (c & Ec & Qc). rewrite Ec. cbn [bind].
  apply mall_set; auto. apply (cl_Q _ _ _ _ _ _ CL); auto.
Qed.

Lemma leaf_all : forall y st, 0 <= y < L -> dall st -> exists st', dq_leaf A v m n k y st = Ok st' /\ dall st'.
Proof.
  intros y st Hy I. pose proof (wb_L m W) as HL. pose proof (wb_root_inner m W H2) as HR.
  unfold dq_leaf. apply for_down_all; auto. clear st I. intros i [[sum info] q] Hi (RS & RF & RQ). cbn [fst snd] in *. unfold dq_leafLine.
  destruct (Hv y Hy) as (r & Er & Hr). rewrite Er. cbn [bind]. destruct (Hr i Hi) as (x & Ex & Vx). rewrite Ex. cbn [bind].
  destruct (mall_set _ _ _ _ _ y i i x RS ltac:(lia) ltac:(lia) ltac:(lia) (cl_V _ _ _ _ _ _ CL _ Vx)) as (s1 & E1 & R1). rewrite E1. cbn [bind].
  destruct (mall_set _ _ _ _ _ y i i _ RF ltac:(lia) ltac:(lia) ltac:(lia) (cl_er _ _ _ _ _ _ CL _ (cl_V _ _ _ _ _ _ CL _ Vx))) as (f1 & E2 & T1). rewrite E2. cbn [bind].
  destruct (toParent_all y i i s1 f1 ltac:(lia) ltac:(lia) ltac:(lia) ltac:(lia) R1 T1) as (s2 & f2 & E3 & R2 & T2). rewrite E3. cbn [bind].
  apply for_up_all; [|repeat split; auto]. clear - CL W H2 Hn HM Hy Hi HL HR. intros j [[sum info] q] Hj (RS & RF & RQ). cbn [fst snd] in *. unfold dq_leafCell.
  destruct (mall_get _ _ _ _ _ y (i + 1) j RS ltac:(lia) ltac:(lia) ltac:(lia)) as (a & Ea & Sa). rewrite Ea. cbn [bind].
  destruct (mall_get _ _ _ _ _ y i i RS ltac:(lia) ltac:(lia) ltac:(lia)) as (b & Eb & Sb). rewrite Eb. cbn [bind].
  destruct (mall_set _ _ _ _ _ y i j (n_add A a b) RS ltac:(lia) ltac:(lia) ltac:(lia) (cl_S _ _ _ _ _ _ CL _ _ Sa Sb)) as (s1 & E1 & R1). rewrite E1. cbn [bind].
  destruct (mall_get _ _ _ _ _ y (i + 1) j RF ltac:(lia) ltac:(lia) ltac:(lia)) as (c & Ec & Fc). rewrite Ec. cbn [bind].
  destruct (mall_get _ _ _ _ _ y i i RF ltac:(lia) ltac:(lia) ltac:(lia)) as (d & Ed & Fd). rewrite Ed. cbn [bind].
  destruct (mall_set _ _ _ _ _ y i j (n_add A c d) RF ltac:(lia) ltac:(lia) ltac:(lia) (cl_F _ _ _ _ _ _ CL _ _ Fc Fd)) as (f1 & E2 & T1). rewrite E2. cbn [bind].
  destruct (dupdate_all y i j (j - i + 1) s1 f1 q ltac:(lia) ltac:(lia) ltac:(lia) ltac:(nia) R1 T1 RQ) as (q' & E3 & Q3). rewrite E3. cbn [bind].
  destruct (toParent_all y i j s1 f1 ltac:(lia) ltac:(lia) ltac:(lia) ltac:(lia) R1 T1) as (s2 & f2 & E4 & R2 & T2). rewrite E4. cbn [bind].
  eexists; split; [reflexivity|]. repeat split; auto.
Qed.

Lemma size_prod : forall y i j, 0 <= y < hsize -> 0 <= i <= j -> j < n -> 1 <= (j - i + 1) * m_sizeof m y <= M.
Proof. intros y i j Hy Hi Hj. pose proof (sizeof_range m W y Hy). nia. Qed.

Lemma node_all : forall y st, L <= y < hsize -> y <> m_root m -> dall st -> exists st', dq_node A m n y st = Ok st' /\ dall st'.
Proof.
  intros y st Hy D I. pose proof (wb_L m W) as HL. unfold dq_node. apply for_down_all; auto. clear st I. intros i st Hi I. apply for_up_all; auto. clear st I.
  intros j [[sum info] q] Hj (RS & RF & RQ). cbn [fst snd] in *. unfold dq_nodeCell.
  destruct (dupdate_all y i j ((j - i + 1) * m_sizeof m y) sum info q ltac:(lia) ltac:(lia) ltac:(lia) (size_prod y i j ltac:(lia) ltac:(lia) ltac:(lia)) RS RF RQ) as (q' & E3 & Q3).
  rewrite E3. cbn [bind].
  destruct (toParent_all y i j sum info ltac:(lia) ltac:(lia) ltac:(lia) ltac:(lia) RS RF) as (s2 & f2 & E4 & R2 & T2). rewrite E4. cbn [bind].
  eexists; split; [reflexivity|]. repeat split; auto.
Qed.

Lemma root_all : forall st, dall st -> exists st', dq_root A m n (m_root m) st = Ok st' /\ dall st'.
Proof.
  intros st I. pose proof (root_node m W) as Hr. unfold dq_root. apply for_down_all; auto. clear st I. intros i st Hi I. apply for_up_all; auto. clear st I.
  intros j [[sum info] q] Hj (RS & RF & RQ). cbn [fst snd] in *.
  destruct (dupdate_all (m_root m) i j ((j - i + 1) * m_sizeof m (m_root m)) sum info q ltac:(lia) ltac:(lia) ltac:(lia) (size_prod (m_root m) i j ltac:(lia) ltac:(lia) ltac:(lia)) RS RF RQ) as (q' & E3 & Q3).
  rewrite E3. cbn [bind]. eexists; split; [reflexivity|]. repeat split; auto.
Qed.

Lemma dq_component_all : forall q, dv_osize v = n -> mall Q hsize n q -> exists q', dq_component A v m k q = Ok q' /\ mall Q hsize n q'.
Proof.
  intros q En RQ. pose proof (wb_L m W) as HL. unfold dq_component. rewrite En. rewrite (leaf_loop m W) by auto.
  destruct (mfold_all _ _ (dq_leaf A v m n k) dall (zrange 0 L) (vrep hsize (u_new n (n_zero A)), vrep hsize (u_new n (n_zero A)), q)) as (st & E1 & I1).
  { intros y st Hy. apply In_zrange in Hy. apply leaf_all; auto. }
  { repeat split; cbn [fst snd]; auto; apply mall_new; try lia; apply CL. }
  rewrite E1. cbn [bind]. rewrite (mid_loop m W) by auto. cbn [fst snd].
  destruct (mfold_all _ _ (dq_node A m n) dall (mid m) st) as (st2 & E2 & I2).
  { intros y s Hy. destruct (mid_inner m W y H2 Hy). apply node_all; auto. }
  { auto. }
  rewrite E2. cbn [bind fst snd]. destruct (root_all st2 I2) as (st3 & E3 & I3). rewrite E3. cbn [bind]. exists (snd st3). split; auto. apply I3.
Qed.
End D.

Lemma d_compute_all : forall A M V S F Q, closed A M V S F Q -> forall (v : dvalues A), well_built (dv_meta v) -> 2 <= m_hsize (dv_meta v) ->
  0 <= dv_osize v <= 65535 -> dv_osize v * m_leaves (dv_meta v) <= M ->
  (forall k h, 0 <= k < dv_vsize v -> 0 <= h < m_leaves (dv_meta v) ->
     exists r, dv_row v h k = Ok r /\ forall i, 0 <= i < dv_osize v -> exists x, vget r i = Ok x /\ V x) ->
  exists t, dq_compute A (dq_ofValues A v) = Ok (mkDQ A (Some v) (Some t) (dv_meta v)) /\ mall Q (m_hsize (dv_meta v)) (dv_osize v) t.
Proof.
  intros A M V S F Q CL v W H2 Hn HM Hv. unfold dq_compute, dq_ofValues, dq_computeTable. cbn [dq_values dq_meta]. pose proof (wb_L _ W) as HL.
  destruct (for_up_all _ (dq_component A v (dv_meta v)) (mall Q (m_hsize (dv_meta v)) (dv_osize v)) 0 (dv_vsize v)
     (vrep (m_hsize (dv_meta v)) (u_new (dv_osize v) (q_zero A)))) as (t & E & R).
  - intros k q Hk. apply (dq_component_all A M V S F Q CL _ W H2 _ Hn HM v k); auto.
  - apply mall_new; [lia|auto|apply CL].
  - rewrite E. cbn [bind]. exists t; auto.
Qed.
