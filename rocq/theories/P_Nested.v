(** * Property C90: as p grows, hierarchical partitions only get coarser - and ordered and spatiotemporal ones do not.

    [superadditive t m] (SpecOverlap): the gain and the loss of a node are at least the sums of those of its children; true of
    the table of any non-negative data (C12, htable_super). [OReal.plt P p1 p2]: the gain weight grows strictly and the loss weight,
    positive at p1, does not grow. *)
From Coq Require Import Reals Lra Lia Permutation Sorting.Sorted.
From Verif Require Import Base BaseFacts Arith Quality Utm UtmFacts UtmProofs Hierarchy HierarchyFacts SpecTree SpecParts SpecInfo SpecData SpecShape SpecOverlap SpecSearch Values Qualities Partitions Partitioners Search
  TreeFacts TreePath LexR HFacts CoverFacts InfoFacts HReal OReal HProofs HQual DataFacts DataCons HDataProofs SearchReal SearchInst P_Search P_Ordered P_OrderedData P_HierData P_SpatioNot P_Shape P_Overlap P_Overlap2.

Section N.
Context (P : params).
Notation A := (RP P).
Context (m : meta).
Hypothesis W : well_built m.
Hypothesis H2 : 2 <= m_hsize m.
Context (t : list (quality A)) (q : Z -> quality A).
Hypothesis Rq : vrepr t (m_hsize m) q.
Hypothesis Su : superadditive t m.
Notation hdecs p T G := (forall h, 0 <= h < m_hsize m -> (T h, G h) = hdec A m q p T h).

(** A node kept at p is kept at every larger p'. *)
Lemma kept : forall p p' T G T' G', OReal.plt P p p' -> hdecs p T G -> hdecs p' T' G' -> forall h, 0 <= h < m_hsize m -> G h = true -> G' h = true.
Proof.
  intros p p' T G T' G' ((Q1 & Q2) & (Q3 & Q4) & Q5) H H' h Hh EG. destruct (G' h) eqn:EG'; [reflexivity|exfalso].
  destruct (h_split P m q p' T' G' H' h Hh EG') as (Hl & Lt & _).
  destruct (under_all P m W t q Rq Su p' T' G' H' h Hh) as [U1 U2].
  pose proof (hT P m W H2 q p' T' G' H' h Hh) as ET. rewrite ET in U1, U2, Lt. rewrite tset_quality in U1, U2.
  pose proof (hopt P m W H2 q p T G H h Hh _ (hsel_cover P m W H2 q p' T' G' H' h Hh)) as O.
  destruct (h_keep P m W q p T G H h ltac:(lia) EG) as [EK _]. rewrite EK in O. unfold hval in O. rewrite !tset_val in Lt, O.
  set (S := hq P q (hsel m G' h)) in *. set (a := pp_num P p) in *. set (a' := pp_num P p') in *. set (b := pp_num P (pp_compl P p)) in *. set (b' := pp_num P (pp_compl P p')) in *.
  change (num A) with R in *.
  assert (K1 : (0 <= (a' - a) * (gain (q h) - gain S))%R) by (apply Rmult_le_pos; lra).
  assert (K2 : (0 <= (b - b') * (loss (q h) - loss S))%R) by (apply Rmult_le_pos; lra). lra.
Qed.

Lemma nested_sel : forall p p' T G T' G', OReal.plt P p p' -> hdecs p T G -> hdecs p' T' G' ->
  forall h, 0 <= h < m_hsize m -> forall y, In y (hsel m G h) -> exists z, In z (hsel m G' h) /\ below (m_parents m) y z.
Proof.
  intros p p' T G T' G' L H H'. apply (tree_ind m W (fun h => forall y, In y (hsel m G h) -> exists z, In z (hsel m G' h) /\ below (m_parents m) y z)).
  intros h Hh IH y Hy. rewrite (hsel_eq m W H2 G') by exact Hh. destruct (G' h) eqn:EG'.
  - exists h. split; [left; reflexivity|]. apply (hsel_cover P m W H2 q p T G H h Hh). exact Hy.
  - rewrite (hsel_eq m W H2 G) in Hy by exact Hh. destruct (G h) eqn:EG; [rewrite (kept p p' T G T' G' L H H' h Hh EG) in EG'; discriminate|].
    apply in_flat_map in Hy. destruct Hy as (c & Ic & Hy). destruct (IH c Ic y Hy) as (z & Iz & B). exists z. split; [apply in_flat_map; eauto|exact B].
Qed.

(** Inner nodes that are split. *)
Definition nsplit (G : Z -> bool) : nat := length (filter (fun h => negb (G h)) (zrange (m_leaves m) (m_hsize m))).
Lemma filter_le : forall X (f g : X -> bool) l, (forall x, In x l -> f x = true -> g x = true) ->
  (length (filter f l) <= length (filter g l))%nat /\ (length (filter f l) = length (filter g l) -> forall x, In x l -> f x = g x).
Proof.
  intros X f g l. induction l as [|a l IH]; intro H; [split; [reflexivity|intros _ x []]|]. destruct IH as [I1 I2]; [intros; apply H; [right; assumption|assumption]|].
  cbn [filter]. pose proof (H a (or_introl eq_refl)) as Ha. destruct (f a) eqn:Ef, (g a) eqn:Eg; cbn [length]; try (specialize (Ha eq_refl); discriminate); (split; [lia|]); intros E x Hx.
  - destruct Hx as [<-|Hx]; [congruence|]. apply I2; [lia|assumption].
  - lia.
  - destruct Hx as [<-|Hx]; [congruence|]. apply I2; assumption.
Qed.
Lemma hsel_ext : forall G G', (forall h, 0 <= h < m_hsize m -> G h = G' h) -> forall h, 0 <= h < m_hsize m -> hsel m G h = hsel m G' h.
Proof.
  intros G G' E. apply (tree_ind m W (fun h => hsel m G h = hsel m G' h)). intros h Hh IH. rewrite !(hsel_eq m W H2) by exact Hh. rewrite E by exact Hh. destruct (G' h); [reflexivity|].
  apply flat_map_ext_in. exact IH.
Qed.
Lemma split_less : forall p p' T G T' G', OReal.plt P p p' -> hdecs p T G -> hdecs p' T' G' -> hsel m G (m_root m) <> hsel m G' (m_root m) -> (nsplit G' < nsplit G)%nat.
Proof.
  intros p p' T G T' G' L H H' D. unfold nsplit. pose proof (wb_L m W) as HL.
  destruct (filter_le _ (fun h => negb (G' h)) (fun h => negb (G h)) (zrange (m_leaves m) (m_hsize m))) as [K1 K2].
  { intros h Hh K. apply In_zrange in Hh. destruct (G h) eqn:EG; [|reflexivity]. rewrite (kept p p' T G T' G' L H H' h ltac:(lia) EG) in K. discriminate. }
  destruct (Nat.eq_dec (length (filter (fun h => negb (G' h)) (zrange (m_leaves m) (m_hsize m)))) (length (filter (fun h => negb (G h)) (zrange (m_leaves m) (m_hsize m))))) as [E|]; [|lia].
  exfalso. apply D. apply hsel_ext; [|apply (root_node m W)]. intros h Hh. destruct (Z_lt_le_dec h (m_leaves m)) as [Hl|Hl].
  - rewrite (G_leaf P m W q p T G H h ltac:(lia)), (G_leaf P m W q p' T' G' H' h ltac:(lia)). reflexivity.
  - specialize (K2 E h ltac:(apply In_zrange; lia)). destruct (G h), (G' h); cbn in K2; congruence.
Qed.
End N.

(** ** Hierarchical partitions are nested. *)
Theorem C90_hier : forall P m (t : list (quality (RP P))) p1 p2 x1 x2, well_built m -> 2 <= m_hsize m -> vlen t = m_hsize m -> superadditive t m -> OReal.plt P p1 p2 ->
  h_best (RP P) t m p1 = Ok x1 -> h_best (RP P) t m p2 = Ok x2 ->
  forall y, In y (hn_parts x1) -> exists z, In z (hn_parts x2) /\ below (m_parents m) (hp_h y) (hp_h z).
Proof.
  intros P m t p1 p2 x1 x2 W H2 Lt Su L E1 E2 y Hy. pose proof (list_vrepr _ t _ (q_zero (RP P)) Lt) as R.
  destruct (h_best_ok _ m W H2 t _ p1 R) as (y1 & T & G & E & Ep & _ & _ & HG). rewrite E in E1. injection E1 as ->.
  destruct (h_best_ok _ m W H2 t _ p2 R) as (y2 & T' & G' & E' & Ep' & _ & _ & HG'). rewrite E' in E2. injection E2 as ->.
  rewrite Ep in Hy. apply in_map_iff in Hy. destruct Hy as (h & <- & Hh).
  destruct (nested_sel P m W H2 t _ R Su p1 p2 T G T' G' L HG HG' (m_root m) (root_node m W) h Hh) as (z & Iz & B).
  exists (mkhpart (RP P) m (fun i => match vget t i with Ok x => x | _ => q_zero (RP P) end) z). split; [rewrite Ep'; apply in_map; exact Iz|exact B].
Qed.
Print Assumptions C90_hier.

(** With real parameters, and from the data on. *)
Theorem C90_hier_data : forall (d : list (list R)) ps r (p1 p2 : R), valid_tree (vlen d) ps r -> uniform_depth (vlen d) ps r -> 2 <= vlen ps -> rect2 d (size2 d) -> Forall nonneg d -> (0 <= p1 < p2)%R -> (p2 <= 1)%R ->
  exists t m x1 x2, h_table RA (hv2_of RA d ps) = Ok (Some t, m) /\ h_best RA t m p1 = Ok x1 /\ h_best RA t m p2 = Ok x2 /\
    (forall y, In y (hn_parts x1) -> exists z, In z (hn_parts x2) /\ below ps (hp_h y) (hp_h z)).
Proof.
  intros d ps r p1 p2 V U H2 Rd NN [K0 K1] K2. change RA with (RP Rpar). destruct (hv2_data Rpar ps r H2 d V U Rd) as (v & Ev & (M1 & M2 & M3) & D).
  destruct (h_compute_prf Rpar v _ D) as (t & Et & T). set (m := hv_meta v) in *. pose proof (hdata_len Rpar v _ D) as CL. destruct D as (_ & W & Hm & _).
  assert (NC : Forall nonneg (columns 0%R (size2 d) d)) by (apply columns_Forall; [apply Rle_refl|exact NN]).
  pose proof (htable_super Rpar m t _ W T CL NC) as Su. assert (Lt : vlen t = m_hsize m) by exact (proj1 T).
  destruct (h_cover_prf m W Hm (RP Rpar) t p1 Lt) as (x1 & E1 & _). destruct (h_cover_prf m W Hm (RP Rpar) t p2 Lt) as (x2 & E2 & _).
  exists t, m, x1, x2. split; [unfold h_table; rewrite Ev; cbn [bind]; rewrite Et; reflexivity|]. do 2 (split; [assumption|]).
  rewrite <- M2. exact (C90_hier Rpar m t p1 p2 x1 x2 W Hm Lt Su (Rpar_plt p1 p2 K0 K1 K2) E1 E2).
Qed.
Print Assumptions C90_hier_data.

(** ** At most one result per inner node, plus one. *)
Lemma chain_count : forall m (t : list (quality RA)), well_built m -> 2 <= m_hsize m -> vlen t = m_hsize m -> superadditive (P := Rpar) t m ->
  let q := fun i => match vget t i with Ok x => x | _ => q_zero RA end in
  forall (l : list (R * hpartition RA)) (p : R) x T G, (forall h, 0 <= h < m_hsize m -> (T h, G h) = hdec RA m q p T h) -> hn_parts x = map (mkhpart RA m q) (hsel m G (m_root m)) ->
  StronglySorted Rlt (map fst ((p, x) :: l)) -> (forall p x, In (p, x) l -> h_best RA t m p = Ok x /\ (p <= 1)%R) -> (0 <= p)%R ->
  (forall a b u v, neighbours ((p, x) :: l) (a, u) (b, v) -> hn_eqb RA u v = false) -> (length l <= nsplit m G)%nat.
Proof.
  intros m t W H2 Lt Su q. change RA with (RP Rpar) in *. pose proof (list_vrepr _ t _ (q_zero (RP Rpar)) Lt) as R. fold q in R.
  induction l as [|[p' x'] l IH]; intros p x T G HG Ep So Hb Hp Nb; [cbn; lia|].
  destruct (Hb p' x' (or_introl eq_refl)) as [E' Hp']. destruct (h_best_ok _ m W H2 t q p' R) as (y' & T' & G' & E1 & Ep' & _ & _ & HG'). rewrite E' in E1. injection E1 as <-.
  cbn [map fst] in So. inversion So as [|? ? So' F]; subst. inversion F as [|? ? Hlt _]; subst.
  assert (K : (length l <= nsplit m G')%nat).
  { apply (IH p' x' T' G' HG' Ep' So'); [intros; apply Hb; right; assumption|lra|]. intros a b u v (l1 & l2 & E). apply (Nb a b u v). exists ((p, x) :: l1), l2. rewrite E. reflexivity. }
  assert (D : hn_eqb (RP Rpar) x x' = false) by (apply (Nb p p' x x'); exists [], l; reflexivity).
  assert (nsplit m G' < nsplit m G)%nat; [|cbn [length]; lia].
  apply (split_less Rpar m W H2 t q R Su p p' T G T' G' (Rpar_plt p p' Hp Hlt Hp') HG HG'). intro Es.
  assert (E : hn_eqb (RP Rpar) x x' = true) by (apply hn_eqb_spec; unfold hcoords; rewrite Ep, Ep', Es; reflexivity). congruence.
Qed.

Theorem C90_count : forall m (t : list (quality RA)), well_built m -> 2 <= m_hsize m -> vlen t = m_hsize m -> superadditive (P := Rpar) t m ->
  forall (th : R) fuel prev (mn mx : R) st, (0 <= mn < mx)%R -> (mx <= 1)%R -> h_search RA false fuel t m prev th mn mx = Ok st ->
  vlen (ps_list st) <= m_hsize m - m_leaves m + 1.
Proof.
  intros m t W H2 Lt Su th fuel prev mn mx st [H0 H1] H3 E.
  pose proof (C30_hier_real m W H2 t Lt th fuel prev mn mx st H1 E) as (S1 & S2 & S3 & S4 & _ & S6 & _).
  pose proof (C31_hier m W H2 RA t Lt (fun _ => True) th (real_bisectable th) fuel prev mn mx st I I (proj2 (plt_RA mn mx) H1) E) as Nb.
  assert (Rng : forall p x, In (p, x) (ps_parts st) -> (0 <= p <= 1)%R).
  { intros p x Ip. assert (Il : In p (ps_list st)) by (rewrite <- S4; apply (in_map fst) in Ip; exact Ip). destruct (S3 p Il) as [->|[->|[K1 K2]]]; [lra|lra|]. apply plt_RA in K1. apply plt_RA in K2. lra. }
  assert (So : StronglySorted Rlt (map fst (ps_parts st))).
  { rewrite S4. clear - S1. induction S1 as [|a l S IH F]; constructor; [exact IH|]. eapply Forall_impl; [|exact F]. intros b K. apply plt_RA. exact K. }
  rewrite <- S4. unfold vlen at 1. rewrite map_length. pose proof (wb_L m W) as HL.
  destruct (ps_parts st) as [|[p x] l] eqn:EP; [cbn; lia|]. pose proof (S6 p x (or_introl eq_refl)) as Ex.
  pose proof (list_vrepr _ t _ (q_zero RA) Lt) as R.
  destruct (h_best_ok _ m W H2 t _ p R) as (y & T & G & E1 & Ep & _ & _ & HG). rewrite Ex in E1. injection E1 as <-.
  pose proof (chain_count m t W H2 Lt Su l p x T G HG Ep So) as K.
  assert (K' : (length l <= nsplit m G)%nat).
  { apply K; [|apply (Rng p x); left; reflexivity|exact Nb]. intros p' x' I'. split; [apply S6; right; exact I'|apply (Rng p' x'); right; exact I']. }
  assert (B : (nsplit m G <= length (zrange (m_leaves m) (m_hsize m)))%nat).
  { unfold nsplit. generalize (zrange (m_leaves m) (m_hsize m)). intro l'. induction l' as [|a l' IH]; [reflexivity|]. cbn [filter]. destruct (negb (G a)); cbn [length]; lia. }
  rewrite zrange_length in B. cbn [length]. lia.
Qed.
Print Assumptions C90_count.

(** ** Ordered partitions are not nested: slices 1, 2, 6. At p = 1/5 the partition is {0,1},{2}; at p = 27/100 it is {0},{1,2}. *)
Lemma tiles3 : forall l, tiles 0 3 l -> l = [(0, 2)] \/ l = [(0, 0); (1, 2)] \/ l = [(0, 1); (2, 2)] \/ l = [(0, 0); (1, 1); (2, 2)].
Proof.
  assert (T3 : forall l, tiles (2 + 1) 3 l -> l = []) by (intros l H; inversion H; subst; [reflexivity|lia]).
  assert (T2 : forall l, tiles (1 + 1) 3 l -> l = [(2, 2)]).
  { intros l H. inversion H as [|a e m r He Hr]; subst. assert (e = 2) by lia. subst e. rewrite (T3 r Hr). reflexivity. }
  intros l H. inversion H as [|a e m r He Hr]; subst. assert (e = 0 \/ e = 1 \/ e = 2) as [-> |[-> | ->]] by lia.
  - inversion Hr as [|a e m r' He' Hr']; subst. assert (e = 1 \/ e = 2) as [-> | ->] by lia; [rewrite (T2 _ Hr'); auto|rewrite (T3 _ Hr'); auto].
  - rewrite (T2 _ Hr). auto.
  - rewrite (T3 _ Hr). auto.
Qed.

Definition ne_d : list (list R) := [[1; 2; 6]]%R.
Lemma log2_3_bounds : (11 / 7 < log2 3 < 27 / 17)%R.
Proof.
  pose proof (pow_log' 3 7 11 ltac:(lra) ltac:(lra)) as K1. pose proof (pow_log 3 17 27 ltac:(lra) ltac:(lra)) as K2. rewrite !INR_IZR_INZ in K1, K2. cbn in K1, K2. lra.
Qed.
Lemma log2_mult : forall a b, (0 < a)%R -> (0 < b)%R -> log2 (a * b) = (log2 a + log2 b)%R.
Proof. intros a b Ha Hb. unfold log2. rewrite ln_mult by assumption. pose proof ln2_pos. field. lra. Qed.
Lemma log2_4' : log2 4 = 2%R. Proof. replace 4%R with (2 * 2)%R by ring. rewrite log2_mult by lra. rewrite log2_2. ring. Qed.
Lemma log2_8 : log2 8 = 3%R. Proof. replace 8%R with (2 * 4)%R by ring. rewrite log2_mult by lra. rewrite log2_2, log2_4'. ring. Qed.
Lemma log2_6 : log2 6 = (1 + log2 3)%R. Proof. replace 6%R with (2 * 3)%R by ring. rewrite log2_mult by lra. rewrite log2_2. ring. Qed.
Lemma log2_9 : log2 9 = (2 * log2 3)%R. Proof. replace 9%R with (3 * 3)%R by ring. rewrite log2_mult by lra. ring. Qed.

Lemma ne_table : forall t, otable (P := Rpar) t 3 ne_d ->
  u_get t 0 0 = Ok (@mkQ RA 0%R 0%R) /\ u_get t 1 1 = Ok (@mkQ RA 0%R 0%R) /\ u_get t 2 2 = Ok (@mkQ RA 0%R 0%R) /\
  u_get t 0 1 = Ok (@mkQ RA (3 * log2 3 - 2)%R (5 - 3 * log2 3)%R) /\ u_get t 1 2 = Ok (@mkQ RA (16 - 6 * log2 3)%R (6 * log2 3 - 8)%R) /\
  u_get t 0 2 = Ok (@mkQ RA (12 * log2 3 - 8)%R (8 - 3 * log2 3)%R).
Proof.
  intros t [_ G].
  assert (G1 : gain_of [1]%R = 0%R) by (gain_tac; replace (1 + 0)%R with 1%R by ring; rewrite log2_1; ring).
  assert (G2 : gain_of [2]%R = 0%R) by (gain_tac; replace (2 + 0)%R with 2%R by ring; ring).
  assert (G6 : gain_of [6]%R = 0%R) by (gain_tac; replace (6 + 0)%R with 6%R by ring; ring).
  assert (G12 : gain_of [1; 2]%R = (3 * log2 3 - 2)%R) by (gain_tac; replace (1 + (2 + 0))%R with 3%R by ring; rewrite log2_1, log2_2; ring).
  assert (G26 : gain_of [2; 6]%R = (16 - 6 * log2 3)%R) by (gain_tac; replace (2 + (6 + 0))%R with 8%R by ring; rewrite log2_8, log2_2, log2_6; ring).
  assert (G126 : gain_of [1; 2; 6]%R = (12 * log2 3 - 8)%R) by (gain_tac; replace (1 + (2 + (6 + 0)))%R with 9%R by ring; rewrite log2_9, log2_1, log2_2, log2_6; ring).
  repeat split; (rewrite G by lia); unfold ogain, oloss, Rsum, ne_d; cbn [map fold_right];
    match goal with |- context [slice _ ?i ?j] => match constr:((i, j)) with
      | (0, 0) => change (slice [1; 2; 6]%R 0 0) with [1]%R | (1, 1) => change (slice [1; 2; 6]%R 1 1) with [2]%R | (2, 2) => change (slice [1; 2; 6]%R 2 2) with [6]%R
      | (0, 1) => change (slice [1; 2; 6]%R 0 1) with [1; 2]%R | (1, 2) => change (slice [1; 2; 6]%R 1 2) with [2; 6]%R | (0, 2) => change (slice [1; 2; 6]%R 0 2) with [1; 2; 6]%R end end;
    unfold loss_of; rewrite ?G1, ?G2, ?G6, ?G12, ?G26, ?G126; unfold total, Rsum, vlen; cbn [map fold_right length]; change (Z.of_nat 1) with 1; change (Z.of_nat 2) with 2; change (Z.of_nat 3) with 3;
    rewrite ?log2_1, ?log2_2; do 2 f_equal; ring.
Qed.

Lemma ne_best : forall t p l, otable (P := Rpar) t 3 ne_d -> (p = (1 / 5)%R /\ l = [(0, 1); (2, 2)] \/ p = (27 / 100)%R /\ l = [(0, 0); (1, 2)]) ->
  exists x, o_best RA t p = Ok x /\ map (fun y => (op_start y, op_end y)) (on_parts x) = l.
Proof.
  intros t p l T Hp. destruct (ne_table t T) as (E00 & E11 & E22 & E01 & E12 & E02). destruct T as [S _]. pose proof log2_3_bounds as [B1 B2].
  destruct (C19_ordered_tiles RA t 3 p ltac:(lia) S) as (x & E & _ & H). exists x. split; [exact E|].
  destruct (C22_ordered RA t 3 p x ltac:(lia) S E) as (K1 & K2 & K3).
  assert (Tl : tiles 0 3 l) by (destruct Hp as [[_ ->]|[_ ->]]; repeat (constructor; try lia)).
  assert (El : exists ql, mmap (fun ab => u_get t (fst ab) (snd ab)) l = Ok ql /\ 
     (p = (1 / 5)%R /\ Rsum (@gain RA) ql = (3 * log2 3 - 2)%R /\ Rsum (@loss RA) ql = (5 - 3 * log2 3)%R \/ p = (27 / 100)%R /\ Rsum (@gain RA) ql = (16 - 6 * log2 3)%R /\ Rsum (@loss RA) ql = (6 * log2 3 - 8)%R)).
  { destruct Hp as [[-> ->]|[-> ->]]; cbn [mmap fst snd]; rewrite ?E01, ?E22, ?E00, ?E12; cbn [bind]; (eexists; split; [reflexivity|]); [left|right]; (split; [reflexivity|]); unfold Rsum; cbn; split; ring. }
  destruct El as (ql & Eq & V). pose proof (C23_ordered_optimal_real t 3 p x l ql ltac:(lia) S E Tl Eq) as K.
  assert (Q : forall y, In y (on_parts x) -> Ok (op_quality y) = u_get t (op_start y) (op_end y)) by (intros; symmetry; apply K1; assumption).
  assert (GQ : forall a b, map (fun y => (op_start y, op_end y)) (on_parts x) = a -> a = b -> True) by auto. clear GQ.
  destruct (tiles3 _ H) as [Et|[Et|[Et|Et]]]; rewrite Et.
  - exfalso. destruct (on_parts x) as [|[s e q] [|]]; try discriminate. cbn in Et. inversion Et; subst. specialize (Q _ (or_introl eq_refl)). cbn [op_quality op_start op_end] in Q. rewrite E02 in Q. injection Q as ->.
    cbn in K2, K3. rewrite K2, K3 in K. unfold no_better in K. destruct V as [(-> & V1 & V2)|(-> & V1 & V2)]; rewrite V1, V2 in K; lra.
  - destruct Hp as [[-> ->]|[-> ->]]; [exfalso|reflexivity]. destruct (on_parts x) as [|[s e q] [|[s' e' q'] [|]]]; try discriminate. cbn in Et. inversion Et; subst.
    pose proof (Q _ (or_introl eq_refl)) as Q1. pose proof (Q _ (or_intror (or_introl eq_refl))) as Q2. cbn [op_quality op_start op_end] in Q1, Q2. rewrite E00 in Q1. rewrite E12 in Q2. injection Q1 as ->. injection Q2 as ->.
    cbn in K2, K3. rewrite K2, K3 in K. unfold no_better in K. destruct V as [(_ & V1 & V2)|(V0 & V1 & V2)]; [|lra]. rewrite V1, V2 in K. lra.
  - destruct Hp as [[-> ->]|[-> ->]]; [reflexivity|exfalso]. destruct (on_parts x) as [|[s e q] [|[s' e' q'] [|]]]; try discriminate. cbn in Et. inversion Et; subst.
    pose proof (Q _ (or_introl eq_refl)) as Q1. pose proof (Q _ (or_intror (or_introl eq_refl))) as Q2. cbn [op_quality op_start op_end] in Q1, Q2. rewrite E01 in Q1. rewrite E22 in Q2. injection Q1 as ->. injection Q2 as ->.
    cbn in K2, K3. rewrite K2, K3 in K. unfold no_better in K. destruct V as [(V0 & V1 & V2)|(_ & V1 & V2)]; [lra|]. rewrite V1, V2 in K. lra.
  - exfalso. destruct (on_parts x) as [|[s e q] [|[s' e' q'] [|[s'' e'' q''] [|]]]]; try discriminate. cbn in Et. inversion Et; subst.
    pose proof (Q _ (or_introl eq_refl)) as Q1. pose proof (Q _ (or_intror (or_introl eq_refl))) as Q2. pose proof (Q _ (or_intror (or_intror (or_introl eq_refl)))) as Q3. cbn [op_quality op_start op_end] in Q1, Q2, Q3.
    rewrite E00 in Q1. rewrite E11 in Q2. rewrite E22 in Q3. injection Q1 as ->. injection Q2 as ->. injection Q3 as ->.
    cbn in K2, K3. rewrite K2, K3 in K. unfold no_better in K. destruct V as [(-> & V1 & V2)|(-> & V1 & V2)]; rewrite V1, V2 in K; lra.
Qed.

Theorem C90_ordered_refuted : exists (d : list R) (p1 p2 : R) u x1 x2 y, nonneg d /\ (0 < p1 < p2)%R /\ (p2 < 1)%R /\
  o_table RA (ov2_of RA [d]) = Ok (Some u) /\ o_best RA u p1 = Ok x1 /\ o_best RA u p2 = Ok x2 /\
  In y (on_parts x1) /\ forall z, In z (on_parts x2) -> ~ (op_start z <= op_start y /\ op_end y <= op_end z).
Proof.
  destruct (C07_2d Rpar ne_d ltac:(repeat constructor) ltac:(cbv; discriminate)) as (u & Eu & T). change (size2 ne_d) with 3 in T.
  destruct (ne_best u (1 / 5)%R _ T (or_introl (conj eq_refl eq_refl))) as (x1 & E1 & P1). destruct (ne_best u (27 / 100)%R _ T (or_intror (conj eq_refl eq_refl))) as (x2 & E2 & P2).
  destruct (on_parts x1) as [|y [|y' [|]]] eqn:Ep; try discriminate. cbn in P1. injection P1 as S1 S2 S3 S4.
  exists [1; 2; 6]%R, (1 / 5)%R, (27 / 100)%R, u, x1, x2, y. split; [repeat constructor; lra|]. split; [lra|]. split; [lra|]. split; [unfold o_table; change [[1; 2; 6]%R] with ne_d; change RA with (RP Rpar); rewrite Eu; reflexivity|].
  do 2 (split; [assumption|]). rewrite Ep. split; [left; reflexivity|]. intros z Iz. apply (in_map (fun y => (op_start y, op_end y))) in Iz. rewrite P2 in Iz. cbn in Iz. destruct Iz as [Iz|[Iz|[]]]; injection Iz as <- <-; lia.
Qed.
Print Assumptions C90_ordered_refuted.

(** Nor are spatiotemporal ones (the same data as the only leaf). *)
Theorem C90_spatio_refuted : exists (d : list R) (p1 p2 : R) t m x1 x2 y, nonneg d /\ (0 < p1 < p2)%R /\ (p2 < 1)%R /\
  d_table RA (dv3_of RA [[d]] [1; -1]) = Ok (Some t, m) /\ d_best RA t m p1 = Ok x1 /\ d_best RA t m p2 = Ok x2 /\
  In y (dn_parts x1) /\ forall z, In z (dn_parts x2) -> ~ (below [1; -1] (dp_h y) (dp_h z) /\ dp_start z <= dp_start y /\ dp_end y <= dp_end z).
Proof.
  destruct (C07_2d Rpar ne_d ltac:(repeat constructor) ltac:(cbv; discriminate)) as (u & Eu & T). change (size2 ne_d) with 3 in T.
  destruct (ne_best u (1 / 5)%R _ T (or_introl (conj eq_refl eq_refl))) as (x1 & E1 & P1). destruct (ne_best u (27 / 100)%R _ T (or_intror (conj eq_refl eq_refl))) as (x2 & E2 & P2).
  assert (G : forall p x, o_best RA u p = Ok x -> exists t m x', d_table RA (dv3_of RA [ne_d] [1; -1]) = Ok (Some t, m) /\ d_best RA t m p = Ok x' /\
     map (fun y => (dp_start y, dp_end y)) (dn_parts x') = map (fun y => (op_start y, op_end y)) (on_parts x)).
  { intros p x Ex. destruct (C89_leaf Rpar ne_d p ltac:(discriminate) ltac:(repeat constructor) ltac:(cbv; split; discriminate)) as (u' & t & m & y & y' & K1 & K2 & _ & K3 & K4 & _ & K5).
    change (RP Rpar) with RA in *. assert (u' = u) by (unfold o_table in K1; rewrite Eu in K1; cbn in K1; congruence). subst u'. rewrite Ex in K3. injection K3 as <-.
    exists t, m, y'. do 2 (split; [assumption|]). apply (f_equal (map (fun z => (snd (fst z), snd z)))) in K5. rewrite !map_map in K5. exact K5. }
  destruct (G _ _ E1) as (t & m & x1' & Et & F1 & Q1). destruct (G _ _ E2) as (t' & m' & x2' & Et' & F2 & Q2). rewrite Et in Et'. injection Et' as <- <-. rewrite P1 in Q1. rewrite P2 in Q2.
  destruct (dn_parts x1') as [|y [|y' [|]]] eqn:Ep; try discriminate Q1. cbn in Q1. injection Q1 as S1 S2 S3 S4.
  exists [1; 2; 6]%R, (1 / 5)%R, (27 / 100)%R, t, m, x1', x2', y. split; [repeat constructor; lra|]. split; [lra|]. split; [lra|]. split; [unfold ne_d in Et; exact Et|].
  do 2 (split; [assumption|]). rewrite Ep. split; [left; reflexivity|]. intros z Iz (_ & K). apply (in_map (fun y => (dp_start y, dp_end y))) in Iz. rewrite Q2 in Iz. cbn in Iz. destruct Iz as [Iz|[Iz|[]]]; injection Iz as J1 J2; lia.
Qed.
Print Assumptions C90_spatio_refuted.
