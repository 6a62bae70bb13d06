(** * Property C101: a concrete hierarchy of two leaves, each replaced by two. *)
From Coq Require Import Reals Lra Lia List.
From Verif Require Import Base BaseFacts Arith Quality Utm Hierarchy HierarchyFacts HierarchyProofs SpecTree SpecParts SpecInfo SpecData SpecShape SpecResample SpecCopies Values Qualities Partitions Partitioners
  TreeFacts TreePath TreeDec DataFacts DataCons CoverFacts InfoFacts HFacts HQual HReal HProofs LexR OInfo HDataProofs P_HierData P_Resample P_Copies.

Definition cp_ps : list Z := [2; 2; -1].
Definition cp_ps' : list Z := [4; 4; 5; 5; 6; 6; -1].
Definition cp_s (h : Z) : Z := elt 0 [4; 5; 6] h.
Definition cp_w (y : Z) : Z := elt 0 [0; 0; 1; 1] y.
Definition cp_d : list (list R) := [[3]; [1]]%R.
Definition cp_d' : list (list R) := [[3 / 2]; [3 / 2]; [1 / 2]; [1 / 2]]%R.

Lemma cp_copies : leaf_copies 2 2 cp_ps 4 cp_ps' cp_s cp_w.
Proof.
  constructor.
  - intros h Nh. unfold node in Nh. change (vlen cp_ps) with 3 in Nh. assert (h = 0 \/ h = 1 \/ h = 2) as [->|[->| ->]] by lia; unfold node, leaf; change (vlen cp_ps') with 7; change (cp_s 0) with 4; change (cp_s 1) with 5; change (cp_s 2) with 6; lia.
  - intros h g Nh Ng. unfold node in Nh, Ng. change (vlen cp_ps) with 3 in Nh, Ng.
    assert (h = 0 \/ h = 1 \/ h = 2) as [->|[->| ->]] by lia; assert (g = 0 \/ g = 1 \/ g = 2) as [->|[->| ->]] by lia; intro E; try reflexivity; discriminate E.
  - intros y Ny Ly. unfold node in Ny. unfold leaf in Ly. change (vlen cp_ps') with 7 in Ny. assert (y = 4 \/ y = 5 \/ y = 6) as [->|[->| ->]] by lia; [exists 0|exists 1|exists 2]; (split; [unfold node; change (vlen cp_ps) with 3; lia|reflexivity]).
  - intros h Nh. unfold node in Nh. change (vlen cp_ps) with 3 in Nh. assert (h = 0 \/ h = 1 \/ h = 2) as [->|[->| ->]] by lia; reflexivity.
  - intros y Ly. unfold leaf in Ly. assert (y = 0 \/ y = 1 \/ y = 2 \/ y = 3) as [->|[->|[->| ->]]] by lia; (split; [unfold leaf; change (cp_w 0) with 0; change (cp_w 1) with 0; change (cp_w 2) with 1; change (cp_w 3) with 1; lia|reflexivity]).
  - intros x Lx. unfold leaf in Lx. assert (x = 0 \/ x = 1) as [->| ->] by lia; reflexivity.
Qed.

Example C101_met : (0 < 2)%nat /\ leaf_copies 2 2 cp_ps 4 cp_ps' cp_s cp_w /\
  exists v v' m m' t t' tn tn' (x x' xn xn' : hpartition RA) (p' : R), let comps := [[3; 1]]%R in let comps' := [[3 / 2; 3 / 2; 1 / 2; 1 / 2]]%R in
    hv2_of RA cp_d cp_ps = Ok v /\ hv2_of RA cp_d' cp_ps' = Ok v' /\ hdata_ok (P := Rpar) v comps /\ hdata_ok (P := Rpar) v' comps' /\ Forall nonneg comps /\ equal_shares 2 4 cp_w comps comps' /\
    m_leaves m = 2 /\ m_parents m = cp_ps /\ m_leaves m' = 4 /\ m_parents m' = cp_ps' /\
    h_table RA (Ok v) = Ok (Some t, m) /\ h_table RA (Ok v') = Ok (Some t', m') /\ h_best RA t m (1 / 2)%R = Ok x /\ h_best RA t' m' (1 / 2)%R = Ok x' /\
    h_ntable RA (Ok v) = Ok (Some tn, m) /\ h_ntable RA (Ok v') = Ok (Some tn', m') /\ m_root m = m_hsize m - 1 /\ m_root m' = m_hsize m' - 1 /\
    (0 < hgain m comps (m_root m))%R /\ (0 < hloss m comps (m_root m))%R /\
    p' = (1 / 2 * hgain m' comps' (m_root m') / (1 / 2 * hgain m' comps' (m_root m') + (1 - 1 / 2) * hgain m comps (m_root m)))%R /\
    h_best RA tn m (1 / 2)%R = Ok xn /\ h_best RA tn' m' p' = Ok xn'.
Proof.
  split; [lia|]. split; [exact cp_copies|].
  assert (V : valid_tree 2 cp_ps 2) by (apply valid_treeb_ok; reflexivity). assert (V' : valid_tree 4 cp_ps' 6) by (apply valid_treeb_ok; reflexivity).
  assert (U : uniform_depth 2 cp_ps 2) by (apply (uniformb_ok 1); reflexivity). assert (U' : uniform_depth 4 cp_ps' 6) by (apply (uniformb_ok 2); reflexivity).
  destruct (hv2_data Rpar cp_ps 2 ltac:(cbv; discriminate) cp_d V U ltac:(repeat constructor)) as (v & E & (M1 & M2 & M3) & D).
  destruct (hv2_data Rpar cp_ps' 6 ltac:(cbv; discriminate) cp_d' V' U' ltac:(repeat constructor)) as (v' & E' & (M1' & M2' & M3') & D').
  destruct (h_compute_prf Rpar v _ D) as (t & E1 & T). destruct (h_compute_prf Rpar v' _ D') as (t' & E1' & T').
  change (columns 0%R (size2 cp_d) cp_d) with [[3; 1]]%R in *. change (columns 0%R (size2 cp_d') cp_d') with [[3 / 2; 3 / 2; 1 / 2; 1 / 2]]%R in *.
  pose proof D as (_ & W & H2 & _). pose proof D' as (_ & W' & H2' & _). remember (hv_meta v) as m eqn:Em. remember (hv_meta v') as m' eqn:Em'.
  assert (S : m_hsize m = 3) by (rewrite (wb_hsize m W), M2; reflexivity). assert (S' : m_hsize m' = 7) by (rewrite (wb_hsize m' W'), M2'; reflexivity).
  destruct (C16_hier_root_last (RP Rpar) (Some v) t m _ W ltac:(lia) (proj1 T) (proj2 T _ (root_node m W))) as (tn & En & Ln & _).
  destruct (C16_hier_root_last (RP Rpar) (Some v') t' m' _ W' ltac:(lia) (proj1 T') (proj2 T' _ (root_node m' W'))) as (tn' & En' & Ln' & _).
  set (p' := (1 / 2 * hgain m' [[3 / 2; 3 / 2; 1 / 2; 1 / 2]] (m_root m') / (1 / 2 * hgain m' [[3 / 2; 3 / 2; 1 / 2; 1 / 2]] (m_root m') + (1 - 1 / 2) * hgain m [[3; 1]] (m_root m)))%R).
  destruct (h_cover_prf m W H2 RA t (1 / 2)%R (proj1 T)) as (x & Ex & _). destruct (h_cover_prf m' W' H2' RA t' (1 / 2)%R (proj1 T')) as (x' & Ex' & _).
  destruct (h_cover_prf m W H2 RA tn (1 / 2)%R Ln) as (xn & Exn & _). destruct (h_cover_prf m' W' H2' RA tn' p' Ln') as (xn' & Exn' & _).
  exists v, v', m, m', t, t', tn, tn', x, x', xn, xn', p'. cbv zeta.
  split; [exact E|]. split; [exact E'|]. split; [exact D|]. split; [exact D'|]. split; [repeat constructor; lra|].
  split.
  { constructor; [|constructor]. intros y Ly. unfold leaf in Ly. assert (y = 0 \/ y = 1 \/ y = 2 \/ y = 3) as [->|[->|[->| ->]]] by lia;
      [change (3 / 2 = 3 / INR 2)%R|change (3 / 2 = 3 / INR 2)%R|change (1 / 2 = 1 / INR 2)%R|change (1 / 2 = 1 / INR 2)%R]; reflexivity. }
  split; [exact M1|]. split; [exact M2|]. split; [exact M1'|]. split; [exact M2'|].
  change RA with (RP Rpar) in *.
  split; [unfold h_table; cbn [bind]; rewrite E1; reflexivity|].
  split; [unfold h_table; cbn [bind]; rewrite E1'; reflexivity|]. split; [exact Ex|]. split; [exact Ex'|].
  split; [unfold h_ntable; cbn [bind]; rewrite E1; cbn [bind]; rewrite En; reflexivity|].
  split; [unfold h_ntable; cbn [bind]; rewrite E1'; cbn [bind]; rewrite En'; reflexivity|].
  split; [lia|]. split; [lia|].
  assert (HC : hcells m [3; 1]%R (m_root m) = [3; 1]%R) by (unfold hcells; rewrite M1, M2, M3; reflexivity).
  destruct rs_whole as [W1 W2]. unfold ogain, oloss, rs_rows in W1, W2. rewrite Rsum_cons, Rsum_nil in W1, W2. change (slice [3; 1]%R 0 1) with [3; 1]%R in W1, W2.
  split; [unfold hgain; rewrite Rsum_cons, Rsum_nil, HC; exact W1|]. split; [unfold hloss; rewrite Rsum_cons, Rsum_nil, HC; exact W2|].
  split; [reflexivity|]. split; [exact Exn|exact Exn'].
Qed.
