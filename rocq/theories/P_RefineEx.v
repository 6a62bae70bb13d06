(** * Property C100: a concrete hierarchy and the same one with one more level. *)
From Coq Require Import Reals Lra Lia List.
From Verif Require Import Base BaseFacts Arith Quality Utm Hierarchy HierarchyFacts SpecTree SpecParts SpecInfo SpecData SpecShape SpecRefine Values Qualities Partitions Partitioners
  TreeFacts TreePath TreeDec DataFacts DataCons HQual HReal DQual LexR OInfo HDataProofs DDataProofs P_Refine.

(** Leaves 0, 1 and 2 directly below the root 3; with one more level: 0 and 1 in group 3, 2 in group 4, root 5. *)
Definition rf_ps : list Z := [3; 3; 3; -1].
Definition rf_ps' : list Z := [3; 3; 4; 5; 5; -1].
Definition rf_s (h : Z) : Z := elt 0 [0; 1; 2; 5] h.
Definition rf_d : list (list R) := [[1]; [1]; [0]]%R.

Definition refine_check (L : Z) (ps ps' : list Z) (s : Z -> Z) : bool :=
  forallb (fun h => (0 <=? s h) && (s h <? vlen ps')) (zrange 0 (vlen ps)) &&
  forallb (fun x => forallb (fun h => Bool.eqb (belowb ps' x (s h)) (belowb ps x h)) (zrange 0 (vlen ps))) (zrange 0 L) &&
  forallb (fun h => forallb (fun k => implb (belowb ps h k) (belowb ps' (s h) (s k))) (zrange 0 (vlen ps))) (zrange 0 (vlen ps)).

Lemma refine_check_ok : forall L ps ps' r r' s, valid_tree L ps r -> valid_tree L ps' r' -> refine_check L ps ps' s = true -> more_levels L ps ps' s.
Proof.
  intros L ps ps' r r' s V V' E. unfold refine_check in E. repeat (apply andb_prop in E; destruct E as [E ?]). rename E into E1, H0 into E2, H into E3.
  rewrite forallb_forall in E1, E2, E3. destruct (valid_rank _ _ _ V) as [rk Hr]. destruct (valid_rank _ _ _ V') as [rk' Hr']. pose proof (vt_L _ _ _ V). pose proof (vt_L _ _ _ V').
  assert (Gn : forall h, node ps h -> node ps' (s h)). { intros y Ny. specialize (E1 y (proj2 (In_zrange _ _ _) Ny)). apply andb_prop in E1. unfold node. lia. }
  constructor.
  - exact Gn.
  - intros x y Hx Ny. specialize (E2 x (proj2 (In_zrange _ _ _) Hx)). rewrite forallb_forall in E2. specialize (E2 y (proj2 (In_zrange _ _ _) Ny)). apply Bool.eqb_prop in E2. unfold leaf in Hx.
    rewrite <- (belowb_true _ rk' Hr') by (unfold node; lia). rewrite <- (belowb_true _ rk Hr) by (unfold node; lia). rewrite E2. tauto.
  - intros y z Ny Nz B. specialize (E3 y (proj2 (In_zrange _ _ _) Ny)). rewrite forallb_forall in E3. specialize (E3 z (proj2 (In_zrange _ _ _) Nz)).
    apply (belowb_true _ rk Hr) in B; [|exact Ny]. rewrite B in E3. apply (belowb_true _ rk' Hr'); [apply Gn; exact Ny|exact E3].
Qed.

Example C100_met : more_levels 3 rf_ps rf_ps' rf_s /\ (~ exists h, node rf_ps h /\ rf_s h = 3) /\
  exists v v' t t' m m', hv2_of RA rf_d rf_ps = Ok v /\ hv2_of RA rf_d rf_ps' = Ok v' /\ hdata_ok (P := Rpar) v [[1; 1; 0]]%R /\ hdata_ok (P := Rpar) v' [[1; 1; 0]]%R /\
    h_table RA (Ok v) = Ok (Some t, m) /\ h_table RA (Ok v') = Ok (Some t', m') /\ m_leaves m = 3 /\ m_leaves m' = 3 /\ m_parents m = rf_ps /\ m_parents m' = rf_ps'.
Proof.
  assert (V : valid_tree 3 rf_ps 3) by (apply valid_treeb_ok; reflexivity). assert (V' : valid_tree 3 rf_ps' 5) by (apply valid_treeb_ok; reflexivity).
  assert (U : uniform_depth 3 rf_ps 3) by (apply (uniformb_ok 1); reflexivity). assert (U' : uniform_depth 3 rf_ps' 5) by (apply (uniformb_ok 2); reflexivity).
  split; [apply (refine_check_ok 3 rf_ps rf_ps' 3 5); auto; reflexivity|]. split.
  - intros (h & Nh & E). unfold node in Nh. change (vlen rf_ps) with 4 in Nh. assert (C : h = 0 \/ h = 1 \/ h = 2 \/ h = 3) by lia. destruct C as [->|[->|[->| ->]]]; discriminate E.
  - destruct (hv2_data Rpar rf_ps 3 ltac:(cbv; discriminate) rf_d V U ltac:(repeat constructor)) as (v & E & (M1 & M2 & M3) & D).
    destruct (hv2_data Rpar rf_ps' 5 ltac:(cbv; discriminate) rf_d V' U' ltac:(repeat constructor)) as (v' & E' & (M1' & M2' & M3') & D').
    destruct (h_compute_prf Rpar v _ D) as (t & E1 & T). destruct (h_compute_prf Rpar v' _ D') as (t' & E1' & T'). exists v, v', t, t', (hv_meta v), (hv_meta v').
    split; [exact E|]. split; [exact E'|]. split; [exact D|]. split; [exact D'|].
    split; [unfold h_table; cbn [bind]; change RA with (RP Rpar); rewrite E1; reflexivity|]. split; [unfold h_table; cbn [bind]; change RA with (RP Rpar); rewrite E1'; reflexivity|]. auto.
Qed.
