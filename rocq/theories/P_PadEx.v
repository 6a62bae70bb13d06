(** * Property C99: a concrete uneven hierarchy, its padding, and the data. *)
From Coq Require Import Reals Lra Lia List.
From Verif Require Import Base BaseFacts Arith Quality Utm Hierarchy HierarchyFacts SpecTree SpecParts SpecInfo SpecData SpecShape SpecPad Values Qualities Partitions Partitioners
  TreeFacts TreePath TreeDec DataFacts DataCons HQual HReal LexR OInfo HDataProofs PadFacts P_Pad.

(** Leaves 0 and 1 in group 3, leaf 2 directly below the root 4; padded: node 4 above leaf 2, root 5. *)
Definition un_ps : list Z := [3; 3; 4; 4; -1].
Definition un_ps' : list Z := [3; 3; 4; 5; 5; -1].
Definition un_g (y : Z) : Z := elt 0 [0; 1; 2; 3; 2; 4] y.
Definition un_d : list (list R) := [[5]; [1]; [2]]%R.

Definition pad_check (L : Z) (ps ps' : list Z) (g : Z -> Z) : bool :=
  forallb (fun y => (0 <=? g y) && (g y <? vlen ps)) (zrange 0 (vlen ps')) && forallb (fun x => g x =? x) (zrange 0 L) &&
  forallb (fun h => existsb (fun y => g y =? h) (zrange 0 (vlen ps'))) (zrange 0 (vlen ps)) &&
  forallb (fun x => forallb (fun y => Bool.eqb (belowb ps' x y) (belowb ps x (g y))) (zrange 0 (vlen ps'))) (zrange 0 L) &&
  forallb (fun y => forallb (fun z => implb (belowb ps' y z) (belowb ps (g y) (g z))) (zrange 0 (vlen ps'))) (zrange 0 (vlen ps')).

Lemma pad_check_ok : forall L ps ps' r r' g, valid_tree L ps r -> valid_tree L ps' r' -> pad_check L ps ps' g = true -> padding L ps ps' g.
Proof.
  intros L ps ps' r r' g V V' E. unfold pad_check in E. repeat (apply andb_prop in E; destruct E as [E ?]). rename E into E1, H2 into E2, H1 into E3, H0 into E4, H into E5.
  rewrite forallb_forall in E1, E2, E3, E4, E5. destruct (valid_rank _ _ _ V) as [rk Hr]. destruct (valid_rank _ _ _ V') as [rk' Hr']. pose proof (vt_L _ _ _ V). pose proof (vt_L _ _ _ V').
  assert (Gn : forall y, node ps' y -> node ps (g y)). { intros y Ny. specialize (E1 y (proj2 (In_zrange _ _ _) Ny)). apply andb_prop in E1. unfold node. lia. }
  constructor.
  - exact Gn.
  - intros x Hx. specialize (E2 x (proj2 (In_zrange _ _ _) Hx)). lia.
  - intros h Nh. specialize (E3 h (proj2 (In_zrange _ _ _) Nh)). apply existsb_exists in E3. destruct E3 as (y & I & Q). exists y. apply In_zrange in I. split; [exact I|lia].
  - intros x y Hx Ny. specialize (E4 x (proj2 (In_zrange _ _ _) Hx)). rewrite forallb_forall in E4. specialize (E4 y (proj2 (In_zrange _ _ _) Ny)). apply Bool.eqb_prop in E4. unfold leaf in Hx.
    rewrite <- (belowb_true _ rk' Hr') by (unfold node; lia). rewrite <- (belowb_true _ rk Hr) by (unfold node; lia). rewrite E4. tauto.
  - intros y z Ny Nz B. specialize (E5 y (proj2 (In_zrange _ _ _) Ny)). rewrite forallb_forall in E5. specialize (E5 z (proj2 (In_zrange _ _ _) Nz)).
    apply (belowb_true _ rk' Hr') in B; [|exact Ny]. rewrite B in E5. apply (belowb_true _ rk Hr); [apply Gn; exact Ny|exact E5].
Qed.

Example C99_met : valid_tree 3 un_ps 4 /\ ~ uniform_depth 3 un_ps 4 /\ padding 3 un_ps un_ps' un_g /\
  exists v t m, hv2_of RA un_d un_ps' = Ok v /\ hdata_ok (P := Rpar) v [[5; 1; 2]]%R /\ h_table RA (Ok v) = Ok (Some t, m) /\ m_leaves m = 3 /\ m_parents m = un_ps'.
Proof.
  assert (V : valid_tree 3 un_ps 4) by (apply valid_treeb_ok; reflexivity). assert (V' : valid_tree 3 un_ps' 5) by (apply valid_treeb_ok; reflexivity).
  assert (U' : uniform_depth 3 un_ps' 5) by (apply (uniformb_ok 2); reflexivity).
  split; [exact V|]. split; [|split; [apply (pad_check_ok 3 un_ps un_ps' 4 5); auto; reflexivity|]].
  - intros (D & U). pose proof (U 0 ltac:(unfold leaf; lia)) as U0. pose proof (U 2 ltac:(unfold leaf; lia)) as U2.
    destruct D as [|[|D]]; [discriminate U0|discriminate U0|]. rewrite iter_swap in U2. rewrite iter_swap in U2. change (parent un_ps (parent un_ps 2)) with (-1) in U2.
    assert (Z : forall k, Nat.iter k (parent un_ps) (-1) = -1) by (induction k as [|k IHk]; [reflexivity|]; change (Nat.iter (S k) (parent un_ps) (-1)) with (parent un_ps (Nat.iter k (parent un_ps) (-1))); rewrite IHk; reflexivity).
    rewrite Z in U2. discriminate U2.
  - destruct (hv2_data Rpar un_ps' 5 ltac:(cbv; discriminate) un_d V' U' ltac:(repeat constructor)) as (v & E & (M1 & M2 & M3) & D).
    destruct (h_compute_prf Rpar v _ D) as (t & E1 & T). exists v, t, (hv_meta v). split; [exact E|]. split; [exact D|].
    split; [unfold h_table; cbn [bind]; change RA with (RP Rpar); rewrite E1; reflexivity|]. auto.
Qed.
