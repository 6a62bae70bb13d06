(** * DPartitioner over any arithmetic: the last column of the tables and the produced parts. *)
From Coq Require Import Lia Permutation.
From Verif Require Import Base BaseFacts Arith Quality Utm UtmFacts Hierarchy SpecTree TreeFacts HierarchyFacts HierarchyProofs
  Values Qualities Partitions Partitioners TreePath CoverFacts HFacts.

Section M.
Context (A : arith).
Notation quality := (quality A).
Notation tradeoff := (tradeoff A).
Context (m : meta).
Hypothesis W : well_built m.
Notation ps := (m_parents m).
Notation L := (m_leaves m).
Notation hsize := (m_hsize m).
Notation root := (m_root m).
Notation kids := (kids m).

Variables (t : list (utm quality)) (n : Z) (q : Z -> Z -> Z -> quality) (p : par A).
Hypothesis Ht : mrepr t hsize n q.
Hypothesis Hn : 1 <= n <= 65535.
Notation N := (n - 1).

(** Cell (h,i,j): start from the single part or the children's total [c], then try the cuts. *)
Definition dstep (TR : Z -> tradeoff) (h i : Z) (ct : Z * tradeoff) (c : Z) : Z * tradeoff :=
  let tt := t_add A (t_add A (t_zero A) (t_set A (q h i c) p)) (TR (c + 1)) in
  if t_gtb A tt (snd ct) then (c, tt) else ct.
Definition dinit (inner : bool) (c : tradeoff) (h i j : Z) : Z * tradeoff :=
  if inner && t_gtb A c (t_set A (q h i j) p) then (-1, c) else (j, t_set A (q h i j) p).
Definition dcell (inner : bool) (c : tradeoff) (TR : Z -> tradeoff) (h i j : Z) : Z * tradeoff :=
  fold_left (dstep TR h i) (zrange i j) (dinit inner c h i j).

Lemma dcell_ext : forall inner c TR TR' h i j, (forall k, i < k <= j -> TR k = TR' k) ->
  dcell inner c TR h i j = dcell inner c TR' h i j.
Proof.
  intros inner c TR TR' h i j H. unfold dcell. generalize (dinit inner c h i j).
  assert (G : forall l s, (forall c, In c l -> i <= c < j) -> fold_left (dstep TR h i) l s = fold_left (dstep TR' h i) l s).
  { induction l as [|x l IH]; intros s Hl; simpl; auto.
    assert (E : dstep TR h i s x = dstep TR' h i s x).
    { unfold dstep. rewrite (H (x + 1)); auto. specialize (Hl x (or_introl eq_refl)). lia. }
    rewrite E. apply IH. intros; apply Hl; right; auto. }
  intro s. apply G. intros x K. apply In_zrange in K. exact K.
Qed.

Definition drep (st : db_state A) (CU : Z -> Z -> Z -> Z) (TR TC : Z -> Z -> Z -> tradeoff) : Prop :=
  let '(cuts, tr, tc) := st in mrepr cuts hsize n CU /\ mrepr tr hsize n TR /\ mrepr tc hsize n TC.

Ltac f3 := unfold fupd3;
  repeat match goal with |- context [?a =? ?b] => destruct (Z.eqb_spec a b); cbn [andb]; try lia end.

Lemma db_init_ok : forall k h i j st CU TR TC, 0 <= h < hsize -> 0 <= i <= j -> j < n -> drep st CU TR TC ->
  exists st', db_init A t m p k h i j st = Ok st' /\
    drep st' (fupd3 CU h i j (fst (dinit (L <=? k) (TC h i j) h i j)))
             (fupd3 TR h i j (snd (dinit (L <=? k) (TC h i j) h i j))) TC.
Proof.
  intros k h i j [[cuts tr] tc] CU TR TC Hh Hi Hj (RC & RT & RTC). unfold db_init.
  destruct (mrepr_set _ _ _ _ _ h i j j RC Hh Hi Hj) as [cuts1 [E1 R1]]. rewrite E1. cbn [bind].
  rewrite (mrepr_get _ _ _ _ _ h i j Ht) by auto. cbn [bind].
  destruct (mrepr_set _ _ _ _ _ h i j (t_set A (q h i j) p) RT Hh Hi Hj) as [tr1 [E2 R2]]. rewrite E2. cbn [bind].
  unfold dinit. destruct (L <=? k); cbn [andb].
  - rewrite (mrepr_get _ _ _ _ _ h i j RTC) by auto. cbn [bind].
    rewrite (mrepr_get _ _ _ _ _ h i j R2) by auto. cbn [bind]. rewrite fupd3_same.
    destruct (t_gtb A (TC h i j) (t_set A (q h i j) p)).
    + destruct (mrepr_set _ _ _ _ _ h i j (-1) R1 Hh Hi Hj) as [cuts2 [E3 R3]]. rewrite E3. cbn [bind].
      destruct (mrepr_set _ _ _ _ _ h i j (TC h i j) R2 Hh Hi Hj) as [tr2 [E4 R4]]. rewrite E4. cbn [bind].
      eexists; split; [reflexivity|]. cbn [fst snd drep]. split; [|split; auto].
      * eapply mrepr_ext; [exact R3|]. intros; unfold fupd3; destruct ((_ =? _) && _); auto.
      * eapply mrepr_ext; [exact R4|]. intros; unfold fupd3; destruct ((_ =? _) && _); auto.
    + eexists; split; [reflexivity|]. cbn [fst snd drep]. auto.
  - eexists; split; [reflexivity|]. cbn [fst snd drep]. auto.
Qed.

(** The cut loop of one cell. *)
Lemma db_tries_ok : forall h i j st CU TR TC, 0 <= h < hsize -> 0 <= i <= j -> j < n -> drep st CU TR TC ->
  exists st' CU' TR', for_up i j (db_try A t p h i j) st = Ok st' /\ drep st' CU' TR' TC /\
    (CU' h i j, TR' h i j) = fold_left (dstep (fun c => TR h c j) h i) (zrange i j) (CU h i j, TR h i j) /\
    (forall x a b, ~ (x = h /\ a = i /\ b = j) -> CU' x a b = CU x a b) /\
    (forall x a b, ~ (x = h /\ a = i /\ i <= b <= j) -> TR' x a b = TR x a b).
Proof.
  intros h i j st CU TR TC Hh Hi Hj R.
  destruct (for_up_inv _ (db_try A t p h i j) (fun c st => exists CU' TR', drep st CU' TR' TC /\
    (CU' h i j, TR' h i j) = fold_left (dstep (fun c => TR h c j) h i) (zrange i c) (CU h i j, TR h i j) /\
    (forall x a b, ~ (x = h /\ a = i /\ b = j) -> CU' x a b = CU x a b) /\
    (forall x a b, ~ (x = h /\ a = i /\ i <= b <= j) -> TR' x a b = TR x a b)) i j st) as [st' [E [CU' [TR' H]]]].
  - lia.
  - intros c [[cuts tr] tc] Hc (CU' & TR' & (RC & RT & RTC) & I1 & I2 & I3). unfold db_try.
    rewrite (mrepr_get _ _ _ _ _ h i c Ht) by lia. cbn [bind].
    destruct (mrepr_set _ _ _ _ _ h i c (t_set A (q h i c) p) RT Hh ltac:(lia) ltac:(lia)) as [tr1 [E1 R1]].
    rewrite E1. cbn [bind].
    rewrite (mrepr_get _ _ _ _ _ h i c R1) by lia. cbn [bind]. rewrite fupd3_same.
    rewrite (mrepr_get _ _ _ _ _ h (c + 1) j R1) by lia. cbn [bind]. rewrite fupd3_other by lia.
    rewrite (I3 h (c + 1) j) by lia.
    rewrite (mrepr_get _ _ _ _ _ h i j R1) by lia. cbn [bind]. rewrite fupd3_other by lia.
    rewrite (zrange_snoc i c) by lia. rewrite fold_left_app. cbn [fold_left]. rewrite <- I1. unfold dstep at 1. cbn [snd].
    destruct (t_gtb A (t_add A (t_add A (t_zero A) (t_set A (q h i c) p)) (TR h (c + 1) j)) (TR' h i j)).
    + destruct (mrepr_set _ _ _ _ _ h i j c RC Hh Hi Hj) as [cuts2 [E3 R3]]. rewrite E3. cbn [bind].
      destruct (mrepr_set _ _ _ _ _ h i j (t_add A (t_add A (t_zero A) (t_set A (q h i c) p)) (TR h (c + 1) j)) R1 Hh Hi Hj)
        as [tr2 [E4 R4]]. rewrite E4. cbn [bind].
      eexists; split; [reflexivity|]. eexists _, _. split; [cbn; split; [exact R3|split; [exact R4|exact RTC]]|].
      rewrite !fupd3_same. split; [auto|]. split.
      * intros x a b Hx. rewrite fupd3_other by auto. auto.
      * intros x a b Hx. rewrite fupd3_other by lia. rewrite fupd3_other by lia. auto.
    + eexists; split; [reflexivity|]. eexists _, _. split; [cbn; split; [exact RC|split; [exact R1|exact RTC]]|].
      rewrite fupd3_other by lia. split; [auto|]. split; auto.
      intros x a b Hx. rewrite fupd3_other by lia. auto.
  - exists CU, TR. split; auto. rewrite zrange_empty by lia. auto.
  - exists st', CU', TR'. tauto.
Qed.

(** One cell; [last] tells whether the node is the last of the path. *)
Lemma db_cell_ok : forall k h i j st CU TR TC, 0 <= h < hsize -> 0 <= i <= j -> j < n ->
  (k < hsize - 1 <-> h <> root) -> drep st CU TR TC ->
  exists st' CU' TR' TC', db_cell A t m p k h i j st = Ok st' /\ drep st' CU' TR' TC' /\
    (CU' h i j, TR' h i j) = dcell (L <=? k) (TC h i j) (fun c => TR h c j) h i j /\
    (forall x a b, ~ (x = h /\ a = i /\ b = j) -> CU' x a b = CU x a b) /\
    (forall x a b, ~ (x = h /\ a = i /\ i <= b <= j) -> TR' x a b = TR x a b) /\
    TC' = (if h =? root then TC else fupd3 TC (parent ps h) i j (t_add A (TC (parent ps h) i j) (TR' h i j))).
Proof.
  intros k h i j st CU TR TC Hh Hi Hj Hk R. unfold db_cell.
  destruct (db_init_ok k h i j st CU TR TC Hh Hi Hj R) as [st1 [E1 R1]]. rewrite E1. cbn [bind].
  destruct (db_tries_ok h i j st1 _ _ TC Hh Hi Hj R1) as (st2 & CU2 & TR2 & E2 & R2 & J1 & J2 & J3). rewrite E2. cbn [bind].
  destruct st2 as [[cuts2 tr2] tc2]. destruct R2 as (R2a & R2b & R2c).
  rewrite !fupd3_same in J1.
  assert (J1' : (CU2 h i j, TR2 h i j) = dcell (L <=? k) (TC h i j) (fun c => TR h c j) h i j).
  { rewrite J1. unfold dcell. rewrite <- surjective_pairing.
    etransitivity; [|apply dcell_ext with (TR := fun c => fupd3 TR h i j (snd (dinit (L <=? k) (TC h i j) h i j)) h c j)].
    - unfold dcell. auto.
    - intros c Hc. rewrite fupd3_other by lia. auto. }
  assert (J2' : forall x a b, ~ (x = h /\ a = i /\ b = j) -> CU2 x a b = CU x a b).
  { intros x a b Hx. rewrite J2 by auto. apply fupd3_other; auto. }
  assert (J3' : forall x a b, ~ (x = h /\ a = i /\ i <= b <= j) -> TR2 x a b = TR x a b).
  { intros x a b Hx. rewrite J3 by auto. apply fupd3_other; lia. }
  destruct (Z.ltb_spec k (hsize - 1)) as [Lt|Ge].
  - assert (D : h <> root) by (apply Hk; auto). destruct (parent_range m W h Hh D) as (Rp & Ep & _). pose proof (wb_L m W).
    rewrite Ep. cbn [bind].
    rewrite (mrepr_get _ _ _ _ _ (parent ps h) i j R2c) by lia. cbn [bind].
    rewrite (mrepr_get _ _ _ _ _ h i j R2b) by lia. cbn [bind].
    destruct (mrepr_set _ _ _ _ _ (parent ps h) i j (t_add A (TC (parent ps h) i j) (TR2 h i j)) R2c ltac:(lia) Hi Hj) as [tc3 [E4 R4]].
    rewrite E4. cbn [bind]. eexists; exists CU2, TR2; eexists. split; [reflexivity|].
    split; [cbn; split; [exact R2a|split; [exact R2b|exact R4]]|].
    split; auto. split; auto. split; auto. destruct (Z.eqb_spec h root); [contradiction|auto].
  - eexists; exists CU2, TR2, TC. split; [reflexivity|]. split; [cbn; auto|]. split; auto. split; auto. split; auto.
    destruct (Z.eqb_spec h root); auto. exfalso. assert (k < hsize - 1) by (apply Hk; auto). lia.
Qed.

Definition same_col (F F' : Z -> Z -> Z -> tradeoff) : Prop := forall x a, F' x a N = F x a N.

(** All cells (h,i,j) of one line. *)
Lemma db_line_ok : forall k h i st CU TR TC, 0 <= h < hsize -> 0 <= i < n ->
  (k < hsize - 1 <-> h <> root) -> drep st CU TR TC ->
  exists st' CU' TR' TC', for_up i n (db_cell A t m p k h i) st = Ok st' /\ drep st' CU' TR' TC' /\
    (CU' h i N, TR' h i N) = dcell (L <=? k) (TC h i N) (fun c => TR h c N) h i N /\
    (forall x a, ~ (x = h /\ a = i) -> CU' x a N = CU x a N /\ TR' x a N = TR x a N) /\
    (forall x a, TC' x a N = if (negb (h =? root)) && ((x =? parent ps h) && (a =? i)) then t_add A (TC x a N) (TR' h i N) else TC x a N).
Proof.
  intros k h i st CU TR TC Hh Hi Hk R.
  assert (E0 : for_up i n (db_cell A t m p k h i) st = for_up i (N + 1) (db_cell A t m p k h i) st) by (f_equal; lia).
  rewrite E0, for_up_snoc by lia. clear E0.
  destruct (for_up_inv _ (db_cell A t m p k h i) (fun j st => exists CU' TR' TC', drep st CU' TR' TC' /\
     (forall x a, CU' x a N = CU x a N /\ TR' x a N = TR x a N /\ TC' x a N = TC x a N)) i N st)
    as [st1 [E1 (CU1 & TR1 & TC1 & R1 & K)]].
  - lia.
  - intros j s Hj (CU' & TR' & TC' & R' & K).
    destruct (db_cell_ok k h i j s CU' TR' TC' Hh ltac:(lia) ltac:(lia) Hk R') as (s2 & CU2 & TR2 & TC2 & E & R2 & _ & J2 & J3 & J4).
    exists s2. split; auto. exists CU2, TR2, TC2. split; auto. intros x a. destruct (K x a) as (K1 & K2 & K3).
    rewrite J2 by lia. rewrite J3 by lia. rewrite <- K1, <- K2, <- K3. split; auto. split; auto.
    subst TC2. destruct (h =? root); auto. apply fupd3_other. lia.
  - exists CU, TR, TC. split; auto.
  - rewrite E1. cbn [bind].
    destruct (db_cell_ok k h i N st1 CU1 TR1 TC1 Hh ltac:(lia) ltac:(lia) Hk R1) as (s2 & CU2 & TR2 & TC2 & E & R2 & J1 & J2 & J3 & J4).
    exists s2, CU2, TR2, TC2. split; auto. split; auto. split.
    { rewrite J1. rewrite (proj2 (proj2 (K h i))). apply dcell_ext. intros c Hc. apply K. }
    split.
    { intros x a Hx. rewrite J2, J3 by lia. split; apply K. }
    intros x a. subst TC2. destruct (Z.eqb_spec h root) as [->|D]; cbn [negb andb]; [apply K|].
    unfold fupd3. rewrite Z.eqb_refl, andb_true_r. destruct (Z.eqb_spec x (parent ps h)) as [->|]; cbn [andb]; [|apply K].
    destruct (Z.eqb_spec a i) as [->|]; [|apply K]. rewrite (proj2 (proj2 (K _ _))). auto.
Qed.

(** All lines of one node. *)
Lemma db_node_ok : forall k h st CU TR TC, 0 <= h < hsize -> (k < hsize - 1 <-> h <> root) -> parent ps h <> h -> drep st CU TR TC ->
  exists st' CU' TR' TC', db_node A t m p n k h st = Ok st' /\ drep st' CU' TR' TC' /\
    (forall i, 0 <= i < n -> (CU' h i N, TR' h i N) = dcell (L <=? k) (TC h i N) (fun c => TR' h c N) h i N) /\
    (forall x a, x <> h -> CU' x a N = CU x a N /\ TR' x a N = TR x a N) /\
    (forall x a, 0 <= a < n -> TC' x a N = if (negb (h =? root)) && (x =? parent ps h) then t_add A (TC x a N) (TR' h a N) else TC x a N).
Proof.
  intros k h st CU TR TC Hh Hk Hp R. unfold db_node.
  destruct (for_down_inv _ (fun i st => for_up i n (db_cell A t m p k h i) st)
    (fun i st => exists CU' TR' TC', drep st CU' TR' TC' /\
      (forall a, i <= a < n -> (CU' h a N, TR' h a N) = dcell (L <=? k) (TC h a N) (fun c => TR' h c N) h a N) /\
      (forall x a, x <> h -> CU' x a N = CU x a N /\ TR' x a N = TR x a N) /\
      (forall x a, TC' x a N = if (negb (h =? root)) && ((x =? parent ps h) && ((i <=? a) && (a <? n))) then t_add A (TC x a N) (TR' h a N) else TC x a N))
    n 0 st) as [st' [E (CU' & TR' & TC' & R' & K1 & K2 & K3)]].
  - lia.
  - intros i s Hi (CU' & TR' & TC' & R' & K1 & K2 & K3).
    destruct (db_line_ok k h i s CU' TR' TC' Hh Hi Hk R') as (s2 & CU2 & TR2 & TC2 & E & R2 & J1 & J2 & J3).
    exists s2. split; auto. exists CU2, TR2, TC2. split; auto.
    assert (TCh : TC' h i N = TC h i N).
    { rewrite K3. destruct (Z.eqb_spec h (parent ps h)); [congruence|]. rewrite andb_false_r. auto. }
    split; [|split].
    + intros a Ha. destruct (Z.eq_dec a i) as [->|D].
      * rewrite J1, TCh. apply dcell_ext. intros c Hc. symmetry. apply J2. lia.
      * destruct (J2 h a ltac:(lia)) as [-> ->]. rewrite K1 by lia. apply dcell_ext. intros c Hc. symmetry. apply J2. lia.
    + intros x a Hx. destruct (J2 x a ltac:(lia)) as [-> ->]. apply K2; auto.
    + intros x a. rewrite J3, K3. destruct (h =? root); cbn [negb andb]; auto.
      destruct (Z.eqb_spec x (parent ps h)) as [->|]; cbn [andb]; auto.
      destruct (Z.eqb_spec a i) as [->|D].
      * replace (i + 1 <=? i) with false by (symmetry; apply Z.leb_gt; lia).
        replace (i <=? i) with true by (symmetry; apply Z.leb_le; lia).
        replace (i <? n) with true by (symmetry; apply Z.ltb_lt; lia). auto.
      * replace (i <=? a) with (i + 1 <=? a).
        { destruct ((i + 1 <=? a) && (a <? n)) eqn:Ea; auto. f_equal. symmetry. apply J2. lia. }
        destruct (Z.leb_spec (i + 1) a), (Z.leb_spec i a); auto; lia.
  - exists CU, TR, TC. split; auto. split; [intros; lia|]. split; auto.
    intros x a. destruct (Z.leb_spec n a), (Z.ltb_spec a n); try lia; rewrite ?andb_false_r; auto.
  - exists st', CU', TR', TC'. split; auto. split; auto. split; [intros; apply K1; lia|]. split; auto.
    intros x a Ha. rewrite K3. replace (0 <=? a) with true by (symmetry; apply Z.leb_le; lia).
    replace (a <? n) with true by (symmetry; apply Z.ltb_lt; lia). cbn [andb]. rewrite andb_true_r. auto.
Qed.

(** The final column of the tables. *)
Definition dline (T : Z -> Z -> tradeoff) (h i : Z) : Z * tradeoff :=
  dcell (L <=? h) (csum A (fun c => T c i) (kids h)) (T h) h i N.

Lemma dline_ext : forall T T' h i, (forall c, In c (kids h) -> T c i = T' c i) -> (forall k, i < k < n -> T h k = T' h k) ->
  dline T h i = dline T' h i.
Proof.
  intros T T' h i H1 H2. unfold dline. rewrite (csum_ext A (fun c => T c i) (fun c => T' c i)) by auto.
  apply dcell_ext. intros; apply H2; lia.
Qed.

Definition dinv (pre : list Z) (st : db_state A) : Prop :=
  exists CU TR TC, drep st CU TR TC /\
    (forall h i, In h pre -> 0 <= i < n -> (CU h i N, TR h i N) = dline (fun c k => TR c k N) h i) /\
    (forall h i, 0 <= h < hsize -> 0 <= i < n -> TC h i N = csum A (fun c => TR c i N) (chd m pre h)).

Lemma index_leaf : forall k h, vget (m_path m) k = Ok h -> (L <=? k) = (L <=? h).
Proof.
  intros k h E. pose proof (vget_inv _ _ _ _ E) as Rk.
  destruct (Z.leb_spec L k) as [H1|H1]; destruct (Z.leb_spec L h) as [H2|H2]; auto; exfalso.
  - assert (Rh : 0 <= h < hsize) by (apply (In_path m W); eapply vget_In; eauto).
    pose proof (wb_leaves m W h ltac:(unfold leaf; lia)) as E2.
    pose proof (NoDup_vget _ _ _ _ _ (wb_nodup m W) E E2). lia.
  - pose proof (wb_leaves m W k ltac:(unfold leaf; lia)) as E2. rewrite E in E2. inversion E2. lia.
Qed.

Lemma index_root : forall k h, vget (m_path m) k = Ok h -> (k < hsize - 1 <-> h <> root).
Proof.
  intros k h E. pose proof (vget_inv _ _ _ _ E) as Rk. rewrite (wb_len m W) in Rk. pose proof (wb_last m W) as E2. split.
  - intros Hk ->. pose proof (NoDup_vget _ _ _ _ _ (wb_nodup m W) E E2). lia.
  - intro D. destruct (Z.eq_dec k (hsize - 1)) as [->|]; [|lia]. congruence.
Qed.

Lemma parent_neq : forall h, 0 <= h < hsize -> parent ps h <> h.
Proof.
  intros h Hh. destruct (Z.eq_dec h root) as [->|D]; [rewrite (vt_rootp _ _ _ (wb_tree m W)); lia|].
  apply (parent_range m W); auto.
Qed.

Lemma db_step_inv : forall pre h post st, m_path m = pre ++ h :: post -> dinv pre st ->
  exists st', db_node A t m p n (vlen pre) h st = Ok st' /\ dinv (pre ++ [h]) st'.
Proof.
  intros pre h post st E (CU & TR & TC & R & I1 & I2).
  assert (Eh : vget (m_path m) (vlen pre) = Ok h).
  { rewrite E, vget_app_r by lia. replace (vlen pre - vlen pre) with 0 by lia. reflexivity. }
  assert (Hh : 0 <= h < hsize) by (apply (In_path m W); eapply vget_In; eauto).
  destruct (db_node_ok (vlen pre) h st CU TR TC Hh (index_root _ _ Eh) (parent_neq h Hh) R) as (st' & CU' & TR' & TC' & E' & R' & J1 & J2 & J3).
  exists st'. split; auto. exists CU', TR', TC'. split; auto. rewrite (index_leaf _ _ Eh) in J1.
  pose proof (path_NoDup_pre m W _ _ _ E) as Nh.
  split.
  - intros x i Hx Hi. apply in_app_or in Hx. destruct Hx as [Hx|[<-|[]]].
    + assert (x <> h) by (intros ->; contradiction). destruct (J2 x i H) as [-> ->]. rewrite I1 by auto.
      apply dline_ext.
      * intros c Hc. symmetry. apply J2. intros ->. apply (kids_pre m W pre (h :: post) x h E Hx) in Hc. contradiction.
      * intros k Hk. symmetry. apply J2; auto.
    + rewrite J1 by auto. unfold dline. rewrite I2 by auto. f_equal.
      replace (chd m pre h) with (kids h) by (apply (kids_prefix m W pre h post E)).
      apply csum_ext. intros c Hc. symmetry. apply J2. intros ->. apply (kids_In m W) in Hc. destruct Hc as [_ Hc].
      apply (parent_neq h Hh Hc).
  - intros x i Hx Hi. rewrite J3 by auto. rewrite I2 by auto.
    assert (EX : forall l, ~ In h l -> csum A (fun c => TR' c i N) l = csum A (fun c => TR c i N) l).
    { intros l Hl. apply csum_ext. intros c Hc. apply J2. intros ->; contradiction. }
    assert (NI : ~ In h (chd m pre x)) by (unfold chd; intro K; apply filter_In in K; tauto).
    assert (EF : chd m (pre ++ [h]) x = chd m pre x ++ (if parent ps h =? x then [h] else [])).
    { unfold chd. rewrite filter_app. simpl. destruct (parent ps h =? x); auto. }
    rewrite EF. rewrite (Z.eqb_sym x). destruct (Z.eqb_spec (parent ps h) x) as [Ex|Dx].
    + assert (h <> root). { intros ->. rewrite (vt_rootp _ _ _ (wb_tree m W)) in Ex. lia. }
      destruct (Z.eqb_spec h root); [contradiction|]. cbn [negb andb].
      assert (ES : forall T l y, csum A T (l ++ [y]) = t_add A (csum A T l) (T y)).
      { intros T l y. unfold csum. rewrite map_app, fold_left_app. reflexivity. }
      rewrite ES. f_equal. symmetry. apply EX; auto.
    + rewrite app_nil_r, andb_false_r. symmetry. apply EX; auto.
Qed.

Lemma db_loop_ok : forall post fuel pre h st, m_path m = pre ++ h :: post -> (length post < fuel)%nat -> dinv pre st ->
  exists st', db_loop A fuel t m p n (vlen pre) h st = Ok st' /\ dinv (m_path m) st'.
Proof.
  induction post as [|h' post IH]; intros [|fuel] pre h st E F I; try (simpl in F; lia); cbn [db_loop].
  - assert (Eh : vget (m_path m) (vlen pre) = Ok h).
    { rewrite E, vget_app_r by lia. replace (vlen pre - vlen pre) with 0 by lia. reflexivity. }
    pose proof (vget_inv _ _ _ _ Eh) as Rk. rewrite (wb_len m W) in Rk.
    replace (vlen pre <? hsize) with true by (symmetry; apply Z.ltb_lt; lia).
    destruct (db_step_inv pre h [] st E I) as [st' [E' I']]. rewrite E'. cbn [bind].
    assert (EL : vlen (m_path m) = vlen pre + 1) by (rewrite E, vlen_app; reflexivity). rewrite (wb_len m W) in EL.
    assert (h = root).
    { pose proof (wb_last m W) as K. replace (hsize - 1) with (vlen pre) in K by lia. congruence. }
    subst h. rewrite Z.eqb_refl. exists st'. split; auto. rewrite E. auto.
  - assert (Eh : vget (m_path m) (vlen pre) = Ok h).
    { rewrite E, vget_app_r by lia. replace (vlen pre - vlen pre) with 0 by lia. reflexivity. }
    pose proof (vget_inv _ _ _ _ Eh) as Rk. rewrite (wb_len m W) in Rk.
    replace (vlen pre <? hsize) with true by (symmetry; apply Z.ltb_lt; lia).
    destruct (db_step_inv pre h (h' :: post) st E I) as [st' [E' I']]. rewrite E'. cbn [bind].
    assert (EL : vlen (m_path m) = vlen pre + 2 + vlen post) by (rewrite E, vlen_app; unfold vlen; simpl; lia).
    rewrite (wb_len m W) in EL. pose proof (vlen_nonneg _ post).
    assert (h <> root) by (apply (index_root _ _ Eh); lia).
    destruct (Z.eqb_spec h root); [contradiction|].
    assert (E2 : m_path m = (pre ++ [h]) ++ h' :: post) by (rewrite <- app_assoc; auto).
    assert (L2 : vlen (pre ++ [h]) = vlen pre + 1) by (rewrite vlen_app; reflexivity).
    assert (Eh' : vget (m_path m) (vlen pre + 1) = Ok h').
    { rewrite E2, vget_app_r by lia. rewrite L2. replace (vlen pre + 1 - (vlen pre + 1)) with 0 by lia. reflexivity. }
    rewrite Eh'. cbn [bind]. rewrite <- L2. apply (IH fuel (pre ++ [h]) h' st'); auto. simpl in F. lia.
Qed.

Lemma db_tables_ok : exists cuts tr tc C T, db_tables A t m p = Ok (cuts, tr, tc) /\
  (exists CU, mrepr cuts hsize n CU /\ forall h i, CU h i N = C h i) /\
  forall h i, 0 <= h < hsize -> 0 <= i < n -> (C h i, T h i) = dline T h i.
Proof.
  pose proof (wb_L m W) as HL. unfold db_tables.
  destruct (proj2 Ht 0 ltac:(lia)) as [u [Eu Ru]]. rewrite Eu. cbn [bind].
  replace (u_size u) with n by (symmetry; apply Ru).
  destruct (m_path m) as [|h0 post] eqn:EP.
  { pose proof (wb_len m W) as K. rewrite EP in K. unfold vlen in K; simpl in K. lia. }
  change (vget (h0 :: post) 0) with (Ok h0). cbn [bind].
  destruct (db_loop_ok post (S (Z.to_nat hsize)) [] h0
     (vrep hsize (u_new n (n - 1)), vrep hsize (u_new n (t_zero A)), vrep hsize (u_new n (t_zero A)))) as [[[cuts tr] tc] [E (CU & TR & TC & R & I1 & I2)]].
  - rewrite EP. auto.
  - pose proof (wb_len m W) as K. rewrite EP in K. unfold vlen in K; simpl in K. lia.
  - exists (fun _ _ _ => n - 1), (fun _ _ _ => t_zero A), (fun _ _ _ => t_zero A). split.
    + cbn. repeat (split; [apply mrepr_new; lia|]). apply mrepr_new; lia.
    + split; [intros h i []|]. auto.
  - change (vlen []) with 0 in E. exists cuts, tr, tc, (fun h i => CU h i N), (fun h i => TR h i N). split; [exact E|].
    split; [exists CU; split; [apply R|auto]|]. intros h i Hh Hi. apply I1; auto. rewrite EP. rewrite <- EP. apply (In_path m W); auto.
Qed.

End M.
