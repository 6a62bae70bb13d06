(** * The pointer-level DPartitioner computes what the value-level one does. *)
From Coq Require Import Lia.
From Verif Require Import Base BaseFacts Arith Quality Utm UtmFacts Hierarchy Values Qualities Partitions Partitioners TradeoffHeap SpecHeap HeapFacts.

Lemma rsim_for_up : forall X Y (R : Z -> X -> Y -> Prop) a b (f : Z -> X -> res X) (g : Z -> Y -> res Y) x y, a <= b ->
  (forall i u v, a <= i < b -> R i u v -> rsim (R (i + 1)) (f i u) (g i v)) -> R a x y ->
  rsim (R b) (for_up a b f x) (for_up a b g y).
Proof.
  intros X Y R a b f g x y Hab. remember (Z.to_nat (b - a)) as k eqn:Ek. revert a x y Hab Ek.
  induction k as [|k IH]; intros a x y Hab Ek H K.
  - replace a with b in * by lia. rewrite !for_up_empty by lia. exact K.
  - rewrite !for_up_cons by lia. eapply rsim_bind; [apply H; [lia|exact K]|]. intros u v N. apply IH; auto; try lia. intros; apply H; auto; lia.
Qed.

Lemma rsim_for_down : forall X Y (R : Z -> X -> Y -> Prop) a b (f : Z -> X -> res X) (g : Z -> Y -> res Y) x y, b <= a ->
  (forall i u v, b <= i < a -> R (i + 1) u v -> rsim (R i) (f i u) (g i v)) -> R a x y ->
  rsim (R b) (for_down a b f x) (for_down a b g y).
Proof.
  intros X Y R a b f g x y Hab. remember (Z.to_nat (a - b)) as k eqn:Ek. revert a x y Hab Ek.
  induction k as [|k IH]; intros a x y Hab Ek H K.
  - replace a with b in * by lia. rewrite !for_down_empty by lia. exact K.
  - rewrite !for_down_step by lia. eapply rsim_bind; [apply H; [lia|]|].
    + replace (a - 1 + 1) with a by lia. exact K.
    + intros u v N. apply IH; auto; try lia. intros; apply H; auto; lia.
Qed.

Section D.
Context (A : arith).
Notation quality := (quality A).
Notation tradeoff := (tradeoff A).
Notation heap := (heap A).
Notation tobj := (tobj A).
Notation obj := (obj A).
Notation ext := (ext A).
Notation tab := (tab A).
Variables (hp0 : heap) (t : list (utm Z)) (tq : list (utm quality)) (m : meta) (p : par A) (n : Z).
Hypothesis T : Forall2 (urel (tab hp0)) t tq.
Hypothesis Hn : 0 <= n <= 65535.
Hypothesis Ht : forall u, vget t 0 = Ok u -> u_size u = n.
Hypothesis HH : 0 <= m_hsize m.
Hypothesis Hpath : forall k h, vget (m_path m) k = Ok h -> 0 <= h < m_hsize m.
Hypothesis Hpar : forall k h g, vget (m_path m) k = Ok h -> k < m_hsize m - 1 -> vget (m_parents m) h = Ok g -> g <> h /\ 0 <= g < m_hsize m.
Notation n0 := (vlen hp0).
Notation H := (m_hsize m).

(** The address of the children's tradeoff of node g on [a,b]. *)
Definition tca (g a b : Z) : Z := n0 + (2 * g + 1) * tri n + tidx n a b.

Lemma tca_inj : forall g a b g' a' b', 0 <= a <= b -> b < n -> 0 <= a' <= b' -> b' < n ->
  tca g a b = tca g' a' b' -> g = g' /\ a = a' /\ b = b'.
Proof.
  intros g a b g' a' b' Ha Hb Ha' Hb' E. unfold tca in E. pose proof (tidx_bound n a b Ha Hb). pose proof (tidx_bound n a' b' Ha' Hb').
  assert (g = g') by nia. subst g'. split; auto. apply tidx_inj with (n := n); auto. lia.
Qed.
Lemma tca_low : forall g a b, 0 <= g -> 0 <= a <= b -> b < n -> n0 <= tca g a b.
Proof. intros g a b Hg Ha Hb. unfold tca. pose proof (tidx_bound n a b Ha Hb). nia. Qed.
Lemma tca_high : forall g a b, g < H -> 0 <= a <= b -> b < n -> tca g a b < n0 + 2 * H * tri n.
Proof. intros g a b Hg Ha Hb. unfold tca. pose proof (tidx_bound n a b Ha Hb). nia. Qed.

Definition known (hp : heap) (h : Z) (ro : Z -> Z -> Z -> tobj) (TR : Z -> Z -> Z -> tradeoff) (a b : Z) : Prop :=
  obj hp (ro h a b) (TR h a b) /\
  forall g a' b', 0 <= g < H -> 0 <= a' <= b' -> b' < n -> g <> h -> to_q (ro h a b) <> tca g a' b'.

Definition RD (h : Z) (done : Z -> Z -> Prop) (s : dh_state A) (s' : db_state A) : Prop :=
  let '(hp, cuts, tr, tc) := s in let '(cuts', tr', tc') := s' in
  exists CU ro TR co TC, cuts = cuts' /\ mrepr cuts H n CU /\ mrepr tr H n ro /\ mrepr tr' H n TR /\ mrepr tc H n co /\ mrepr tc' H n TC /\
    ext hp0 hp /\ n0 + 2 * H * tri n <= vlen hp /\
    (forall g a b, 0 <= g < H -> 0 <= a <= b -> b < n -> to_q (co g a b) = tca g a b /\ obj hp (co g a b) (TC g a b)) /\
    (forall a b, 0 <= a <= b -> b < n -> done a b -> known hp h ro TR a b).

(** Cells of a node in the order they are computed: those before (i,j). *)
Definition before (i j a b : Z) : Prop := i < a \/ (a = i /\ b < j).

Lemma RD_weaken : forall h (d d' : Z -> Z -> Prop) s s', (forall a b, 0 <= a <= b -> b < n -> d' a b -> d a b) -> RD h d s s' -> RD h d' s s'.
Proof.
  intros h d d' [[[hp cuts] tr] tc] [[cuts' tr'] tc'] K (CU & ro & TR & co & TC & R1 & R2 & R3 & R4 & R5 & R6 & R7 & R8 & R9 & R10).
  exists CU, ro, TR, co, TC. repeat (split; auto).
Qed.

Lemma known_new : forall hp hp' h ro TR i j o x a b,
  ext hp hp' -> n0 + 2 * H * tri n <= vlen hp -> obj hp' o x -> (vlen hp <= to_q o \/ (0 <= i <= j /\ j < n /\ to_q o = tca h i j)) ->
  0 <= a <= b -> b < n ->
  (~ (a = i /\ b = j) -> known hp h ro TR a b) -> known hp' h (fupd3 ro h i j o) (fupd3 TR h i j x) a b.
Proof.
  intros hp hp' h ro TR i j o x a b E HL O Q Ha Hb K.
  destruct (Z.eq_dec a i) as [->|Na]; [destruct (Z.eq_dec b j) as [->|Nb]|].
  - unfold known. rewrite !fupd3_same. split; auto. intros g a' b' Hg Ha' Hb' Ng. pose proof (tca_high g a' b' ltac:(lia) Ha' Hb').
    destruct Q as [Q|(Q1 & Q2 & Q)]; [lia|]. rewrite Q. intro C. apply tca_inj in C; auto. destruct C as [C _]. congruence.
  - destruct K as [K1 K2]; [lia|]. unfold known. rewrite !fupd3_other by lia. split; auto. eapply obj_ext; eauto.
  - destruct K as [K1 K2]; [lia|]. unfold known. rewrite !fupd3_other by lia. split; auto. eapply obj_ext; eauto.
Qed.

Lemma dh_init_sim : forall k h i j s s', 0 <= h < H -> 0 <= i <= j -> j < n -> RD h (before i j) s s' ->
  rsim (RD h (before i (j + 1))) (dh_init A t m p k h i j s) (db_init A tq m p k h i j s').
Proof.
  intros k h i j [[[hp cuts] tr] tc] [[cuts' tr'] tc'] Hh Hi Hj (CU & ro & TR & co & TC & <- & R2 & R3 & R4 & R5 & R6 & R7 & R8 & R9 & R10).
  unfold dh_init, db_init.
  destruct (mrepr_set _ _ _ _ _ h i j j R2 Hh Hi Hj) as [cuts1 [-> R2']]. cbn [bind].
  eapply rsim_bind; [apply rsim_mm_get, T|]. intros qa q Hq. pose proof (vget_ext_heap _ _ _ _ _ R7 Hq) as Hq'.
  rewrite (mrepr_get _ _ _ _ _ h i j R3) by auto. cbn [bind].
  destruct (to_set_ok A hp (ro h i j) qa p q Hq') as [-> O1]. cbn [bind].
  set (hp1 := hp ++ [_]) in *. assert (E1 : ext hp hp1) by apply ext_app. set (o1 := mkTO A (vlen hp) _) in *.
  assert (E01 : ext hp0 hp1) by (eapply ext_trans; eauto). pose proof (ext_len _ _ _ E1) as L1.
  destruct (mrepr_set _ _ _ _ _ h i j o1 R3 Hh Hi Hj) as [tr1 [-> R3']]. cbn [bind].
  destruct (mrepr_set _ _ _ _ _ h i j (t_set A q p) R4 Hh Hi Hj) as [tr1' [-> R4']]. cbn [bind].
  assert (R9' : forall g a b, 0 <= g < H -> 0 <= a <= b -> b < n -> to_q (co g a b) = tca g a b /\ obj hp1 (co g a b) (TC g a b)).
  { intros g a b Hg Ha Hb. destruct (R9 g a b Hg Ha Hb). split; auto. apply (obj_ext A hp); auto. }
  assert (R10' : forall a b, 0 <= a <= b -> b < n -> before i (j + 1) a b -> known hp1 h (fupd3 ro h i j o1) (fupd3 TR h i j (t_set A q p)) a b).
  { intros a b Ha Hb D. eapply known_new; [exact E1|exact R8|exact O1|left; unfold o1; cbn [to_q]; lia|auto|auto|]. intro Ne. apply R10; auto. unfold before in *. lia. }
  destruct (m_leaves m <=? k).
  - rewrite (mrepr_get _ _ _ _ _ h i j R5), (mrepr_get _ _ _ _ _ h i j R6) by auto. cbn [bind].
    rewrite (mrepr_get _ _ _ _ _ h i j R3'), (mrepr_get _ _ _ _ _ h i j R4') by auto. cbn [bind]. rewrite !fupd3_same.
    destruct (R9' h i j Hh Hi Hj) as [Qc Oc]. unfold obj in Oc, O1. rewrite Oc. cbn [bind]. rewrite O1. cbn [bind].
    destruct (t_gtb A (TC h i j) (t_set A q p)).
    + destruct (mrepr_set _ _ _ _ _ h i j (-1) R2' Hh Hi Hj) as [cuts2 [-> R2'']]. cbn [bind].
      destruct (mrepr_set _ _ _ _ _ h i j (to_copy A (co h i j)) R3' Hh Hi Hj) as [tr2 [-> R3'']]. cbn [bind].
      destruct (mrepr_set _ _ _ _ _ h i j (TC h i j) R4' Hh Hi Hj) as [tr2' [-> R4'']]. cbn [bind]. cbn [rsim].
      do 5 eexists. split; [reflexivity|]. split; [exact R2''|]. split; [exact R3''|]. split; [exact R4''|]. split; [exact R5|]. split; [exact R6|].
      split; [exact E01|]. split; [lia|]. split; [exact R9'|]. intros a b Ha Hb D.
      eapply known_new; [apply ext_refl|lia|exact Oc|right; split; [|split]; [lia|lia|exact Qc]|auto|auto|]. intro Ne. apply R10'; auto.
    + cbn [rsim]. do 5 eexists. split; [reflexivity|]. split; [exact R2'|]. split; [exact R3'|]. split; [exact R4'|]. split; [exact R5|]. split; [exact R6|].
      split; [exact E01|]. split; [lia|]. split; [exact R9'|exact R10'].
  - cbn [rsim]. do 5 eexists. split; [reflexivity|]. split; [exact R2'|]. split; [exact R3'|]. split; [exact R4'|]. split; [exact R5|]. split; [exact R6|].
    split; [exact E01|]. split; [lia|]. split; [exact R9'|exact R10'].
Qed.

Lemma dh_try_sim : forall h i j c s s', 0 <= h < H -> 0 <= i <= c -> c < j -> j < n -> RD h (before i (j + 1)) s s' ->
  rsim (RD h (before i (j + 1))) (dh_try A t p h i j c s) (db_try A tq p h i j c s').
Proof.
  intros h i j c [[[hp cuts] tr] tc] [[cuts' tr'] tc'] Hh Hi Hc Hj (CU & ro & TR & co & TC & <- & R2 & R3 & R4 & R5 & R6 & R7 & R8 & R9 & R10).
  unfold dh_try, db_try. cbn [h_alloc].
  set (hpa := hp ++ [q_zero A]). assert (Ea : ext hp hpa) by apply ext_app.
  assert (La : vlen hpa = vlen hp + 1) by (unfold hpa; rewrite vlen_app; reflexivity).
  assert (E0a : ext hp0 hpa) by (eapply ext_trans; eauto).
  eapply rsim_bind; [apply rsim_mm_get, T|]. intros qa q Hq. pose proof (vget_ext_heap _ _ _ _ _ E0a Hq) as Hq'.
  rewrite (mrepr_get _ _ _ _ _ h i c R3) by lia. cbn [bind].
  destruct (to_set_ok A hpa (ro h i c) qa p q Hq') as [-> O1]. cbn [bind].
  set (hp1 := hpa ++ [_]) in *. assert (E1 : ext hpa hp1) by apply ext_app. set (o1 := mkTO A (vlen hpa) _) in *.
  destruct (mrepr_set _ _ _ _ _ h i c o1 R3 Hh ltac:(lia) ltac:(lia)) as [tr1 [-> R3']]. cbn [bind].
  destruct (mrepr_set _ _ _ _ _ h i c (t_set A q p) R4 Hh ltac:(lia) ltac:(lia)) as [tr1' [-> R4']]. cbn [bind].
  rewrite (mrepr_get _ _ _ _ _ h i c R3'), (mrepr_get _ _ _ _ _ h i c R4') by lia. cbn [bind]. rewrite !fupd3_same.
  assert (Ot : obj hp1 (mkTO A (vlen hp) (n_zero A)) (t_zero A)).
  { apply (obj_ext A hpa); auto. apply obj_iff. cbn [to_q to_v]. split; auto. apply vget_last. }
  destruct (to_add_any A hp1 _ _ _ _ Ot O1) as (hp2 & -> & L2 & O2 & K2). cbn [bind to_q to_v] in *.
  set (tx2 := mkTO A (vlen hp) (n_add A (n_zero A) (to_v o1))) in *.
  rewrite (mrepr_get _ _ _ _ _ h (c + 1) j R3'), (mrepr_get _ _ _ _ _ h (c + 1) j R4') by lia. cbn [bind]. rewrite !fupd3_other by lia.
  assert (E01 : ext hp hp1) by (eapply ext_trans; eauto).
  assert (L1 : vlen hp1 = vlen hp + 2) by (unfold hp1; rewrite vlen_app, La; unfold vlen; simpl; lia).
  assert (E02 : ext hp hp2).
  { apply ext_keep; [lia|]. intros k Hk. rewrite K2 by lia. apply ext_vget; auto. }
  destruct (R10 (c + 1) j ltac:(lia) ltac:(lia) ltac:(unfold before; lia)) as [Oy _].
  destruct (to_add_any A hp2 _ _ _ _ O2 (obj_ext _ _ _ _ _ E02 Oy)) as (hp3 & -> & L3 & O3 & K3). cbn [bind].
  unfold tx2 in K3, O3 |- *. cbn [to_q to_v] in *. set (tx3 := mkTO A (vlen hp) (n_add A (n_add A (n_zero A) (to_v o1)) (to_v (ro h (c + 1) j)))) in *.
  assert (E03 : ext hp hp3).
  { apply ext_keep; [lia|]. intros k Hk. rewrite K3 by lia. apply ext_vget; auto. }
  assert (O1' : obj hp3 o1 (t_set A q p)).
  { apply obj_other with (hp := hp2) (a := vlen hp); [intros; apply K3; auto|unfold o1; cbn [to_q]; lia|].
    apply obj_other with (hp := hp1) (a := vlen hp); [intros; apply K2; auto|unfold o1; cbn [to_q]; lia|exact O1]. }
  rewrite (mrepr_get _ _ _ _ _ h i j R3'), (mrepr_get _ _ _ _ _ h i j R4') by lia. cbn [bind]. rewrite !fupd3_other by lia.
  destruct (R10 i j ltac:(lia) ltac:(lia) ltac:(unfold before; lia)) as [Oc _]. apply (obj_ext _ _ _ _ _ E03) in Oc.
  unfold obj in O3, Oc. rewrite O3. cbn [bind]. rewrite Oc. cbn [bind].
  assert (R9' : forall g a b, 0 <= g < H -> 0 <= a <= b -> b < n -> to_q (co g a b) = tca g a b /\ obj hp3 (co g a b) (TC g a b)).
  { intros g a b Hg Ha Hb. destruct (R9 g a b Hg Ha Hb). split; auto. apply (obj_ext A hp); auto. }
  assert (R10' : forall a b, 0 <= a <= b -> b < n -> before i (j + 1) a b -> known hp3 h (fupd3 ro h i c o1) (fupd3 TR h i c (t_set A q p)) a b).
  { intros a b Ha Hb D. apply (known_new hp); auto. left. unfold o1. cbn [to_q]. lia. }
  assert (E003 : ext hp0 hp3) by (apply (ext_trans A hp0 hp hp3); auto).
  destruct (t_gtb A _ (TR h i j)).
  - destruct (mrepr_set _ _ _ _ _ h i j c R2 Hh ltac:(lia) ltac:(lia)) as [cuts2 [-> R2']]. cbn [bind].
    destruct (mrepr_set _ _ _ _ _ h i j (to_copy A tx3) R3' Hh ltac:(lia) ltac:(lia)) as [tr2 [-> R3'']]. cbn [bind].
    destruct (mrepr_set _ _ _ _ _ h i j (t_add A (t_add A (t_zero A) (t_set A q p)) (TR h (c + 1) j)) R4' Hh ltac:(lia) ltac:(lia)) as [tr2' [-> R4'']]. cbn [bind rsim].
    do 5 eexists. split; [reflexivity|]. split; [exact R2'|]. split; [exact R3''|]. split; [exact R4''|]. split; [exact R5|]. split; [exact R6|].
    split; [exact E003|]. split; [lia|]. split; [exact R9'|]. intros a b Ha Hb D.
    destruct (Z.eq_dec a i) as [->|Na]; [destruct (Z.eq_dec b j) as [->|Nb]|].
    + unfold known. rewrite !fupd3_same. split; [exact O3|]. intros g a' b' Hg Ha' Hb' _. pose proof (tca_high g a' b' ltac:(lia) Ha' Hb').
      unfold tx3. cbn [to_copy to_q]. lia.
    + destruct (R10' i b Ha Hb D) as [K4 K5]. unfold known. rewrite !(fupd3_other _ _ h i j _ h i b) by lia. auto.
    + destruct (R10' a b Ha Hb D) as [K4 K5]. unfold known. rewrite !(fupd3_other _ _ h i j _ h a b) by lia. auto.
  - cbn [rsim]. do 5 eexists. split; [reflexivity|]. split; [exact R2|]. split; [exact R3'|]. split; [exact R4'|]. split; [exact R5|]. split; [exact R6|].
    split; [exact E003|]. split; [lia|]. split; [exact R9'|exact R10'].
Qed.

Lemma dh_cell_sim : forall k h i j s s', vget (m_path m) k = Ok h -> 0 <= i <= j -> j < n -> RD h (before i j) s s' ->
  rsim (RD h (before i (j + 1))) (dh_cell A t m p k h i j s) (db_cell A tq m p k h i j s').
Proof.
  intros k h i j s s' Ek Hi Hj Hs. pose proof (Hpath _ _ Ek) as Hh. unfold dh_cell, db_cell.
  eapply rsim_bind; [apply dh_init_sim; eauto|]. clear s s' Hs. intros s s' Hs.
  eapply rsim_bind; [apply (rsim_for_up _ _ (fun _ => RD h (before i (j + 1)))); [lia| |exact Hs]|].
  { intros c u v Hc K. apply dh_try_sim; auto; lia. }
  clear s s' Hs. intros [[[hp cuts] tr] tc] [[cuts' tr'] tc'] Hs. destruct (Z.ltb_spec k (H - 1)) as [Lk|Lk]; [|exact Hs].
  eapply rsim_bind with (R := fun g g' => g = g' /\ vget (m_parents m) h = Ok g).
  { destruct (vget (m_parents m) h); simpl; auto. } intros g g' [<- Eg].
  destruct (Hpar _ _ _ Ek Lk Eg) as [Ng Hg].
  destruct Hs as (CU & ro & TR & co & TC & <- & R2 & R3 & R4 & R5 & R6 & R7 & R8 & R9 & R10).
  rewrite (mrepr_get _ _ _ _ _ g i j R5), (mrepr_get _ _ _ _ _ g i j R6) by auto. cbn [bind].
  rewrite (mrepr_get _ _ _ _ _ h i j R3), (mrepr_get _ _ _ _ _ h i j R4) by auto. cbn [bind].
  destruct (R9 g i j Hg Hi Hj) as [Qg Og]. destruct (R10 i j Hi Hj ltac:(unfold before; lia)) as [Oh _].
  destruct (to_add_any A hp _ _ _ _ Og Oh) as (hp1 & -> & L1 & O1 & K1). cbn [bind]. set (x1 := mkTO A _ _) in *.
  destruct (mrepr_set _ _ _ _ _ g i j x1 R5 Hg Hi Hj) as [tc1 [-> R5']]. cbn [bind].
  destruct (mrepr_set _ _ _ _ _ g i j (t_add A (TC g i j) (TR h i j)) R6 Hg Hi Hj) as [tc1' [-> R6']]. cbn [bind rsim].
  rewrite Qg in K1. pose proof (tca_low g i j ltac:(lia) Hi Hj) as Lo.
  do 5 eexists. split; [reflexivity|]. split; [exact R2|]. split; [exact R3|]. split; [exact R4|]. split; [exact R5'|]. split; [exact R6'|].
  split; [|split; [lia|split]].
  - apply ext_keep; [rewrite L1; apply ext_len; auto|]. intros x Hx. rewrite K1 by lia. apply ext_vget; auto.
  - intros g' a b Hg' Ha Hb.
    assert (C : (g' = g /\ a = i /\ b = j) \/ ~ (g' = g /\ a = i /\ b = j)) by lia.
    destruct C as [(-> & -> & ->)|C]; [rewrite !fupd3_same; split; auto|].
    rewrite !fupd3_other by exact C. destruct (R9 g' a b ltac:(lia) Ha Hb) as [Q O]. split; [exact Q|].
    eapply obj_other; [exact K1| |exact O]. rewrite Q. intro C'. apply tca_inj in C'; auto.
  - intros a b Ha Hb D. destruct (R10 a b Ha Hb D) as [K2 K3]. split; [|exact K3]. eapply obj_other; [exact K1| |exact K2]. apply K3; auto.
Qed.

Lemma dh_node_sim : forall k h d s s', vget (m_path m) k = Ok h -> RD h d s s' ->
  rsim (RD h (fun _ _ => False)) (dh_node A t m p n k h s) (db_node A tq m p n k h s').
Proof.
  intros k h d s s' Ek Hs. unfold dh_node, db_node.
  eapply rsim_weaken; [apply (rsim_for_down _ _ (fun i => RD h (before (i - 1) (i - 1)))) with (b := 0); [lia| |]|].
  - intros i u v Hi K. eapply rsim_weaken; [apply (rsim_for_up _ _ (fun j => RD h (before i j))) with (b := n); [lia| |]|].
    + intros j u' v' Hj K'. apply dh_cell_sim; auto; lia.
    + eapply RD_weaken; [|exact K]. unfold before. intros. lia.
    + intros u' v' K'. eapply RD_weaken; [|exact K']. unfold before. intros. lia.
  - eapply RD_weaken; [|exact Hs]. unfold before. intros. lia.
  - intros u v K. eapply RD_weaken; [|exact K]. tauto.
Qed.

Lemma RD_none : forall h h' s s', RD h (fun _ _ => False) s s' -> RD h' (fun _ _ => False) s s'.
Proof.
  intros h h' [[[hp cuts] tr] tc] [[cuts' tr'] tc'] (CU & ro & TR & co & TC & R1 & R2 & R3 & R4 & R5 & R6 & R7 & R8 & R9 & R10).
  exists CU, ro, TR, co, TC. repeat (split; auto). all: tauto.
Qed.

Lemma dh_nodes_sim : forall fuel k h s s', vget (m_path m) k = Ok h -> RD h (fun _ _ => False) s s' ->
  rsim (RD h (fun _ _ => False)) (dh_nodes A fuel t m p n k h s) (db_loop A fuel tq m p n k h s').
Proof.
  induction fuel as [|fuel IH]; intros k h s s' Ek Hs; cbn [dh_nodes db_loop]; [exact Logic.I|].
  destruct (k <? H); [|exact Hs]. eapply rsim_bind; [eapply dh_node_sim; eauto|]. intros u v K. destruct (h =? m_root m); [exact K|].
  destruct (vget (m_path m) (k + 1)) as [h'| |] eqn:E'; cbn [bind]; try exact Logic.I.
  eapply rsim_weaken; [apply IH; [exact E'|eapply RD_none; exact K]|]. intros; eapply RD_none; eauto.
Qed.

Lemma u_fresh_urepr : forall base, urepr (u_fresh A n base) n (fun a b => mkTO A (base + tidx n a b) (n_zero A)).
Proof.
  intro base. unfold urepr, u_fresh. cbn [u_size u_elements u_data]. rewrite u_count_ok by lia. pose proof (tri_nonneg n ltac:(lia)).
  assert (L : vlen (map (fun e => mkTO A (base + e) (n_zero A)) (zrange 0 (tri n))) = tri n).
  { unfold vlen. rewrite map_length, zrange_length. lia. }
  repeat (split; auto; try lia). intros i j Hi Hj. unfold u_get. cbn [u_size u_data]. rewrite u_index_ok by lia.
  pose proof (tidx_bound n i j Hi Hj). apply (vget_map _ _ (fun e => mkTO A (base + e) (n_zero A)) _ _ (tidx n i j)).
  rewrite vget_zrange by lia. f_equal; lia.
Qed.

Lemma fresh_mrepr : forall base, mrepr (map (fun h => u_fresh A n (base h)) (zrange 0 H)) H n (fun h a b => mkTO A (base h + tidx n a b) (n_zero A)).
Proof.
  intro base. split; [unfold vlen; rewrite map_length, zrange_length; lia|]. intros h Hh. exists (u_fresh A n (base h)). split; [|apply u_fresh_urepr].
  apply (vget_map _ _ (fun h => u_fresh A n (base h)) _ _ h). rewrite vget_zrange by lia. f_equal; lia.
Qed.

Lemma dh_tables_sim : rsim (RD 0 (fun _ _ => False)) (dh_tables A hp0 t m p) (db_tables A tq m p).
Proof.
  unfold dh_tables, db_tables. eapply rsim_bind with (R := fun u u' => u_size u = n /\ u_size u' = n).
  { pose proof (rsim_vget _ _ _ _ _ 0 T) as K. destruct (vget t 0) as [u| |] eqn:E, (vget tq 0) as [u'| |]; simpl in *; try tauto.
    destruct K as [K _]. rewrite <- K. auto. }
  intros u u' [-> ->]. destruct (vget (m_path m) 0) as [h| |] eqn:Eh; cbn [bind]; try exact Logic.I.
  eapply rsim_weaken; [apply dh_nodes_sim; auto|]. 2: { intros; eapply RD_none; eauto. }
  rewrite u_count_ok by lia. pose proof (tri_nonneg n ltac:(lia)) as Tn.
  do 5 eexists. split; [reflexivity|]. split; [apply mrepr_new; lia|]. split; [apply fresh_mrepr|]. split; [apply mrepr_new; lia|].
  split; [apply fresh_mrepr|]. split; [apply mrepr_new; lia|]. split; [apply ext_app|]. split; [|split].
  - rewrite vlen_app, vlen_vrep by nia. lia.
  - intros g a b Hg Ha Hb. cbn [to_q]. split; [reflexivity|]. apply obj_iff. cbn [to_q to_v]. split; auto.
    pose proof (tca_low g a b ltac:(lia) Ha Hb) as L1. pose proof (tca_high g a b ltac:(lia) Ha Hb) as L2.
    fold (tca g a b). rewrite vget_app_r by lia. apply vget_vrep. lia.
  - tauto.
Qed.

Definition dkey (x : dpart A) : (Z * Z * (Z * Z)) * quality := ((dp_h x, dp_hsize x, (dp_start x, dp_end x)), dp_quality x).

Lemma dh_sub_sim : forall fuel cuts h i j,
  rsim (fun l x => tparts A hp0 l (map dkey x)) (dh_sub fuel cuts t m h i j) (dn_sub A fuel cuts tq m h i j).
Proof.
  induction fuel as [|fuel IH]; intros cuts h i j; cbn [dh_sub dn_sub]; [exact Logic.I|].
  eapply rsim_bind with (R := eq); [apply rsim_eq; auto|]. intros c c' <-. destruct (c =? -1).
  - eapply rsim_bind with (R := eq); [apply rsim_eq; auto|]. intros ch ch' <-.
    eapply rsim_bind; [apply rsim_mmap; intros; apply IH|]. intros ls xs K. simpl. rewrite concat_map. apply tparts_concat.
    clear - K. induction K; simpl; constructor; auto.
  - eapply rsim_bind; [apply rsim_mm_get, T|]. intros qa q Hq. destruct (c <? j).
    + eapply rsim_bind; [apply IH|]. intros l x K. simpl. constructor; [split; auto|exact K].
    + simpl. constructor; [split; auto|constructor].
Qed.

Theorem dh_best_sim : rsim (fun r x => let '(hp, y) := r in
    ext hp0 hp /\ pn_choice y = dn_cuts x /\ pn_par y = dn_param x /\ tab hp (pn_qual y) (dn_quality x) /\ vlen hp0 <= pn_qual y /\
    tparts A hp0 (pn_parts y) (map dkey (dn_parts x)))
  (dh_best A hp0 t m p) (d_best A tq m p).
Proof.
  unfold dh_best, d_best. eapply rsim_bind; [apply dh_tables_sim|]. intros [[[hp cuts] tr] tc] [[cuts' tr'] tc'] Hs.
  assert (E : ext hp0 hp /\ cuts = cuts').
  { destruct Hs as (CU & ro & TR & co & TC & R1 & R2 & R3 & R4 & R5 & R6 & R7 & _). auto. }
  destruct E as [E <-]. cbn [fst]. unfold dn_make.
  eapply rsim_bind with (R := fun u u' => u_size u = u_size u').
  { eapply rsim_weaken; [apply rsim_vget, T|]. intros a b K. apply K. }
  intros u u' ->. eapply rsim_bind; [apply dh_sub_sim|]. intros l x K. rewrite (pn_total_ok A _ hp l _ (tparts_ext _ _ _ _ _ _ E K)). simpl.
  rewrite map_map. change (map (fun x0 => snd (dkey x0)) x) with (map dp_quality x).
  repeat (split; auto).
  - eapply ext_trans; [exact E|apply ext_app].
  - unfold HeapFacts.tab. apply vget_last.
  - apply ext_len, E.
Qed.
End D.
