(** * Property C89: where two of the three aggregations apply to the same data they agree. *)
From Coq Require Import Reals Lra Lia Permutation.
From Verif Require Import Base BaseFacts Arith Quality Utm UtmFacts UtmProofs Hierarchy HierarchyFacts SpecTree SpecParts SpecInfo SpecData SpecShape SpecOverlap Values Qualities Partitions Partitioners
  TreeFacts TreePath LexR HFacts CoverFacts DFacts DSel InfoFacts HReal DReal OReal HProofs DProofs HQual DataFacts DataCons HDataProofs P_HierData P_Shape.

Section A.
Context (A : arith).
Notation num := (num A).
Notation lift := (map one_cell).
Definition rmap {X Y} (f : X -> Y) (r : res X) : res Y := let* x := r in Ok (f x).

Lemma vset_fuel : forall X (l : list X) i x, vset l i x <> OutOfFuel.
Proof. intros X l i x. unfold vset. destruct ((i <? 0) || (Z.of_nat (length l) <=? i)); discriminate. Qed.
Lemma get_set_ok : forall X (l : list X) i x, match vget l i with Ok _ => exists l', vset l i x = Ok l' | _ => vset l i x = UB end.
Proof.
  intros X l i x. unfold vget, vset. destruct (Z.ltb_spec i 0); [reflexivity|]. cbn [orb]. destruct (nth_error l (Z.to_nat i)) eqn:E.
  - assert (Z.to_nat i < length l)%nat by (apply nth_error_Some; congruence). destruct (Z.leb_spec (Z.of_nat (length l)) i); [lia|]. eauto.
  - apply nth_error_None in E. destruct (Z.leb_spec (Z.of_nat (length l)) i); [reflexivity|lia].
Qed.
Lemma upd_map : forall X Y (f : X -> Y) n x l, upd n (f x) (map f l) = map f (upd n x l).
Proof. intros X Y f n x l. revert n. induction l as [|y l IH]; intros [|n]; cbn; auto. rewrite IH. reflexivity. Qed.
Lemma vset_mapped : forall X Y (f : X -> Y) l i x, vset (map f l) i (f x) = rmap (map f) (vset l i x).
Proof. intros. unfold vset. rewrite map_length. destruct ((i <? 0) || (Z.of_nat (length l) <=? i)); cbn; [reflexivity|]. rewrite upd_map. reflexivity. Qed.

Lemma get_lift : forall X (l : list X) h, mm_get (lift l) h 0 0 = vget l h.
Proof. intros X l h. unfold mm_get. rewrite vget_mapped. destruct (vget l h); reflexivity. Qed.
Lemma set_lift : forall X (l : list X) h x, mm_set (lift l) h 0 0 x = rmap lift (vset l h x).
Proof.
  intros X l h x. unfold mm_set. rewrite vget_mapped. pose proof (get_set_ok X l h x) as V. pose proof (vget_fuel X l h) as F. destruct (vget l h) as [y| |]; cbn [bind].
  - change (u_set (one_cell y) 0 0 x) with (Ok (one_cell x)). cbn [bind]. apply vset_mapped.
  - rewrite V. reflexivity.
  - congruence.
Qed.
Lemma vrep_lift : forall X n (x : X), vrep n (u_new 1 x) = lift (vrep n x).
Proof. intros X n x. unfold vrep. change (u_new 1 x) with (one_cell x). generalize (Z.to_nat n). induction n0 as [|k IH]; cbn; [reflexivity|]. rewrite IH. reflexivity. Qed.
Lemma for_up_1 : forall S f (s : S), for_up 0 1 f s = f 0 s.
Proof. intros S f s. unfold for_up. change (zrange 0 1) with [0]. cbn [mfold]. destruct (f 0 s); reflexivity. Qed.
Lemma for_down_1 : forall S f (s : S), for_down 1 0 f s = f 0 s.
Proof. intros S f s. unfold for_down. change (rev (zrange 0 1)) with [0]. cbn [mfold]. destruct (f 0 s); reflexivity. Qed.

Ltac nofuel := match goal with
  | E : vget ?l ?i = OutOfFuel |- _ => exfalso; exact (vget_fuel _ l i E)
  | E : vset ?l ?i ?x = OutOfFuel |- _ => exfalso; exact (vset_fuel _ l i x E) end.
Ltac op := unfold rmap; match goal with
  | |- context [bind (vget ?l ?i) _] => destruct (vget l i) eqn:?; cbn [bind rmap]; try nofuel
  | |- context [bind (vset ?l ?i ?x) _] => destruct (vset l i x) eqn:?; cbn [bind rmap]; try nofuel end.

Definition lift2 (st : list num * list num) : list (utm num) * list (utm num) := (lift (fst st), lift (snd st)).
Definition lift3 (st : list num * list num * list (quality A)) : dq_state A := (lift (fst (fst st)), lift (snd (fst st)), lift (snd st)).

Lemma toParent_sim : forall m h sum info, dq_toParent A m h 0 0 (lift sum) (lift info) =
  (let* p := vget (m_parents m) h in let* sp := vget sum p in let* sh := vget sum h in let* sum := vset sum p (n_add A sp sh) in
   let* ip := vget info p in let* ih := vget info h in let* info := vset info p (n_add A ip ih) in Ok (lift sum, lift info)).
Proof.
  intros m h sum info. unfold dq_toParent, mm_addto. op; [|reflexivity]. rewrite ?get_lift.
  destruct (vget sum h) eqn:E1; cbn [bind]; try nofuel; destruct (vget sum x) eqn:E2; cbn [bind]; try nofuel; try reflexivity.
  rewrite set_lift. destruct (vset sum x (n_add A x1 x0)); cbn [bind rmap]; try nofuel; try reflexivity. rewrite ?get_lift.
  destruct (vget info h) eqn:E3; cbn [bind]; try nofuel; destruct (vget info x) eqn:E4; cbn [bind]; try nofuel; try reflexivity.
  rewrite set_lift. destruct (vset info x (n_add A x4 x3)); cbn [bind rmap]; try nofuel; reflexivity.
Qed.

Lemma update_sim : forall (m : meta) n h sum info q, n = m_sizeof m h -> dq_update A (lift sum) (lift info) n h 0 0 (lift q) = rmap lift (hq_update A m sum info h q).
Proof.
  intros m n h sum info q ->. unfold dq_update, hq_update. rewrite ?get_lift.
  destruct (vget sum h); cbn [bind]; try reflexivity; destruct (vget info h); cbn [bind]; try reflexivity; destruct (vget q h); cbn [bind]; try reflexivity. apply set_lift.
Qed.

Lemma leaf_sim : forall (v : hvalues A) (v' : dvalues A) m k h sum info q, (let* r := dv_row v' h k in vget r 0) = hv_value v h k -> vget (m_parents m) h <> Ok h ->
  dq_leaf A v' m 1 k h (lift sum, lift info, q) = let* si := hq_leaf A v m k h (sum, info) in Ok (lift2 si, q).
Proof.
  intros v v' m k h sum info q Hv Hp. unfold dq_leaf. rewrite for_down_1. unfold dq_leafLine, hq_leaf. rewrite <- Hv. destruct (dv_row v' h k) as [r| |]; cbn [bind]; [|reflexivity..].
  destruct (vget r 0) as [x| |] eqn:Ex; cbn [bind]; try nofuel; [|reflexivity]. rewrite set_lift. destruct (vset sum h x) as [s0| |] eqn:Es; cbn [bind rmap]; try nofuel; [|reflexivity]. rewrite set_lift.
  assert (Eh : vget s0 h = Ok x) by (rewrite (vget_vset _ _ _ _ _ _ Es), Z.eqb_refl; reflexivity).
  destruct (vget (m_parents m) h) as [p| |] eqn:Ep; cbn [bind]; try nofuel.
  2:{ destruct (vset info h _) eqn:?; cbn [bind rmap]; try nofuel; [|reflexivity]. rewrite toParent_sim, Ep. reflexivity. }
  assert (D : h <> p) by congruence. rewrite Eh. cbn [bind].
  destruct (vget s0 p) as [sp| |] eqn:E1; cbn [bind]; try nofuel.
  2:{ destruct (vset info h _) eqn:?; cbn [bind rmap]; try nofuel; [|reflexivity]. rewrite toParent_sim, Ep. cbn [bind]. rewrite E1. reflexivity. }
  destruct (vset s0 p (n_add A sp x)) as [s1| |] eqn:E2; cbn [bind]; try nofuel.
  2:{ destruct (vset info h _) eqn:?; cbn [bind rmap]; try nofuel; [|reflexivity]. rewrite toParent_sim, Ep. cbn [bind]. rewrite E1. cbn [bind]. rewrite Eh. cbn [bind]. rewrite E2. reflexivity. }
  assert (Eh1 : vget s1 h = Ok x). { rewrite (vget_vset _ _ _ _ _ _ E2). destruct (Z.eqb_spec h p); [contradiction|]. exact Eh. }
  rewrite Eh1. cbn [bind]. destruct (vset info h (entropyReduction A x (n_zero A))) as [i0| |] eqn:Ei; cbn [bind rmap]; try nofuel; [|reflexivity].
  rewrite toParent_sim, Ep. cbn [bind]. rewrite E1. cbn [bind]. rewrite Eh. cbn [bind]. rewrite E2. cbn [bind].
  destruct (vget i0 p) as [ip| |]; cbn [bind]; [|reflexivity..]. destruct (vget i0 h) as [ih| |]; cbn [bind]; [|reflexivity..]. destruct (vset i0 p (n_add A ip ih)) as [i1| |]; cbn [bind]; reflexivity.
Qed.

Lemma node_sim : forall m h st, vget (m_parents m) h <> Ok h -> dq_node A m 1 h (lift3 st) = rmap lift3 (hq_node A m h st).
Proof.
  intros m h [[sum info] q] Hp. unfold dq_node. rewrite for_down_1, for_up_1. unfold dq_nodeCell, hq_node, lift3. cbn [fst snd].
  rewrite (update_sim m) by lia. unfold hq_update at 1. 
  destruct (vget (m_parents m) h) as [p| |] eqn:Ep; cbn [bind]; try nofuel.
  2:{ repeat op; try reflexivity. rewrite toParent_sim, Ep. reflexivity. }
  assert (D : h <> p) by congruence.
  destruct (vget sum h) as [sh| |] eqn:E1; cbn [bind rmap]; try nofuel.
  2:{ destruct (vget sum p) eqn:?; reflexivity || nofuel. }
  destruct (vget sum p) as [sp| |] eqn:E2; cbn [bind]; try nofuel.
  2:{ repeat op; try reflexivity. rewrite toParent_sim, Ep. cbn [bind]. rewrite E2. reflexivity. }
  pose proof (get_set_ok _ sum p (n_add A sp sh)) as V. rewrite E2 in V. destruct V as [s1 V]. rewrite V. cbn [bind].
  destruct (vget info h) as [ih| |] eqn:E3; cbn [bind rmap]; try nofuel.
  2:{ destruct (vget info p) eqn:?; reflexivity || nofuel. }
  destruct (vget info p) as [ip| |] eqn:E4; cbn [bind]; try nofuel.
  2:{ repeat op; try reflexivity. rewrite toParent_sim, Ep. cbn [bind]. rewrite E2. cbn [bind]. rewrite E1. cbn [bind]. rewrite V. cbn [bind]. rewrite E4. reflexivity. }
  pose proof (get_set_ok _ info p (n_add A ip ih)) as V'. rewrite E4 in V'. destruct V' as [i1 V']. rewrite V'. cbn [bind].
  assert (K1 : vget s1 h = Ok sh). { rewrite (vget_vset _ _ _ _ _ _ V). destruct (Z.eqb_spec h p); [contradiction|]. exact E1. }
  assert (K2 : vget i1 h = Ok ih). { rewrite (vget_vset _ _ _ _ _ _ V'). destruct (Z.eqb_spec h p); [contradiction|]. exact E3. }
  unfold hq_update. rewrite K1, K2. cbn [bind]. repeat op; try reflexivity.
  rewrite toParent_sim, Ep. cbn [bind]. rewrite E2. cbn [bind]. rewrite E1. cbn [bind]. rewrite V. cbn [bind]. rewrite E4. cbn [bind]. rewrite E3. cbn [bind]. rewrite V'. reflexivity.
Qed.

Lemma path_sim : forall X Y path a n (f : Z -> X -> res X) (g : Z -> Y -> res Y) (u : X -> Y) s, (forall h s, g h (u s) = rmap u (f h s)) ->
  path_loop path a n g (u s) = let* r := path_loop path a n f s in Ok (u (fst r), snd r).
Proof.
  intros X Y path a n f g u s H. unfold path_loop. destruct (vget path a) as [h| |]; cbn [bind]; [|reflexivity..]. unfold for_up. revert s h. induction (zrange a n) as [|i l IH]; intros s h; cbn [mfold]; [reflexivity|].
  rewrite H. destruct (f h s) as [s'| |]; cbn [bind rmap]; [|reflexivity..]. destruct (vget path (i + 1)) as [h'| |]; cbn [bind]; [|reflexivity..]. apply IH.
Qed.

Definition no_self (ps : list Z) : Prop := forall h, vget ps h <> Ok h.

Section D.
Variables (v : hvalues A) (v' : dvalues A).
Hypothesis Em : dv_meta v' = hv_meta v.
Hypothesis Ev : dv_vsize v' = hv_vsize v.
Hypothesis Eo : dv_osize v' = 1.
Hypothesis Hv : forall h k, (let* r := dv_row v' h k in vget r 0) = hv_value v h k.
Notation m := (hv_meta v).
Hypothesis NS : no_self (m_parents m).
Hypothesis Hm : 0 <= m_hsize m.

Lemma component_sim : forall k q, dq_component A v' m k (lift q) = rmap lift (hq_component A v m k q).
Proof.
  intros k q. unfold dq_component, hq_component. rewrite Eo, vrep_lift.
  assert (P1 := path_sim _ _ (m_path m) 0 (m_leaves m) (fun h (st : list num * list num * list (quality A)) => let* si := hq_leaf A v m k h (fst st) in Ok (si, snd st)) (dq_leaf A v' m 1 k) lift3 (vrep (m_hsize m) (n_zero A), vrep (m_hsize m) (n_zero A), q)).
  change (lift (vrep (m_hsize m) (n_zero A)), lift (vrep (m_hsize m) (n_zero A)), lift q) with (lift3 (vrep (m_hsize m) (n_zero A), vrep (m_hsize m) (n_zero A), q)). rewrite P1.
  2:{ intros h [[a b] c]. unfold lift3 at 1. cbn [fst snd]. rewrite (leaf_sim v v' m k h a b (lift c) (Hv h k) (NS h)). destruct (hq_leaf A v m k h (a, b)) as [[a' b']| |]; reflexivity. }
  clear P1.
  assert (P2 : path_loop (m_path m) 0 (m_leaves m) (fun h (st : list num * list num * list (quality A)) => let* si := hq_leaf A v m k h (fst st) in Ok (si, snd st)) (vrep (m_hsize m) (n_zero A), vrep (m_hsize m) (n_zero A), q)
     = let* r := path_loop (m_path m) 0 (m_leaves m) (hq_leaf A v m k) (vrep (m_hsize m) (n_zero A), vrep (m_hsize m) (n_zero A)) in Ok ((fst r, q), snd r)).
  { apply (path_sim _ _ _ _ _ (hq_leaf A v m k) _ (fun si => (si, q))). intros h s. cbn [fst snd]. reflexivity. }
  rewrite P2. clear P2. destruct (path_loop (m_path m) 0 (m_leaves m) (hq_leaf A v m k) _) as [[[s0 i0] h0]| |]; cbn [bind fst snd]; [|reflexivity..].
  rewrite (path_sim _ _ _ _ _ (hq_node A m) (dq_node A m 1) lift3) by (intros; apply node_sim; apply NS).
  destruct (path_loop (m_path m) (m_leaves m) (m_hsize m - 1) (hq_node A m) (s0, i0, q)) as [[[[s1 i1] q1] h1]| |]; cbn [bind fst snd]; [|reflexivity..].
  unfold dq_root. rewrite for_down_1, for_up_1. unfold lift3. cbn [fst snd]. rewrite (update_sim m) by lia. destruct (hq_update A m s1 i1 h1 q1); reflexivity.
Qed.

Lemma table_sim : dq_computeTable A v' m = rmap lift (hq_computeTable A v m).
Proof.
  unfold dq_computeTable, hq_computeTable. rewrite Eo, Ev, vrep_lift. unfold for_up. generalize (vrep (m_hsize m) (q_zero A)). induction (zrange 0 (hv_vsize v)) as [|k l IH]; intro q; cbn [mfold]; [reflexivity|].
  rewrite component_sim. destruct (hq_component A v m k q) as [q'| |]; cbn [bind rmap]; [apply IH|reflexivity..].
Qed.

Lemma path_inv : forall X path a n (f : Z -> X -> res X) (I : X -> Prop) s r, (forall h s s', I s -> f h s = Ok s' -> I s') -> I s -> path_loop path a n f s = Ok r -> I (fst r).
Proof.
  intros X path a n f I s r H Hs E. unfold path_loop in E. destruct (vget path a) as [h| |]; cbn [bind] in E; try discriminate. unfold for_up in E. revert s h Hs E. induction (zrange a n) as [|i l IH]; intros s h Hs E; cbn [mfold] in E.
  - injection E as <-. exact Hs.
  - destruct (f h s) as [s'| |] eqn:Ef; cbn [bind] in E; try discriminate. destruct (vget path (i + 1)) as [h'| |]; cbn [bind] in E; try discriminate. eapply IH; [|exact E]. eapply H; eauto.
Qed.
Lemma vset_len : forall X (l l' : list X) i x, vset l i x = Ok l' -> vlen l' = vlen l.
Proof. intros X l l' i x E. apply vset_inv in E. destruct E as [_ ->]. unfold vlen. rewrite upd_length. reflexivity. Qed.
Lemma update_len : forall s f h q q', hq_update A m s f h q = Ok q' -> vlen q' = vlen q.
Proof.
  intros s f h q q' E. unfold hq_update in E. destruct (vget s h); cbn [bind] in E; try discriminate. destruct (vget f h); cbn [bind] in E; try discriminate. destruct (vget q h); cbn [bind] in E; try discriminate. eapply vset_len; eauto.
Qed.
Lemma table_len : forall t, hq_computeTable A v m = Ok t -> vlen t = m_hsize m.
Proof.
  intros t E. assert (G : forall l q, vlen q = m_hsize m -> mfold (hq_component A v m) l q = Ok t -> vlen t = m_hsize m).
  { induction l as [|k l IH]; intros q Hq E'; cbn [mfold] in E'; [congruence|]. destruct (hq_component A v m k q) as [q'| |] eqn:Ec; cbn [bind] in E'; try discriminate. eapply IH; [|exact E'].
    unfold hq_component in Ec. destruct (path_loop _ 0 _ _ _) as [[[s0 i0] h0]| |]; cbn [bind] in Ec; try discriminate.
    destruct (path_loop _ _ _ (hq_node A m) _) as [[[[s1 i1] q1] h1]| |] eqn:Ep; cbn [bind] in Ec; try discriminate.
    apply update_len in Ec. rewrite Ec. apply (path_inv _ _ _ _ _ (fun st : list num * list num * list (quality A) => vlen (snd st) = m_hsize m)) in Ep; [exact Ep| |exact Hq].
    intros h [[a b] c] st' Hc En. unfold hq_node in En. repeat match type of En with context [bind ?e _] => lazymatch e with bind _ _ => fail | _ => destruct e eqn:?; cbn [bind] in En; try discriminate end end.
    injection En as <-. cbn [snd] in *. erewrite update_len by eassumption. exact Hc. }
  eapply (G _ (vrep (m_hsize m) (q_zero A))); [|exact E]. apply vlen_vrep. exact Hm.
Qed.

Lemma norm_sim : forall (t : list (quality A)) root, d_normalize A (lift t) (vlen t) root 0 = rmap lift (h_normalize A t root).
Proof.
  intros t root. unfold d_normalize, h_normalize, for_up.
  assert (G : forall l (t : list (quality A)), mfold (fun h t0 => let* u := vget t0 h in mfold (fun i t1 => let* u := vget t1 h in let* q := u_at u i in let* ur := vget t1 root in let* mx := vget (u_data ur) 0 in let* u' := u_put u i (q_div A q mx) in vset t1 h u') (zrange 0 (u_elements u)) t0) l (lift t)
     = rmap lift (mfold (fun i t => let* q := vget t i in let* mx := vget t root in vset t i (q_div A q mx)) l t)).
  { induction l as [|h l IH]; intro t0; cbn [mfold]; [reflexivity|]. rewrite vget_mapped. destruct (vget t0 h) as [q| |] eqn:Eq; cbn [bind]; [|reflexivity..].
    change (zrange 0 (u_elements (one_cell q))) with [0]. cbn [mfold]. rewrite vget_mapped, Eq. cbn [bind]. change (u_at (one_cell q) 0) with (Ok q). cbn [bind].
    rewrite vget_mapped. destruct (vget t0 root) as [mx| |]; cbn [bind]; [|reflexivity..]. change (vget (u_data (one_cell mx)) 0) with (Ok mx). cbn [bind].
    change (u_put (one_cell q) 0 (q_div A q mx)) with (Ok (one_cell (q_div A q mx))). cbn [bind]. rewrite vset_mapped. destruct (vset t0 h (q_div A q mx)) as [t1| |]; cbn [bind rmap]; [apply IH|reflexivity..]. }
  apply G.
Qed.

Lemma d_table_sim : d_table A (Ok v') = sliced (h_table A (Ok v)) /\ d_ntable A (Ok v') = sliced (h_ntable A (Ok v)).
Proof.
  unfold d_table, h_table, d_ntable, h_ntable, dq_compute, hq_compute, dq_ofValues, hq_ofValues, sliced. cbn [dq_values hq_values dq_meta hq_meta bind]. rewrite Em, table_sim.
  destruct (hq_computeTable A v m) as [t| |] eqn:Et; [|split; reflexivity..]. unfold rmap. cbn [bind]. split; [reflexivity|].
  unfold dq_normalize, hq_normalize. cbn [dq_table hq_table dq_values dq_meta hq_meta hq_values]. rewrite vget_mapped. destruct (vget t (m_root m)) as [q| |]; cbn [bind]; [|reflexivity..].
  rewrite Eo. change (u_get (one_cell q) 0 (1 - 1)) with (Ok q). cbn [bind]. change (u_index (u_size (one_cell q)) 0 (1 - 1)) with 0. rewrite <- (table_len t Et), norm_sim.
  destruct (h_normalize A t (m_root m)); reflexivity.
Qed.
End D.

Lemma build_meta : forall n ps m, meta_build n ps = Ok m -> m_parents m = ps /\ m_hsize m = vlen ps.
Proof.
  intros n ps m E. unfold meta_build, meta_build_fuel in E. destruct (sp_loop _ _ _ _) as [[[path ch] sz]| |]; cbn [bind] in E; try discriminate.
  destruct (vget path (vlen path - 1)) as [r| |]; cbn [bind] in E; try discriminate. injection E as <-. split; reflexivity.
Qed.

(** One slice: computeQualities() and normalize() of the spatiotemporal aggregation give the hierarchical table, entry for entry and in any arithmetic,
    also when they fail. *)
Theorem C89_slice_tables :
  (forall (d : list (list num)) ps, no_self ps -> 1 <= size2 d ->
     d_table A (dv3_of A (one_slice d) ps) = sliced (h_table A (hv2_of A d ps)) /\ d_ntable A (dv3_of A (one_slice d) ps) = sliced (h_ntable A (hv2_of A d ps))) /\
  (forall (d : list num) ps, no_self ps -> d <> [] ->
     d_table A (dv2_of A (one_slice1 d) ps) = sliced (h_table A (hv1_of A d ps)) /\ d_ntable A (dv2_of A (one_slice1 d) ps) = sliced (h_ntable A (hv1_of A d ps))).
Proof.
  assert (L : forall X Y (f : X -> Y) l, size1 (map f l) = size1 l) by (intros; unfold size1, vlen; rewrite map_length; reflexivity).
  split.
  - intros d ps NS Hd. unfold dv3_of, hv2_of. replace (size1 (one_slice d)) with (size1 d) by (symmetry; apply L). destruct (meta_build (size1 d) ps) as [m| |] eqn:Em; cbn [bind]; [|split; reflexivity..].
    destruct (build_meta _ _ _ Em) as [Ep Eh]. apply d_table_sim; cbn [dv_meta hv_meta dv_vsize hv_vsize dv_osize].
    + reflexivity.
    + destruct d as [|r d]; [reflexivity|]. cbn. unfold vlen. rewrite map_length. reflexivity.
    + destruct d as [|r d]; [cbn in Hd; lia|]. destruct r as [|x r]; [cbn in Hd; lia|]. reflexivity.
    + intros h k. cbn [dv_row hv_value dv_data hv_data]. unfold vget2, one_slice. rewrite vget_mapped. destruct (vget d h) as [r| |]; cbn [bind]; [|reflexivity..]. rewrite vget_mapped. destruct (vget r k); reflexivity.
    + rewrite Ep. exact NS.
    + rewrite Eh. unfold vlen. lia.
  - intros d ps NS Hd. unfold dv2_of, hv1_of. replace (size1 (one_slice1 d)) with (size1 d) by (symmetry; apply L). destruct (meta_build (size1 d) ps) as [m| |] eqn:Em; cbn [bind]; [|split; reflexivity..].
    destruct (build_meta _ _ _ Em) as [Ep Eh]. apply d_table_sim; cbn [dv_meta hv_meta dv_vsize hv_vsize dv_osize].
    + reflexivity.
    + reflexivity.
    + destruct d as [|x d]; [congruence|]. reflexivity.
    + intros h k. cbn [dv_row hv_value dv_data hv_data]. unfold one_slice1. rewrite vget_mapped. destruct (vget d h) as [r| |]; reflexivity.
    + rewrite Ep. exact NS.
    + rewrite Eh. unfold vlen. lia.
Qed.
End A.

(** ** The partitions over one slice *)
Section B.
Context (A : arith) (m : meta).
Hypothesis W : well_built m.
Hypothesis H2 : 2 <= m_hsize m.
Notation L := (m_leaves m).
Notation hsize := (m_hsize m).
Notation kids := (kids m).

Lemma slice_repr : forall X (t : list X) n q, vrepr t n q -> 0 <= n -> mrepr (map one_cell t) n 1 (fun h _ _ => q h).
Proof.
  intros X t n q [R1 R2] Hn. split; [unfold vlen in *; rewrite map_length; exact R1|]. intros h Hh. rewrite vget_mapped, R2 by exact Hh. cbn [bind]. exists (one_cell (q h)). split; [reflexivity|].
  split; [lia|]. split; [reflexivity|]. split; [reflexivity|]. split; [reflexivity|]. intros i j Hi Hj. assert (i = 0) by lia. assert (j = 0) by lia. subst. reflexivity.
Qed.

Lemma dline_one : forall (q : Z -> quality A) p T h, dline A m 1 (fun h _ _ => q h) p T h 0 =
  if (L <=? h) && t_gtb A (csum A (fun c => T c 0) (kids h)) (t_set A (q h) p) then (-1, csum A (fun c => T c 0) (kids h)) else (0, t_set A (q h) p).
Proof. intros q p T h. unfold dline, dcell, dinit. change (zrange 0 (1 - 1)) with (@nil Z). cbn [fold_left]. reflexivity. Qed.

Lemma slice_sel : forall C G, okcut m 1 C -> (forall h, 0 <= h < hsize -> C h 0 = if (G h : bool) then 0 else -1) ->
  forall h, 0 <= h < hsize -> dsel m 1 C h 0 = map (fun x : Z => (x, 0, 0)) (hsel m G h).
Proof.
  intros C G OK E. apply (tree_ind m W). intros h Hh IH. rewrite (dsel_eq m W 1 ltac:(lia) C OK) by lia. rewrite (hsel_eq m W) by auto. rewrite (E h Hh). destruct (G h).
  - reflexivity.
  - change (-1 =? -1) with true. cbn iota. rewrite (flat_map_ext_in _ _ _ (fun c => map (fun x : Z => (x, 0, 0)) (hsel m G c))) by (intros; apply IH; auto).
    generalize (kids h). induction l as [|c l IHl]; cbn [flat_map map]; [reflexivity|]. rewrite map_app, IHl. reflexivity.
Qed.

(** If the two comparisons of the two algorithms agree, so do the partitions. *)
Lemma slice_same : forall (t : list (quality A)) q p (x : hpartition A) T G, vrepr t hsize q -> (forall h, 0 <= h < hsize -> (T h, G h) = hdec A m q p T h) -> 
  hn_parts x = map (mkhpart A m q) (hsel m G (m_root m)) -> hn_quality x = sum_quality A (map q (hsel m G (m_root m))) ->
  (forall h, L <= h < hsize -> t_gtb A (csum A T (kids h)) (t_set A (q h) p) = t_ltb A (t_set A (q h) p) (csum A T (kids h))) ->
  exists x', d_best A (map one_cell t) m p = Ok x' /\ map rect (dn_parts x') = map (fun h => (h, 0, 0)) (map hp_h (hn_parts x)) /\ dn_quality x' = hn_quality x.
Proof.
  intros t q p x T G R HG Ep Eq Hc. pose proof (wb_L m W) as HL.
  destruct (d_best_ok A m W _ 1 _ p (slice_repr _ t hsize q R ltac:(lia)) ltac:(lia)) as (x' & C & T' & E & OK & Ep' & _ & Eq' & HC).
  assert (S : forall h, 0 <= h < hsize -> T' h 0 = T h /\ C h 0 = if G h then 0 else -1).
  { apply (tree_ind m W). intros h Hh IH. specialize (HC h 0 Hh ltac:(lia)). rewrite dline_one in HC. specialize (HG h Hh). unfold hdec in HG.
    rewrite (csum_ext A _ T) in HC by (intros c Ic; apply (IH c Ic)). destruct (Z.ltb_spec h L) as [K|K].
    - replace (L <=? h) with false in HC by (symmetry; apply Z.leb_gt; lia). cbn [andb] in HC. injection HC as -> ->. injection HG as -> ->. split; reflexivity.
    - replace (L <=? h) with true in HC by (symmetry; apply Z.leb_le; lia). cbn [andb] in HC. rewrite Hc in HC by lia. destruct (t_ltb A (t_set A (q h) p) (csum A T (kids h))); injection HC as -> ->; injection HG as -> ->; split; reflexivity. }
  pose proof (slice_sel C G OK (fun h Hh => proj2 (S h Hh)) (m_root m) (root_node m W)) as Sel.
  exists x'. split; [exact E|]. rewrite Ep', Eq', Ep, Eq, rect_mkdpart, mkhpart_h, Sel. split; [reflexivity|]. f_equal. rewrite map_map. reflexivity.
Qed.
End B.

(** One slice, exact arithmetic: the same partition for every parameter whose loss weight is not zero (i.e. p <> 1). *)
Section R.
Context (P : params) (m : meta).
Hypothesis W : well_built m.
Hypothesis H2 : 2 <= m_hsize m.
Notation hsize := (m_hsize m).
Notation L := (m_leaves m).
Notation kids := (kids m).
Notation A := (RP P).
Variables (t : list (quality A)) (q : Z -> quality A).
Hypothesis R : vrepr t hsize q.
Hypothesis Su : superadditive t m.

Lemma kids_nonempty : forall h, L <= h < hsize -> kids h <> [].
Proof.
  intros h Hh E. pose proof (wb_L m W). pose proof (leavesof_kids m W h Hh) as K. rewrite E in K. cbn in K. apply Permutation_sym, Permutation_nil in K.
  apply (lv_nonempty m W h); [lia|exact K].
Qed.
Lemma super_kids : forall h, L <= h < hsize -> (Rsum (fun c => gain (q c)) (kids h) <= gain (q h))%R /\ (Rsum (fun c => loss (q c)) (kids h) <= loss (q h))%R.
Proof.
  intros h Hh. pose proof (wb_L m W). assert (Ek : mmap (vget t) (kids h) = Ok (map q (kids h))).
  { apply (mmap_vrepr _ t _ q _ R). intros c Ic. apply (kids_In m W) in Ic. tauto. }
  pose proof (Su h (kids h) (map q (kids h)) (q h)) as K. rewrite (kids_children m W) in K by lia. specialize (K eq_refl).
  rewrite !Rsum_map in K. apply K; [apply kids_nonempty; lia|exact Ek|apply (vrepr_get _ _ _ _ _ R); lia].
Qed.

Lemma csum_gain : forall (T : Z -> tradeoff A) l, gain (t_quality (csum A T l)) = Rsum (fun c => gain (t_quality (T c))) l /\ loss (t_quality (csum A T l)) = Rsum (fun c => loss (t_quality (T c))) l.
Proof.
  intros T l. rewrite csum_tsum. induction l as [|c l [IH1 IH2]]; [split; reflexivity|]. cbn [map]. change (tsum (T c :: map T l)) with (t_add A (T c) (tsum (map T l))).
  rewrite !Rsum_cons. cbn [t_add t_quality q_add gain loss]. change (n_add A) with Rplus. rewrite IH1, IH2. split; reflexivity.
Qed.

Definition under (T : Z -> tradeoff A) (h : Z) : Prop := (gain (t_quality (T h)) <= gain (q h))%R /\ (loss (t_quality (T h)) <= loss (q h))%R.
Lemma under_csum : forall T h, L <= h < hsize -> (forall c, In c (kids h) -> under T c) ->
  (gain (t_quality (csum A T (kids h))) <= gain (q h))%R /\ (loss (t_quality (csum A T (kids h))) <= loss (q h))%R.
Proof.
  intros T h Hh U. destruct (csum_gain T (kids h)) as [-> ->]. destruct (super_kids h Hh) as [S1 S2].
  split; (eapply Rle_trans; [|eassumption]); apply HReal.Rsum_le; intros c Ic; apply (U c Ic).
Qed.

Variable (p : par A).
Lemma under_all : forall T G, (forall h, 0 <= h < hsize -> (T h, G h) = hdec A m q p T h) -> forall h, 0 <= h < hsize -> under T h.
Proof.
  intros T G HG. apply (tree_ind m W). intros h Hh IH. pose proof (HG h Hh) as E. unfold hdec in E. pose proof (wb_L m W). unfold under.
  destruct (Z.ltb_spec h L); [injection E as -> _; cbn; split; apply Rle_refl|]. destruct (t_ltb A _ _); injection E as -> _; [apply under_csum; [lia|exact IH]|cbn; split; apply Rle_refl].
Qed.

Lemma csum_value : forall (T : Z -> tradeoff A) l, (forall c, In c l -> t_value (T c) = t_value (t_set A (t_quality (T c)) p)) -> t_value (csum A T l) = t_value (t_set A (t_quality (csum A T l)) p).
Proof.
  intros T l H. rewrite tset_val. destruct (csum_gain T l) as [-> ->]. rewrite csum_tsum, tsum_val. induction l as [|c l IH]; [unfold Rsum; cbn; lra|].
  rewrite !Rsum_cons, IH by (intros; apply H; right; assumption). rewrite (H c (or_introl eq_refl)), tset_val. lra.
Qed.

Lemma tie : forall (c : tradeoff A) h, t_value c = t_value (t_set A (t_quality c) p) -> (gain (t_quality c) <= gain (q h))%R -> (loss (t_quality c) <= loss (q h))%R -> pp_num P (pp_compl P p) <> 0%R ->
  t_gtb A c (t_set A (q h) p) = t_ltb A (t_set A (q h) p) c.
Proof.
  intros c h Ev Hg Hl Np. destruct (t_ltb A (t_set A (q h) p) c) eqn:E.
  - apply tltb_spec in E. apply tgtb_spec. left. exact E.
  - apply tgtb_false. intros [K|[K1 K2]]; [apply tltb_spec in K; congruence|]. rewrite tset_quality in K2. rewrite tset_val, Ev, tset_val in K1.
    destruct K2 as [K2|[K2 K3]]; [lra|]. apply Np. rewrite K2 in K1.
    assert ((pp_num P (pp_compl P p)) * (loss (q h) - loss (t_quality c)) = 0)%R by lra. apply Rmult_integral in H. destruct H; [assumption|lra].
Qed.
End R.

Theorem C89_slice_partition : forall P m (t : list (quality (RP P))) p x, well_built m -> 2 <= m_hsize m -> vlen t = m_hsize m -> superadditive t m ->
  pp_num P (pp_compl P p) <> 0%R -> h_best (RP P) t m p = Ok x ->
  exists x', d_best (RP P) (map one_cell t) m p = Ok x' /\
    map (fun y => (dp_h y, dp_start y, dp_end y)) (dn_parts x') = map (fun y => (hp_h y, 0, 0)) (hn_parts x) /\ dn_quality x' = hn_quality x.
Proof.
  intros P m t p x W H2 Lt Su Np E0. pose proof (list_vrepr _ t _ (q_zero (RP P)) Lt) as R. set (q := fun i => match vget t i with Ok x => x | _ => q_zero (RP P) end) in *.
  destruct (h_best_ok _ m W H2 t q p R) as (y & T & G & E & Ep & Ei & Eq & HG). rewrite E in E0. injection E0 as ->.
  destruct (slice_same (RP P) m W H2 t q p x T G R HG Ep Eq) as (x' & E' & Er & Eq').
  - intros h Hh. pose proof (wb_L m W) as HL. destruct (under_csum P m W t q R Su T h Hh) as [U1 U2].
    { intros c Ic. apply (under_all P m W t q R Su p T G HG). apply (kids_In m W) in Ic. tauto. }
    apply tie; auto. apply csum_value. intros c Ic. rewrite (hT P m W H2 q p T G HG) at 1 by (apply (kids_In m W) in Ic; tauto). rewrite (hT P m W H2 q p T G HG) by (apply (kids_In m W) in Ic; tauto). rewrite tset_quality. reflexivity.
  - exists x'. split; [exact E'|]. split; [|exact Eq']. rewrite map_map in Er. exact Er.
Qed.

(** At p = 1 (loss weight zero) the hierarchical partition is the whole; the spatiotemporal one has the same gain and no more loss. *)
Theorem C89_slice_p1 : forall P m (t : list (quality (RP P))) p x, well_built m -> 2 <= m_hsize m -> vlen t = m_hsize m -> superadditive t m ->
  pp_num P (pp_compl P p) = 0%R -> (0 <= pp_num P p)%R -> h_best (RP P) t m p = Ok x ->
  map hp_h (hn_parts x) = [m_root m] /\
  exists x', d_best (RP P) (map one_cell t) m p = Ok x' /\ gain (dn_quality x') = gain (hn_quality x) /\ (loss (dn_quality x') <= loss (hn_quality x))%R.
Proof.
  intros P m t p x W H2 Lt Su Np Pp E0. pose proof (list_vrepr _ t _ (q_zero (RP P)) Lt) as R. set (q := fun i => match vget t i with Ok x => x | _ => q_zero (RP P) end) in *.
  pose proof (wb_L m W) as HL. pose proof (root_node m W) as Rr.
  destruct (h_best_ok _ m W H2 t q p R) as (y & T & G & E & Ep & Ei & Eq & HG). rewrite E in E0. injection E0 as ->.
  assert (Gr : G (m_root m) = true).
  { destruct (G (m_root m)) eqn:EG; [reflexivity|exfalso]. destruct (h_split P m q p T G HG (m_root m) Rr EG) as (Li & Lt1 & Lt2).
    destruct (under_csum P m W t q R Su T (m_root m) ltac:(lia)) as [U1 _].
    { intros c Ic. apply (under_all P m W t q R Su p T G HG). apply (kids_In m W) in Ic. tauto. }
    pose proof (hT P m W H2 q p T G HG _ Rr) as ET. rewrite ET, !tset_val, Np in Lt1.
    assert (K : gain (hq P q (hsel m G (m_root m))) = gain (t_quality (csum (RP P) T (kids m (m_root m))))).
    { transitivity (gain (t_quality (T (m_root m)))); [rewrite ET, tset_quality; reflexivity|]. specialize (HG _ Rr). unfold hdec in HG. destruct (m_root m <? m_leaves m) eqn:El; [injection HG; congruence|].
      destruct (t_ltb _ _ _); [injection HG as -> _; reflexivity|injection HG; congruence]. }
    rewrite K in Lt1. assert (pp_num P p * gain (t_quality (csum (RP P) T (kids m (m_root m)))) <= pp_num P p * gain (q (m_root m)))%R by (apply Rmult_le_compat_l; assumption). lra. }
  assert (Sr : hsel m G (m_root m) = [m_root m]) by (rewrite (hsel_eq m W H2) by exact Rr; rewrite Gr; reflexivity).
  split; [rewrite Ep, mkhpart_h; exact Sr|].
  destruct (d_best_ok (RP P) m W _ 1 _ p (slice_repr _ t (m_hsize m) q R ltac:(lia)) ltac:(lia)) as (x' & C & T' & E' & OK & Ep' & _ & Eq' & HC).
  exists x'. split; [exact E'|].
  assert (K : forall h, 0 <= h < m_hsize m -> gain (t_quality (T' h 0)) = gain (q h) /\ (loss (t_quality (T' h 0%Z)) <= loss (q h))%R).
  { apply (tree_ind m W). intros h Hh IH. pose proof (HC h 0 Hh ltac:(lia)) as D. rewrite dline_one in D. destruct (Z.leb_spec (m_leaves m) h) as [K|K]; cbn [andb] in D; [|injection D as _ ->; cbn; split; [reflexivity|apply Rle_refl]].
    destruct (t_gtb (RP P) (csum (RP P) (fun c => T' c 0%Z) (kids m h)) (t_set (RP P) (q h) p)) eqn:Eg; injection D as _ ->; [|cbn; split; [reflexivity|apply Rle_refl]].
    destruct (under_csum P m W t q R Su (fun c => T' c 0%Z) h ltac:(lia)) as [U1 U2]. { intros c Ic. destruct (IH c Ic) as [I1 I2]. split; [rewrite I1; apply Rle_refl|exact I2]. }
    split; [|exact U2]. apply tgtb_spec in Eg. assert (V : t_value (csum (RP P) (fun c => T' c 0%Z) (kids m h)) = t_value (t_set (RP P) (t_quality (csum (RP P) (fun c => T' c 0%Z) (kids m h))) p)).
    { apply csum_value. intros c Ic. assert (Hc : 0 <= c < m_hsize m) by (apply (kids_In m W) in Ic; tauto).
      rewrite (dT P m W 1 (fun h _ _ => q h) ltac:(lia) p C T' HC c 0 Hc ltac:(lia)). unfold dt. rewrite tset_quality. reflexivity. }
    unfold tlt in Eg. rewrite V, !tset_val, !tset_quality, Np in Eg.
    assert (pp_num P p * gain (t_quality (csum (RP P) (fun c => T' c 0%Z) (kids m h))) <= pp_num P p * gain (q h))%R by (apply Rmult_le_compat_l; assumption).
    destruct Eg as [Eg|[Eg1 [Eg2|[Eg2 _]]]]; [lra|lra|symmetry; exact Eg2]. }
  assert (Q' : dn_quality x' = t_quality (T' (m_root m) 0)).
  { rewrite (dT P m W 1 (fun h _ _ => q h) ltac:(lia) p C T' HC _ 0 Rr ltac:(lia)). unfold dt. rewrite tset_quality, Eq', sum_quality_qsum. reflexivity. }
  assert (Q : hn_quality x = q (m_root m)). { rewrite Eq, Sr, sum_quality_qsum. apply Q_eq; cbn; lra. }
  rewrite Q', Q. apply K. exact Rr.
Qed.

Lemma htable_super : forall P m (t : list (quality (RP P))) comps, well_built m -> htable t m comps -> Forall (fun c : list R => vlen c = m_leaves m) comps -> Forall nonneg comps -> superadditive t m.
Proof.
  intros P m t comps W T CL NN h ch qs q Ec Nc Eq Eh. pose proof (htable_repr P m t comps T) as R. pose proof (wb_L m W) as HL.
  assert (Hh : 0 <= h < m_hsize m). { apply vget_inv in Eh. destruct R as [Lt _]. lia. }
  rewrite (kids_children m W) in Ec by exact Hh. injection Ec as <-. destruct (Z_lt_le_dec h (m_leaves m)) as [K|K]; [rewrite (kids_leaf m W) in Nc by lia; congruence|].
  rewrite (mmap_vrepr _ t _ _ _ R) in Eq by (intros c Ic; apply (kids_In m W) in Ic; tauto). injection Eq as <-. rewrite (vrepr_get _ _ _ _ _ R Hh) in Eh. injection Eh as <-.
  rewrite !Rsum_map. cbn [gain loss]. apply (h_super m W comps CL NN). symmetry. apply (leavesof_kids m W). lia.
Qed.

Lemma valid_no_self : forall L ps r, valid_tree L ps r -> no_self ps.
Proof.
  intros L ps r V h E. pose proof (vget_inv _ _ _ _ E) as Hh. assert (Ep : parent ps h = h) by (unfold parent; rewrite E; reflexivity).
  assert (N : node ps h) by exact Hh. destruct (Z.eq_dec h r) as [->|D]; [rewrite (vt_rootp _ _ _ V) in Ep; lia|].
  assert (G : forall x y, below ps x y -> x = h -> y = h). { intros x y B. induction B as [y|x y Hp B IH]; intros ->; [reflexivity|]. apply IH. exact Ep. }
  apply D. symmetry. apply (G h r); [apply (vt_reach _ _ _ V); exact N|reflexivity].
Qed.

(** One slice, from the data on. *)
Theorem C89_slice : forall P (d : list (list R)) ps r p, valid_tree (vlen d) ps r -> uniform_depth (vlen d) ps r -> 2 <= vlen ps -> rect2 d (size2 d) -> 1 <= size2 d -> Forall nonneg d ->
  exists m t x x', h_table (RP P) (hv2_of (RP P) d ps) = Ok (Some t, m) /\ d_table (RP P) (dv3_of (RP P) (one_slice d) ps) = Ok (Some (map one_cell t), m) /\
    h_best (RP P) t m p = Ok x /\ d_best (RP P) (map one_cell t) m p = Ok x' /\
    (pp_num P (pp_compl P p) <> 0%R -> map (fun y => (dp_h y, dp_start y, dp_end y)) (dn_parts x') = map (fun y => (hp_h y, 0, 0)) (hn_parts x) /\ dn_quality x' = hn_quality x) /\
    (pp_num P (pp_compl P p) = 0%R -> (0 <= pp_num P p)%R -> map hp_h (hn_parts x) = [r] /\ gain (dn_quality x') = gain (hn_quality x) /\ (loss (dn_quality x') <= loss (hn_quality x))%R).
Proof.
  intros P d ps r p V U H2 Rd Hs NN. destruct (hv2_data P ps r H2 d V U Rd) as (v & Ev & (M1 & M2 & M3) & D).
  destruct (h_compute_prf P v _ D) as (t & Et & T). set (m := hv_meta v) in *.
  assert (Eh : h_table (RP P) (hv2_of (RP P) d ps) = Ok (Some t, m)). { unfold h_table. rewrite Ev. cbn [bind]. rewrite Et. reflexivity. }
  pose proof (proj1 (proj1 (C89_slice_tables (RP P)) d ps (valid_no_self _ _ _ V) Hs)) as Ed. rewrite Eh in Ed. cbn in Ed.
  pose proof (hdata_len P v _ D) as CL. destruct D as (_ & W & Hm & _).
  assert (NC : Forall nonneg (columns 0%R (size2 d) d)) by (apply columns_Forall; [apply Rle_refl|exact NN]).
  pose proof (htable_super P m t _ W T CL NC) as Su. assert (Lt : vlen t = m_hsize m) by exact (proj1 T).
  destruct (h_cover_prf m W Hm (RP P) t p Lt) as (x & Ex & _).
  destruct (Req_dec (pp_num P (pp_compl P p)) 0) as [Z|Z].
  - destruct (d_cover_prf m W (RP P) (map one_cell t) 1 p ltac:(lia)) as (x' & Ex' & _).
    { unfold vlen in *. rewrite map_length. exact Lt. }
    { apply Forall_map. apply Forall_forall. intros q _. repeat split; auto; cbn; lia. }
    exists m, t, x, x'. do 4 (split; [assumption|]). split; [intro; contradiction|]. intros _ Pp.
    destruct (C89_slice_p1 P m t p x W Hm Lt Su Z Pp Ex) as (R1 & y & E1 & K). rewrite Ex' in E1. injection E1 as <-. rewrite <- M3. split; assumption.
  - destruct (C89_slice_partition P m t p x W Hm Lt Su Z Ex) as (x' & Ex' & K). exists m, t, x, x'. do 4 (split; [assumption|]). split; [intros _; exact K|]. intro; contradiction.
Qed.
