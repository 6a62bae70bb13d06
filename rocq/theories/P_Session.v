(** * Property C58: no session fails.

    A client may interleave computeQualities(), normalize() and computeBestPartition(p) (on any partitioner made so far) in
    any order and any number: on shaped data, with the shared Quality objects of the code, the session returns, and every
    partition obtained still covers the data when the session ends. This holds for every arithmetic, hence for IEEE doubles
    with NaNs and infinities. *)
From Coq Require Import Lia.
From Flocq Require Import BinarySingleNaN.
From Verif Require Import Base BaseFacts Arith Quality Utm UtmFacts UtmProofs Hierarchy SpecTree HierarchyFacts HierarchyProofs TreeDec SpecParts Values Qualities Partitions Partitioners
  TreePath CoverFacts OProofs HProofs DProofs ODataProofs HDataProofs DDataProofs SpecData SpecValues ValuesFacts ValuesProofs QualInv DegFacts Ieee
  TradeoffHeap Session SpecHeap HeapFacts HeapFactsD SessionFacts SessionInst P_Pipeline P_Heap.

(** A session in which nothing is used before it exists: [n] tables have been computed so far. *)
Fixpoint session_ok {P : Type} (n : Z) (es : list (sevent P)) : Prop :=
  match es with
  | [] => True
  | SCompute :: r => session_ok (n + 1) r
  | SNormalize :: r => 1 <= n /\ session_ok n r
  | SBest k _ :: r => 0 <= k < n /\ session_ok n r
  end.

(** The parameters asked for, with the number of the table, in order. *)
Fixpoint asked {P : Type} (es : list (sevent P)) : list (Z * P) :=
  match es with
  | [] => []
  | SBest k p :: r => (k, p) :: asked r
  | _ :: r => asked r
  end.

Section Run.
Context (A : arith) (VT N : Type) (compute : res VT) (normalize : VT -> res VT) (best : VT -> par A -> res N).
Variables (G : VT -> Prop) (Q : par A -> N -> Prop).
Hypothesis Hc : exists t, compute = Ok t /\ G t.
Hypothesis Hn : forall t, G t -> exists t', normalize t = Ok t' /\ G t'.
Hypothesis Hb : forall t p, G t -> exists x, best t p = Ok x /\ Q p x.

Definition logged (e : Z * N) (r : Z * par A) : Prop := fst e = fst r /\ Q (snd r) (snd e).


Lemma upd_Forall : forall X (I : X -> Prop) n x l, Forall I l -> I x -> Forall I (upd n x l).
Proof. induction n; intros x [|y l] F Ix; simpl; auto; inversion F; subst; constructor; auto. Qed.

Lemma vs_run_from : forall es tabs log, session_ok (vlen tabs) es -> Forall G tabs ->
  exists tabs' log', mfold (vs_step A VT N compute normalize best) es (tabs, log) = Ok (tabs', log ++ log') /\ Forall2 logged log' (asked es).
Proof.
  induction es as [|e es IH]; intros tabs log S F.
  { exists tabs, []. rewrite app_nil_r. split; [reflexivity|constructor]. }
  destruct e as [| |k p]; cbn [session_ok] in S; cbn [mfold vs_step].
  - destruct Hc as (t & Et & Gt). assert (X : (let* t := compute in Ok (tabs ++ [t], log)) = Ok (tabs ++ [t], log)) by (rewrite Et; reflexivity).
    rewrite X. cbn [bind]. apply IH.
    + rewrite vlen_app. exact S.
    + apply Forall_app; auto.
  - destruct S as [S1 S]. destruct (vget_ok _ tabs (vlen tabs - 1) ltac:(lia)) as (t & Et). rewrite Et. cbn [bind].
    destruct (Hn t) as (t' & En & Gt). { rewrite Forall_forall in F. apply F. exact (vget_In _ _ _ _ Et). }
    rewrite En. cbn [bind]. rewrite vset_ok by lia. cbn [bind]. apply IH.
    + unfold vlen in *. rewrite upd_length. auto.
    + apply upd_Forall; auto.
  - destruct S as [S1 S]. destruct (vget_ok _ tabs k S1) as (t & Et). rewrite Et. cbn [bind].
    destruct (Hb t p) as (x & Ex & Qx). { rewrite Forall_forall in F. apply F. exact (vget_In _ _ _ _ Et). }
    rewrite Ex. cbn [bind]. destruct (IH tabs (log ++ [(k, x)]) S F) as (tabs' & log' & E & F2).
    exists tabs', ((k, x) :: log'). rewrite E, <- app_assoc. split; [reflexivity|]. cbn [asked]. constructor; auto. split; auto.
Qed.

Lemma vs_run_ok : forall es, session_ok 0 es ->
  exists tabs log, vs_run A VT N compute normalize best es = Ok (tabs, log) /\ Forall2 logged log (asked es).
Proof. intros es S. destruct (vs_run_from es [] [] S (Forall_nil _)) as (tabs & log & E & F). exists tabs, log. auto. Qed.
End Run.

Lemma F2_compose : forall X Y Z (R1 : X -> Y -> Prop) (R2 : Y -> Z -> Prop) (R3 : X -> Z -> Prop), (forall x y z, R1 x y -> R2 y z -> R3 x z) ->
  forall a b c, Forall2 R1 a b -> Forall2 R2 b c -> Forall2 R3 a c.
Proof. intros X Y Z R1 R2 R3 H a b c F. revert c. induction F; intros c F'; inversion F'; subst; constructor; eauto. Qed.


Lemma o_session_table : forall A (v : ovalues A) I J K, ov_shaped v I J K -> 1 <= ov_osize v <= 65535 ->
  exists t, oq_compute A (oq_ofValues A v) = Ok (mkOQ A (Some v) (Some t)) /\ utm_shape t (ov_osize v).
Proof.
  intros A v I J K Sh Hn.
  assert (Hv : 0 <= ov_vsize v) by (destruct Sh as (HI & HJ & HK & _ & -> & _); nia).
  assert (H : forall k, 0 <= k < ov_vsize v -> exists r, ov_row v k = Ok r /\ vlen r = ov_osize v).
  { intros k Hk. destruct (ov_index_prf A v I J K Sh) as [P1 P2]. destruct (P2 k Hk) as (a & b & c & Ha & Hb & Hc & -> & _).
    destruct (P1 a b c Ha Hb Hc) as (_ & r & Er & El & _). eauto. }
  destruct (o_compute_all A (ov_osize v) _ _ _ _ (closed_True A _) v Hv ltac:(lia) ltac:(lia)) as (t & E & S & _).
  { intros k Hk. destruct (H k Hk) as (r & Er & El). exists r. split; [exact Er|]. split; [exact El|]. intros i Hi.
    destruct (vget_ok _ r i ltac:(lia)) as [y Ey]. exists y. split; [exact Ey|exact Logic.I]. }
  exists t. auto.
Qed.

Lemma h_session_table : forall A (v : hvalues A) I J K, hv_shaped v I J K -> well_built (hv_meta v) -> 2 <= m_hsize (hv_meta v) ->
  exists t, hq_compute A (hq_ofValues A v) = Ok (mkHQ A (Some v) (Some t) (hv_meta v)) /\ vlen t = m_hsize (hv_meta v).
Proof.
  intros A v I J K Sh W H2.
  assert (H : forall k h, 0 <= k < hv_vsize v -> 0 <= h < m_leaves (hv_meta v) -> exists x, hv_value v h k = Ok x).
  { intros k h Hk Hh. destruct (hv_index_prf A v I J K Sh) as [P1 P2]. destruct (P2 k Hk) as (a & b & c & Ha & Hb & Hc & -> & _).
    destruct (P1 h a b c Ha Hb Hc) as (_ & ->). exact (hv_get_ok A v I J K h a b c Sh Hh Ha Hb Hc). }
  destruct (h_compute_all A (m_leaves (hv_meta v)) _ _ _ _ (closed_True A _) v W H2 ltac:(lia)) as (t & E & f & R & _).
  { intros k h Hk Hh. destruct (H k h Hk Hh) as (x & Ex). exists x. split; [exact Ex|exact Logic.I]. }
  exists t. split; [exact E|apply R].
Qed.

Lemma d_rows : forall A (v : dvalues A) I J, dv_shaped v I J -> forall k h, 0 <= k < dv_vsize v -> 0 <= h < m_leaves (dv_meta v) ->
  exists r, dv_row v h k = Ok r /\ forall i, 0 <= i < dv_osize v -> exists x, vget r i = Ok x.
Proof.
  intros A v I J Sh k h Hk Hh. destruct (dv_index_prf A v I J Sh) as [P1 P2]. destruct (P2 k Hk) as (a & b & Ha & Hb & -> & _).
  destruct (P1 h a b Hh Ha Hb) as (_ & r & Er & El & _). exists r. split; [exact Er|]. intros i Hi. apply vget_ok. lia.
Qed.

Lemma d_session_table : forall A (v : dvalues A) I J, dv_shaped v I J -> well_built (dv_meta v) -> 2 <= m_hsize (dv_meta v) -> 1 <= dv_osize v <= 65535 ->
  exists t, dq_compute A (dq_ofValues A v) = Ok (mkDQ A (Some v) (Some t) (dv_meta v)) /\ vlen t = m_hsize (dv_meta v) /\ Forall (fun u => utm_shape u (dv_osize v)) t.
Proof.
  intros A v I J Sh W H2 Hn.
  destruct (d_compute_all A (dv_osize v * m_leaves (dv_meta v)) _ _ _ _ (closed_True A _) v W H2 ltac:(lia) ltac:(lia)) as (t & E & f & R & _).
  { intros k h Hk Hh. destruct (d_rows A v I J Sh k h Hk Hh) as (r & Er & El). exists r. split; [exact Er|]. intros i Hi.
    destruct (El i Hi) as [y Ey]. exists y. split; [exact Ey|exact Logic.I]. }
  exists t. split; [exact E|]. split; [apply R|exact (mrepr_Forall _ _ _ _ _ R)].
Qed.

(** ** C58 *)
Theorem C58_ordered_session : forall A (v : ovalues A) I J K es, ov_shaped v I J K -> 1 <= ov_osize v <= 65535 -> session_ok 0 es ->
  exists hp tabs log, oh_run A v es = Ok (hp, tabs, log) /\
  Forall2 (fun e r => fst e = fst r /\ pn_par (snd e) = snd r /\ tiles 0 (ov_osize v) (map fst (pn_parts (snd e)))) log (asked es).
Proof.
  intros A v I J K es Sh Hn S. destruct (o_session_table A v I J K Sh Hn) as (t & Ec & St).
  destruct (vs_run_ok A (utm (quality A)) (opartition A) (let* o := oq_compute A (oq_ofValues A v) in some_table (oq_table o))
         (fun t => let* o := oq_normalize A (mkOQ A (Some v) (Some t)) in some_table (oq_table o)) (o_best A)
         (fun t => utm_shape t (ov_osize v)) (fun p x => on_param x = p /\ tiles 0 (ov_osize v) (map (fun q => (op_start q, op_end q)) (on_parts x)))) with (es := es)
    as (tabs & log & E & F); auto.
  - exists t. rewrite Ec. auto.
  - intros t0 S0. destruct (shape_repr _ t0 (ov_osize v) ltac:(lia) S0 (q_zero A)) as [f R].
    pose proof (urepr_get _ _ _ _ 0 (ov_osize v - 1) R ltac:(lia) ltac:(lia)) as G.
    destruct (o_normalize_prf A v t0 _ _ Hn S0 eq_refl G) as (t' & E' & S' & _). exists t'. rewrite E'. auto.
  - intros t0 p S0. destruct (o_tiles_prf A t0 (ov_osize v) p ltac:(lia) S0) as (x & Ex & Ep & Tx). eauto.
  - pose proof (C57_ordered_session A v es) as R0. unfold ov_run in R0. rewrite E in R0.
    destruct (oh_run A v es) as [[[hp tabs0] log0]| |]; simpl in R0; try tauto.
    exists hp, tabs0, log0. split; auto. eapply F2_compose; [|exact R0|exact F].
    intros e e' r (E1 & t0 & _ & _ & E2 & E3 & _) (E4 & E5 & E6). rewrite E1, E2, E3. auto.
Qed.
Print Assumptions C58_ordered_session.

Theorem C58_hier_session : forall A (v : hvalues A) I J K es, hv_shaped v I J K -> well_built (hv_meta v) -> 2 <= m_hsize (hv_meta v) -> session_ok 0 es ->
  exists hp tabs log, hh_run A v es = Ok (hp, tabs, log) /\
  Forall2 (fun e r => fst e = fst r /\ pn_par (snd e) = snd r /\
                      node_cover (m_leaves (hv_meta v)) (m_parents (hv_meta v)) (map (fun ka => fst (fst ka)) (pn_parts (snd e)))) log (asked es).
Proof.
  intros A v I J K es Sh W H2 S. destruct (h_session_table A v I J K Sh W H2) as (t & Ec & St).
  destruct (vs_run_ok A (list (quality A)) (hpartition A) (let* o := hq_compute A (hq_ofValues A v) in some_table (hq_table o))
         (fun t => let* o := hq_normalize A (mkHQ A (Some v) (Some t) (hv_meta v)) in some_table (hq_table o))
         (fun t => h_best A t (hv_meta v)) (fun t => vlen t = m_hsize (hv_meta v))
         (fun p x => hn_param x = p /\ node_cover (m_leaves (hv_meta v)) (m_parents (hv_meta v)) (map hp_h (hn_parts x)))) with (es := es)
    as (tabs & log & E & F); auto.
  - exists t. rewrite Ec. auto.
  - intros t0 S0. destruct (vget_ok _ t0 (m_root (hv_meta v))) as (q & Eq). { rewrite S0. exact (root_node _ W). }
    destruct (h_normalize_prf A (Some v) t0 _ _ W S0 Eq) as (t' & E' & Ht' & _). exists t'. rewrite E'. auto.
  - intros t0 p S0. destruct (h_cover_prf _ W H2 A t0 p S0) as (x & Ex & Ep & Cx & _). eauto.
  - pose proof (C57_hier_session A v es) as R0. unfold hv_run in R0. rewrite E in R0.
    destruct (hh_run A v es) as [[[hp tabs0] log0]| |]; simpl in R0; try tauto.
    exists hp, tabs0, log0. split; auto. eapply F2_compose; [|exact R0|exact F].
    intros e e' r (E1 & t0 & _ & _ & E2 & E3 & _) (E4 & E5 & E6). rewrite E1, E2. split; auto. split; auto.
    rewrite <- (map_map fst fst), E3, map_map. exact E6.
Qed.
Print Assumptions C58_hier_session.

Theorem C58_spatio_session : forall A (v : dvalues A) I J es, dv_shaped v I J -> well_built (dv_meta v) -> 2 <= m_hsize (dv_meta v) -> 1 <= dv_osize v <= 65535 ->
  session_ok 0 es ->
  exists hp tabs log, dh_run A v es = Ok (hp, tabs, log) /\
  Forall2 (fun e r => fst e = fst r /\ pn_par (snd e) = snd r /\
                      rect_cover (m_leaves (dv_meta v)) (m_parents (dv_meta v)) (dv_osize v)
                        (map (fun ka => (fst (fst (fst ka)), fst (snd (fst ka)), snd (snd (fst ka)))) (pn_parts (snd e)))) log (asked es).
Proof.
  intros A v I J es Sh W H2 Hn S. destruct (d_session_table A v I J Sh W H2 Hn) as (t & Ec & Lt & Ft).
  destruct (vs_run_ok A (list (utm (quality A))) (dpartition A) (let* o := dq_compute A (dq_ofValues A v) in some_table (dq_table o))
         (fun t => let* o := dq_normalize A (mkDQ A (Some v) (Some t) (dv_meta v)) in some_table (dq_table o))
         (fun t => d_best A t (dv_meta v)) (fun t => vlen t = m_hsize (dv_meta v) /\ Forall (fun u => utm_shape u (dv_osize v)) t)
         (fun p x => dn_param x = p /\ rect_cover (m_leaves (dv_meta v)) (m_parents (dv_meta v)) (dv_osize v)
            (map (fun y => (dp_h y, dp_start y, dp_end y)) (dn_parts x)))) with (es := es)
    as (tabs & log & E & F); auto.
  - exists t. rewrite Ec. auto.
  - intros t0 [S0 F0]. pose proof (root_node _ W) as Hr.
    pose proof (shape_mrepr _ t0 _ (dv_osize v) (q_zero A) ltac:(lia) S0 F0) as R.
    destruct (d_normalize_prf A v t0 _ _ W Hn S0 F0 (mrepr_get _ _ _ _ _ (m_root (dv_meta v)) 0 (dv_osize v - 1) R Hr ltac:(lia) ltac:(lia))) as (t' & E' & Ht' & F' & _).
    exists t'. rewrite E'. auto.
  - intros t0 p [S0 F0]. destruct (d_cover_prf _ W A t0 (dv_osize v) p Hn S0 F0) as (x & Ex & Ep & Cx & _). eauto.
  - pose proof (C57_spatio_session A v es W H2 ltac:(lia) (d_rows A v I J Sh)) as R0. unfold dv_run in R0. rewrite E in R0.
    destruct (dh_run A v es) as [[[hp tabs0] log0]| |]; simpl in R0; try tauto.
    exists hp, tabs0, log0. split; auto. eapply F2_compose; [|exact R0|exact F].
    intros e e' r (E1 & t0 & _ & _ & E2 & E3 & _) (E4 & E5 & E6). rewrite E1, E2. split; auto. split; auto.
    rewrite <- (map_map fst (fun k : Z * Z * (Z * Z) => (fst (fst k), fst (snd k), snd (snd k)))), E3, map_map. exact E6.
Qed.
Print Assumptions C58_spatio_session.

(** ** Only these sessions return: normalising before computing, or a partitioner made before the qualities were computed,
    dereferences a null pointer or reads out of bounds. Whatever the data and the arithmetic. *)
Lemma hs_only : forall A PT C K (compute : heap A -> res (heap A * PT)) normalize best es hp tabs log st,
  mfold (hs_step A PT C K compute normalize best) es (hp, tabs, log) = Ok st -> session_ok (vlen tabs) es.
Proof.
  intros A PT C K compute normalize best. induction es as [|e es IH]; intros hp tabs log st E; [exact I|]. cbn [mfold] in E. apply bind_ok in E. destruct E as (st1 & E1 & E).
  destruct e as [| |k p]; cbn [session_ok hs_step] in *; apply bind_ok in E1; destruct E1 as (t & Et & E1).
  - destruct t as [hp' t]. injection E1 as <-. apply IH in E. rewrite vlen_app in E. exact E.
  - apply bind_ok in E1. destruct E1 as (hp' & _ & E1). injection E1 as <-. pose proof (vget_inv _ _ _ _ Et). split; [lia|]. exact (IH _ _ _ _ E).
  - apply bind_ok in E1. destruct E1 as ([hp' y] & _ & E1). injection E1 as <-. split; [exact (vget_inv _ _ _ _ Et)|]. exact (IH _ _ _ _ E).
Qed.

Theorem C58_ordered_only : forall A (v : ovalues A) es st, oh_run A v es = Ok st -> session_ok 0 es.
Proof. intros A v es st. exact (hs_only A _ _ _ _ _ _ es [] [] [] st). Qed.
Print Assumptions C58_ordered_only.
Theorem C58_hier_only : forall A (v : hvalues A) es st, hh_run A v es = Ok st -> session_ok 0 es.
Proof. intros A v es st. exact (hs_only A _ _ _ _ _ _ es [] [] [] st). Qed.
Print Assumptions C58_hier_only.
Theorem C58_spatio_only : forall A (v : dvalues A) es st, dh_run A v es = Ok st -> session_ok 0 es.
Proof. intros A v es st. exact (hs_only A _ _ _ _ _ _ es [] [] [] st). Qed.
Print Assumptions C58_spatio_only.

(** The hypotheses are met (with C55_nonvacuous: data with a NaN, an infinity and a negative value) by a session that
    computes twice, normalizes twice and uses a partitioner of each table. *)
Example C58_nonvacuous : forall P (p q : P), session_ok 0 [SCompute; SBest 0 p; SNormalize; SBest 0 q; SCompute; SBest 1 p; SBest 0 q; SNormalize; SNormalize; SBest 1 q] /\
  asked [SCompute; SBest 0 p; SNormalize; SBest 0 q; SCompute; SBest 1 p; SBest 0 q; SNormalize; SNormalize; SBest 1 q] = [(0, p); (0, q); (1, p); (0, q); (1, q)].
Proof. intros. split; [cbn; lia|reflexivity]. Qed.
