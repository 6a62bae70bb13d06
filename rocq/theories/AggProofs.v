(** * Proofs for C44, C45: hierarchical and spatiotemporal aggregates. *)
From Coq Require Import Lia.
From Verif Require Import Base BaseFacts Arith Quality Utm Hierarchy Values Partitions Aggregation SpecTree SpecParts SpecData
  TreeFacts TreePath CoverFacts SpecValues ValuesFacts ValuesProofs SpecAgg AggFacts.

Section M.
Context (A : arith).

Definition h_nodes (v : hvalues A) (x : hpartition A) : Prop := forall q, In q (hn_parts x) -> node (m_parents (hv_meta v)) (hp_h q).

(** Cell reported for a part that is a leaf or has only leaf children. *)
Definition h_cell (v : hvalues A) (q : hpart A) (a b c : Z) : num A * num A :=
  sum_mean A (if hp_h q <? m_leaves (hv_meta v) then n_zero A else hsum v (hp_h q) a b c) (hp_size q).

Section H.
Context (v : hvalues A) (I J K : Z).
Hypothesis Sh : hv_shaped v I J K.
Hypothesis W : well_built (hv_meta v).
Hypothesis H2 : 2 <= m_hsize (hv_meta v).
Notation m := (hv_meta v).

Lemma hv_leaf_ok : forall a b c, 0 <= a < I -> 0 <= b < J -> 0 <= c < K -> forall x, leaf (m_leaves m) x -> hv_get v x a b c = Ok (hv_at v x a b c).
Proof. intros a b c Ha Hb Hc x Hx. destruct (hv_get_ok A v I J K x a b c Sh Hx Ha Hb Hc) as [y E]. unfold hv_at. rewrite E. reflexivity. Qed.

Definition h_one (fuel : nat) (q : hpart A) (a b c : Z) : res (num A * num A) :=
  let* s := sub_sum A fuel m (hp_h q) (fun h => hv_get v h a b c) (m_root m) in Ok (s, mean A s (hp_size q)).

Lemma h_one_ok : forall fuel q a b c, node (m_parents m) (hp_h q) -> shallow m (hp_h q) -> 0 <= a < I -> 0 <= b < J -> 0 <= c < K ->
  h_one (Datatypes.S (Datatypes.S fuel)) q a b c = Ok (h_cell v q a b c).
Proof.
  intros fuel q a b c N S Ha Hb Hc. unfold h_one. apply (wb_node_iff m W) in N.
  rewrite (sub_reported A m W H2 fuel (hp_h q) _ (fun x => hv_at v x a b c) N S); [reflexivity|]. apply hv_leaf_ok; auto.
Qed.

Lemma h_one_deep : forall fuel q a b c, node (m_parents m) (hp_h q) -> ~ shallow m (hp_h q) -> 0 <= a < I -> 0 <= b < J -> 0 <= c < K ->
  h_one fuel q a b c = OutOfFuel.
Proof.
  intros fuel q a b c N S Ha Hb Hc. unfold h_one. apply (wb_node_iff m W) in N.
  rewrite (sub_deep A m W fuel (hp_h q)); auto; [|apply (wb_root_inner m W H2)]. intros x Hx. eexists. apply hv_leaf_ok; auto.
Qed.

Lemma h_one_any : forall fuel q a b c, node (m_parents m) (hp_h q) -> 0 <= a < I -> 0 <= b < J -> 0 <= c < K ->
  h_one fuel q a b c = OutOfFuel \/ exists y, h_one fuel q a b c = Ok y.
Proof.
  intros fuel q a b c N Ha Hb Hc. apply (wb_node_iff m W) in N. apply bind_ok_or_fuel; [|eauto].
  apply (root_deep_ok A m W H2); auto. intros x Hx. eexists. apply hv_leaf_ok; auto.
Qed.

Lemma hagg_prf : forall x fuel, h_nodes v x -> (forall q, In q (hn_parts x) -> shallow m (hp_h q)) -> (2 <= fuel)%nat ->
  (hv_dim v = 1 -> hagg1 A fuel x v = Ok (map (fun q => h_cell v q 0 0 0) (hn_parts x))) /\
  (hv_dim v = 2 -> hagg2 A fuel x v = Ok (map (fun q => map (fun a => h_cell v q a 0 0) (zrange 0 I)) (hn_parts x))) /\
  (hv_dim v = 3 -> hagg3 A fuel x v = Ok (map (fun q => map (fun a => map (fun b => h_cell v q a b 0) (zrange 0 J)) (zrange 0 I)) (hn_parts x))) /\
  (hv_dim v = 4 -> hagg4 A fuel x v = Ok (map (fun q => map (fun a => map (fun b => map (fun c => h_cell v q a b c) (zrange 0 K)) (zrange 0 J)) (zrange 0 I)) (hn_parts x))).
Proof.
  intros x fuel N Hs Hf. destruct fuel as [|[|fuel]]; [lia|lia|]. pose proof Sh as (_ & _ & _ & _ & HV & Hd). unfold hv_dim.
  split; [|split; [|split]]; intro D; destruct (hv_data v) as [d|d|i j d|i j k d] eqn:ED; try discriminate; clear D.
  - destruct Hd as (E1 & E2 & E3 & _). unfold hagg1. apply mmap_map. intros q Hq. apply h_one_ok; auto; lia.
  - destruct Hd as (E2 & E3 & _). unfold hagg2. apply mmap_map. intros q Hq. unfold ha2.
    rewrite HV. replace (I * J * K) with I by (rewrite E2, E3; lia). apply mmap_map. intros a Ha. apply In_zrange in Ha. apply h_one_ok; auto; lia.
  - destruct Hd as (-> & -> & E3 & _). unfold hagg3. apply mmap_map. intros q Hq. unfold ha3, hv_I, hv_J. rewrite ED.
    apply mmap_map. intros a Ha. apply In_zrange in Ha. apply mmap_map. intros b Hb. apply In_zrange in Hb. apply h_one_ok; auto; lia.
  - destruct Hd as (-> & -> & -> & _). unfold hagg4. apply mmap_map. intros q Hq. unfold ha4, hv_I, hv_J, hv_K. rewrite ED.
    apply mmap_map. intros a Ha. apply In_zrange in Ha. apply mmap_map. intros b Hb. apply In_zrange in Hb.
    apply mmap_map. intros c Hc. apply In_zrange in Hc. apply h_one_ok; auto; lia.
Qed.

Lemma hagg_deep_prf : forall x fuel q, h_nodes v x -> In q (hn_parts x) -> ~ shallow m (hp_h q) -> 0 < I -> 0 < J -> 0 < K ->
  (hv_dim v = 1 -> hagg1 A fuel x v = OutOfFuel) /\ (hv_dim v = 2 -> hagg2 A fuel x v = OutOfFuel) /\
  (hv_dim v = 3 -> hagg3 A fuel x v = OutOfFuel) /\ (hv_dim v = 4 -> hagg4 A fuel x v = OutOfFuel).
Proof.
  intros x fuel q N Hq Hn HI HJ HK. pose proof Sh as (_ & _ & _ & _ & HV & Hd). unfold hv_dim.
  assert (Z0 : forall n, 0 < n -> In 0 (zrange 0 n)) by (intros; apply In_zrange; lia).
  split; [|split; [|split]]; intro D; destruct (hv_data v) as [d|d|i j d|i j k d] eqn:ED; try discriminate; clear D;
    (apply mmap_fuel; [intros y Hy|exists q; split; auto]).
  - apply h_one_any; auto; lia.
  - apply h_one_deep; auto; lia.
  - destruct Hd as (E2 & E3 & _). unfold ha2. rewrite HV. replace (I * J * K) with I by (rewrite E2, E3; lia). apply mmap_ok_or_fuel. intros a Ha. apply In_zrange in Ha. apply h_one_any; auto; lia.
  - destruct Hd as (E2 & E3 & _). unfold ha2. rewrite HV. replace (I * J * K) with I by (rewrite E2, E3; lia). apply mmap_fuel.
    + intros a Ha. apply In_zrange in Ha. apply h_one_any; auto; lia.
    + exists 0. split; auto. apply h_one_deep; auto; lia.
  - destruct Hd as (-> & -> & E3 & _). unfold ha3, hv_I, hv_J. rewrite ED. apply mmap_ok_or_fuel. intros a Ha. apply In_zrange in Ha.
    apply mmap_ok_or_fuel. intros b Hb. apply In_zrange in Hb. apply h_one_any; auto; lia.
  - destruct Hd as (-> & -> & E3 & _). unfold ha3, hv_I, hv_J. rewrite ED.
    apply mmap_fuel; [intros a Ha; apply In_zrange in Ha; apply mmap_ok_or_fuel; intros b Hb; apply In_zrange in Hb; apply h_one_any; auto; lia|].
    exists 0; split; auto. apply mmap_fuel; [intros b Hb; apply In_zrange in Hb; apply h_one_any; auto; lia|].
    exists 0; split; auto. apply h_one_deep; auto; lia.
  - destruct Hd as (-> & -> & -> & _). unfold ha4, hv_I, hv_J, hv_K. rewrite ED. apply mmap_ok_or_fuel. intros a Ha. apply In_zrange in Ha.
    apply mmap_ok_or_fuel. intros b Hb. apply In_zrange in Hb. apply mmap_ok_or_fuel. intros c Hc. apply In_zrange in Hc. apply h_one_any; auto; lia.
  - destruct Hd as (-> & -> & -> & _). unfold ha4, hv_I, hv_J, hv_K. rewrite ED.
    apply mmap_fuel; [intros a Ha; apply In_zrange in Ha; apply mmap_ok_or_fuel; intros b Hb; apply In_zrange in Hb; apply mmap_ok_or_fuel; intros c Hc; apply In_zrange in Hc; apply h_one_any; auto; lia|].
    exists 0; split; auto. apply mmap_fuel; [intros b Hb; apply In_zrange in Hb; apply mmap_ok_or_fuel; intros c Hc; apply In_zrange in Hc; apply h_one_any; auto; lia|].
    exists 0; split; auto. apply mmap_fuel; [intros c Hc; apply In_zrange in Hc; apply h_one_any; auto; lia|].
    exists 0; split; auto. apply h_one_deep; auto; lia.
Qed.
End H.

Definition d_rects (v : dvalues A) (x : dpartition A) : Prop := forall q, In q (dn_parts x) ->
  node (m_parents (dv_meta v)) (dp_h q) /\ 0 <= dp_start q <= dp_end q /\ dp_end q < dv_osize v.

Definition d_cell (v : dvalues A) (q : dpart A) (a b : Z) : num A * num A :=
  sum_mean A (if dp_h q <? m_leaves (dv_meta v) then seqsum A (map (fun _ => n_zero A) (zrange (dp_start q) (dp_end q + 1)))
              else dsum v (dp_h q) (dp_start q) (dp_end q) a b) (dp_size q).

Section D.
Context (v : dvalues A) (I J : Z).
Hypothesis Sh : dv_shaped v I J.
Hypothesis W : well_built (dv_meta v).
Hypothesis H2 : 2 <= m_hsize (dv_meta v).
Notation m := (dv_meta v).

Lemma dv_leaf_ok : forall a b o, 0 <= a < I -> 0 <= b < J -> 0 <= o < dv_osize v -> forall x, leaf (m_leaves m) x -> dv_get v x a b o = Ok (dv_at v x a b o).
Proof. intros a b c Ha Hb Hc x Hx. destruct (dv_get_ok A v I J x a b c Sh Hx Ha Hb Hc) as [y E]. unfold dv_at. rewrite E. reflexivity. Qed.

Definition d_one (fuel : nat) (q : dpart A) (a b : Z) : res (num A * num A) :=
  let* s := oa_sum A (dp_start q) (dp_end q) (fun o => sub_sum A fuel m (dp_h q) (fun h => dv_get v h a b o) (m_root m)) in Ok (s, mean A s (dp_size q)).

Definition d_in (q : dpart A) : Prop := node (m_parents m) (dp_h q) /\ 0 <= dp_start q <= dp_end q /\ dp_end q < dv_osize v.

Lemma d_one_ok : forall fuel q a b, d_in q -> shallow m (dp_h q) -> 0 <= a < I -> 0 <= b < J ->
  d_one (Datatypes.S (Datatypes.S fuel)) q a b = Ok (d_cell v q a b).
Proof.
  intros fuel q a b (N & R) S Ha Hb. unfold d_one. apply (wb_node_iff m W) in N. unfold oa_sum, for_up.
  rewrite (mfold_seqsum A Z _ (fun o => reported A m (dp_h q) (fun x => dv_at v x a b o))).
  - cbn [bind]. unfold d_cell, reported, dsum. destruct (dp_h q <? m_leaves m); reflexivity.
  - intros o Ho. apply In_zrange in Ho. apply (sub_reported A m W H2 fuel (dp_h q)); auto. apply dv_leaf_ok; auto; lia.
Qed.

Lemma d_one_deep : forall fuel q a b, d_in q -> ~ shallow m (dp_h q) -> 0 <= a < I -> 0 <= b < J -> d_one fuel q a b = OutOfFuel.
Proof.
  intros fuel q a b (N & R) S Ha Hb. unfold d_one. apply (wb_node_iff m W) in N. unfold oa_sum, for_up.
  assert (D : forall o, dp_start q <= o < dp_end q + 1 -> sub_sum A fuel m (dp_h q) (fun h => dv_get v h a b o) (m_root m) = OutOfFuel).
  { intros o Ho. rewrite (sub_deep A m W fuel (dp_h q)); auto; [|apply (wb_root_inner m W H2)]. intros x Hx. eexists. apply dv_leaf_ok; auto; lia. }
  rewrite mfold_fuel; auto.
  - intros o Ho. left. apply D. apply In_zrange in Ho. auto.
  - exists (dp_start q). split; [apply In_zrange; lia|]. apply D. lia.
Qed.

Lemma d_one_any : forall fuel q a b, d_in q -> 0 <= a < I -> 0 <= b < J -> d_one fuel q a b = OutOfFuel \/ exists y, d_one fuel q a b = Ok y.
Proof.
  intros fuel q a b Hq Ha Hb. assert (N := proj1 (wb_node_iff m W _) (proj1 Hq)). destruct (shallow_dec m W (dp_h q) N) as [S|S].
  - destruct fuel as [|[|fuel]].
    + left. destruct Hq as (_ & R). unfold d_one, oa_sum, for_up. rewrite (zrange_cons (dp_start q)) by lia. reflexivity.
    + assert (G : forall o, sub_sum A 1 m (dp_h q) (fun h => dv_get v h a b o) (m_root m) =
          match kids m (dp_h q) with [] => Ok (n_zero A) | _ => OutOfFuel end).
      { intro o. cbn [sub_sum]. pose proof (wb_root_inner m W H2). destruct (Z.ltb_spec (m_root m) (m_leaves m)); [lia|].
        rewrite (kids_children m W _ N). cbn [bind]. destruct (kids m (dp_h q)); reflexivity. }
      unfold d_one. destruct Hq as (_ & R). unfold oa_sum, for_up. destruct (kids m (dp_h q)).
      * right. rewrite (mfold_seqsum A Z _ (fun _ => n_zero A)) by auto. cbn [bind]. eauto.
      * left. rewrite mfold_fuel; auto. exists (dp_start q). split; auto. apply In_zrange. lia.
    + right. eexists. apply d_one_ok; auto.
  - left. apply d_one_deep; auto.
Qed.

Lemma dagg_prf : forall x fuel, d_rects v x -> (forall q, In q (dn_parts x) -> shallow m (dp_h q)) -> (2 <= fuel)%nat ->
  (dv_dim v = 2 -> dagg2 A fuel x v = Ok (map (fun q => d_cell v q 0 0) (dn_parts x))) /\
  (dv_dim v = 3 -> dagg3 A fuel x v = Ok (map (fun q => map (fun a => d_cell v q a 0) (zrange 0 I)) (dn_parts x))) /\
  (dv_dim v = 4 -> dagg4 A fuel x v = Ok (map (fun q => map (fun a => map (fun b => d_cell v q a b) (zrange 0 J)) (zrange 0 I)) (dn_parts x))).
Proof.
  intros x fuel N Hs Hf. destruct fuel as [|[|fuel]]; [lia|lia|]. pose proof Sh as (_ & _ & _ & _ & HV & Hd). unfold dv_dim.
  split; [|split]; intro D; destruct (dv_data v) as [d|d|i j d] eqn:ED; try discriminate; clear D.
  - destruct Hd as (E1 & E2 & _). unfold dagg2. apply mmap_map. intros q Hq. apply d_one_ok; auto; try lia. apply N; auto.
  - destruct Hd as (E2 & _). unfold dagg3. apply mmap_map. intros q Hq. unfold da3.
    rewrite HV. replace (I * J) with I by (rewrite E2; lia). apply mmap_map. intros a Ha. apply In_zrange in Ha. apply d_one_ok; auto; try lia. apply N; auto.
  - destruct Hd as (-> & -> & _). unfold dagg4. apply mmap_map. intros q Hq. unfold da4, dv_I, dv_J. rewrite ED.
    apply mmap_map. intros a Ha. apply In_zrange in Ha. apply mmap_map. intros b Hb. apply In_zrange in Hb. apply d_one_ok; auto; try lia. apply N; auto.
Qed.

Lemma dagg_deep_prf : forall x fuel q, d_rects v x -> In q (dn_parts x) -> ~ shallow m (dp_h q) -> 0 < I -> 0 < J ->
  (dv_dim v = 2 -> dagg2 A fuel x v = OutOfFuel) /\ (dv_dim v = 3 -> dagg3 A fuel x v = OutOfFuel) /\ (dv_dim v = 4 -> dagg4 A fuel x v = OutOfFuel).
Proof.
  intros x fuel q N Hq Hn HI HJ. pose proof Sh as (_ & _ & _ & _ & HV & Hd). unfold dv_dim. unfold d_rects in N.
  assert (Z0 : forall n, 0 < n -> In 0 (zrange 0 n)) by (intros; apply In_zrange; lia).
  split; [|split]; intro D; destruct (dv_data v) as [d|d|i j d] eqn:ED; try discriminate; clear D;
    (apply mmap_fuel; [intros y Hy|exists q; split; auto]).
  - apply d_one_any; try lia. apply N; auto.
  - apply d_one_deep; auto; try lia. apply N; auto.
  - destruct Hd as (E2 & _). unfold da3. rewrite HV. replace (I * J) with I by (rewrite E2; lia). apply mmap_ok_or_fuel. intros a Ha. apply In_zrange in Ha. apply d_one_any; try lia. apply N; auto.
  - destruct Hd as (E2 & _). unfold da3. rewrite HV. replace (I * J) with I by (rewrite E2; lia). apply mmap_fuel.
    + intros a Ha. apply In_zrange in Ha. apply d_one_any; try lia. apply N; auto.
    + exists 0. split; auto. apply d_one_deep; auto; try lia. apply N; auto.
  - destruct Hd as (-> & -> & _). unfold da4, dv_I, dv_J. rewrite ED. apply mmap_ok_or_fuel. intros a Ha. apply In_zrange in Ha.
    apply mmap_ok_or_fuel. intros b Hb. apply In_zrange in Hb. apply d_one_any; try lia. apply N; auto.
  - destruct Hd as (-> & -> & _). unfold da4, dv_I, dv_J. rewrite ED.
    apply mmap_fuel; [intros a Ha; apply In_zrange in Ha; apply mmap_ok_or_fuel; intros b Hb; apply In_zrange in Hb; apply d_one_any; try lia; apply N; auto|].
    exists 0; split; auto. apply mmap_fuel; [intros b Hb; apply In_zrange in Hb; apply d_one_any; try lia; apply N; auto|].
    exists 0; split; auto. apply d_one_deep; auto; try lia. apply N; auto.
Qed.
End D.
End M.
