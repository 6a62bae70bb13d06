(** * Properties C46 (flattened component index) and C47 (element read/write).

    In all statements a dimension that a class does not have counts as 1: OValuesN2 has K = J = 1, and so on. Every
    theorem holds in any arithmetic. *)
From Coq Require Import Reals Lia.
From Verif Require Import Base BaseFacts Arith Hierarchy Values SpecTree SpecParts SpecData SpecValues ValuesFacts ValuesProofs.

(** ** C46 *)
(** The rows 0..vsize-1 are exactly the coordinates (a,b,c) in range, each once, in lexicographic order; the row found at an
    index is in bounds, has [osize] elements and they are those that element access addresses with (a,b,c). *)
Theorem C46_ordered : forall A (v : ovalues A) I J K, ov_shaped v I J K ->
  (forall a b c, 0 <= a < I -> 0 <= b < J -> 0 <= c < K ->
     0 <= (a * J + b) * K + c < ov_vsize v /\
     exists row, ov_row v ((a * J + b) * K + c) = Ok row /\ vlen row = ov_osize v /\
       forall o, vget row o = ov_get v a b c o) /\
  (forall ix, 0 <= ix < ov_vsize v -> exists a b c, 0 <= a < I /\ 0 <= b < J /\ 0 <= c < K /\ ix = (a * J + b) * K + c /\
     forall a' b' c', 0 <= a' < I -> 0 <= b' < J -> 0 <= c' < K -> ix = (a' * J + b') * K + c' -> a' = a /\ b' = b /\ c' = c).
Proof. exact ov_index_prf. Qed.
Print Assumptions C46_ordered.

Theorem C46_hier : forall A (v : hvalues A) I J K, hv_shaped v I J K ->
  (forall h a b c, 0 <= a < I -> 0 <= b < J -> 0 <= c < K ->
     0 <= (a * J + b) * K + c < hv_vsize v /\ hv_value v h ((a * J + b) * K + c) = hv_get v h a b c) /\
  (forall ix, 0 <= ix < hv_vsize v -> exists a b c, 0 <= a < I /\ 0 <= b < J /\ 0 <= c < K /\ ix = (a * J + b) * K + c /\
     forall a' b' c', 0 <= a' < I -> 0 <= b' < J -> 0 <= c' < K -> ix = (a' * J + b') * K + c' -> a' = a /\ b' = b /\ c' = c).
Proof. exact hv_index_prf. Qed.
Print Assumptions C46_hier.

Theorem C46_spatio : forall A (v : dvalues A) I J, dv_shaped v I J ->
  (forall h a b, 0 <= h < m_leaves (dv_meta v) -> 0 <= a < I -> 0 <= b < J ->
     0 <= a * J + b < dv_vsize v /\ exists row, dv_row v h (a * J + b) = Ok row /\ vlen row = dv_osize v /\
       forall o, vget row o = dv_get v h a b o) /\
  (forall ix, 0 <= ix < dv_vsize v -> exists a b, 0 <= a < I /\ 0 <= b < J /\ ix = a * J + b /\
     forall a' b', 0 <= a' < I -> 0 <= b' < J -> ix = a' * J + b' -> a' = a /\ b' = b).
Proof. exact dv_index_prf. Qed.
Print Assumptions C46_spatio.

(** ** C47 *)
(** One write: it is in bounds, keeps all sizes and changes exactly the addressed element. *)
Theorem C47_ordered_write : forall A (v : ovalues A) I J K a b c o x, ov_shaped v I J K ->
  0 <= a < I -> 0 <= b < J -> 0 <= c < K -> 0 <= o < ov_osize v ->
  exists v', ov_set v a b c o x = Ok v' /\ ov_shaped v' I J K /\
    ov_vsize v' = ov_vsize v /\ ov_osize v' = ov_osize v /\ ov_dim v' = ov_dim v /\
    forall a' b' c' o', 0 <= a' < I -> 0 <= b' < J -> 0 <= c' < K ->
      ov_get v' a' b' c' o' = if (a' =? a) && (b' =? b) && (c' =? c) && (o' =? o) then Ok x else ov_get v a' b' c' o'.
Proof. exact ov_write_prf. Qed.
Print Assumptions C47_ordered_write.

(** Any history of in-range writes: every element holds the latest value written there, or its initial value. *)
Theorem C47_ordered_history : forall A I J K (ws : list (write4 A)) (v : ovalues A), ov_shaped v I J K ->
  Forall (fun '(a, b, c, o, x) => 0 <= a < I /\ 0 <= b < J /\ 0 <= c < K /\ 0 <= o < ov_osize v) ws ->
  exists v', mfold (fun '(a, b, c, o, x) w => ov_set w a b c o x) ws v = Ok v' /\ ov_shaped v' I J K /\
    ov_vsize v' = ov_vsize v /\ ov_osize v' = ov_osize v /\ ov_dim v' = ov_dim v /\
    forall a b c o, 0 <= a < I -> 0 <= b < J -> 0 <= c < K ->
      ov_get v' a b c o = match latest (a, b, c, o) ws with Some x => Ok x | None => ov_get v a b c o end.
Proof. exact ov_history_prf. Qed.
Print Assumptions C47_ordered_history.

(** Freshly sized objects: the requested shape, all zeros. *)
Theorem C47_ordered_new : forall A i j k n, 0 <= i -> 0 <= j -> 0 <= k -> 0 <= n ->
  (forall v I J K, In (v, I, J, K) [(ov1_new A n, 1, 1, 1); (ov2_new A i n, i, 1, 1); (ov3_new A i j n, i, j, 1); (ov4_new A i j k n, i, j, k)] ->
     ov_shaped v I J K /\ ov_osize v = n /\
     forall a b c o, 0 <= a < I -> 0 <= b < J -> 0 <= c < K -> 0 <= o < n -> ov_get v a b c o = Ok (n_zero A)).
Proof.
  intros A i j k n Hi Hj Hk Hn v I J K H. destruct (ov_new_prf A i j k n Hi Hj Hk Hn) as (S1 & S2 & S3 & S4).
  cbn [In] in H. destruct H as [H|[H|[H|[H|[]]]]]; injection H as <- <- <- <-; (split; [assumption|]); (split; [reflexivity|]);
    intros a b c o Ha Hb Hc Ho; unfold ov_get, ov1_new, ov2_new, ov3_new, ov4_new, vget4, vget3, vget2; cbn [ov_data];
    repeat (rewrite vget_vrep by auto; cbn [bind]); rewrite ?vget_vrep by auto; reflexivity.
Qed.
Print Assumptions C47_ordered_new.

(** Objects made from nested vectors whose inner lengths agree: the sizes are the nesting lengths and the elements are the
    vector's. *)
Theorem C47_ordered_of : forall A (d1 : list (num A)) d2 d3 d4,
  (ov_shaped (ov1_of A d1) 1 1 1 /\ ov_osize (ov1_of A d1) = vlen d1 /\ forall o, ov_get (ov1_of A d1) 0 0 0 o = vget d1 o) /\
  (rect2 d2 (size2 d2) -> ov_shaped (ov2_of A d2) (vlen d2) 1 1 /\ ov_osize (ov2_of A d2) = size2 d2 /\
     forall a o, ov_get (ov2_of A d2) a 0 0 o = (let* r := vget d2 a in vget r o)) /\
  (rect3 d3 (size2 d3) (size3 d3) -> ov_shaped (ov3_of A d3) (vlen d3) (size2 d3) 1 /\ ov_osize (ov3_of A d3) = size3 d3 /\
     forall a b o, ov_get (ov3_of A d3) a b 0 o = (let* r := vget d3 a in let* s := vget r b in vget s o)) /\
  (rect4 d4 (size2 d4) (size3 d4) (size4 d4) -> ov_shaped (ov4_of A d4) (vlen d4) (size2 d4) (size3 d4) /\
     ov_osize (ov4_of A d4) = size4 d4 /\
     forall a b c o, ov_get (ov4_of A d4) a b c o = (let* r := vget d4 a in let* s := vget r b in let* t := vget s c in vget t o)).
Proof.
  intros A d1 d2 d3 d4. destruct (ov_of_prf A d1 d2 d3 d4) as (S1 & S2 & S3 & S4).
  split; [|split; [|split]]; intros; (split; [auto|]); (split; [reflexivity|]); reflexivity.
Qed.
Print Assumptions C47_ordered_of.

Theorem C47_hier_write : forall A (v : hvalues A) I J K h a b c x, hv_shaped v I J K ->
  0 <= h < m_leaves (hv_meta v) -> 0 <= a < I -> 0 <= b < J -> 0 <= c < K ->
  exists v', hv_set v h a b c x = Ok v' /\ hv_shaped v' I J K /\
    hv_vsize v' = hv_vsize v /\ hv_meta v' = hv_meta v /\ hv_dim v' = hv_dim v /\
    forall h' a' b' c', 0 <= a' < I -> 0 <= b' < J -> 0 <= c' < K ->
      hv_get v' h' a' b' c' = if (h' =? h) && (a' =? a) && (b' =? b) && (c' =? c) then Ok x else hv_get v h' a' b' c'.
Proof. exact hv_write_prf. Qed.
Print Assumptions C47_hier_write.

Theorem C47_hier_history : forall A I J K (ws : list (write4 A)) (v : hvalues A), hv_shaped v I J K ->
  Forall (fun '(h, a, b, c, x) => 0 <= h < m_leaves (hv_meta v) /\ 0 <= a < I /\ 0 <= b < J /\ 0 <= c < K) ws ->
  exists v', mfold (fun '(h, a, b, c, x) w => hv_set w h a b c x) ws v = Ok v' /\ hv_shaped v' I J K /\
    hv_vsize v' = hv_vsize v /\ hv_meta v' = hv_meta v /\ hv_dim v' = hv_dim v /\
    forall h a b c, 0 <= a < I -> 0 <= b < J -> 0 <= c < K ->
      hv_get v' h a b c = match latest (h, a, b, c) ws with Some x => Ok x | None => hv_get v h a b c end.
Proof. exact hv_history_prf. Qed.
Print Assumptions C47_hier_history.

Theorem C47_spatio_write : forall A (v : dvalues A) I J h a b o x, dv_shaped v I J ->
  0 <= h < m_leaves (dv_meta v) -> 0 <= a < I -> 0 <= b < J -> 0 <= o < dv_osize v ->
  exists v', dv_set v h a b o x = Ok v' /\ dv_shaped v' I J /\
    dv_vsize v' = dv_vsize v /\ dv_osize v' = dv_osize v /\ dv_meta v' = dv_meta v /\ dv_dim v' = dv_dim v /\
    forall h' a' b' o', 0 <= a' < I -> 0 <= b' < J ->
      dv_get v' h' a' b' o' = if (h' =? h) && (a' =? a) && (b' =? b) && (o' =? o) then Ok x else dv_get v h' a' b' o'.
Proof. exact dv_write_prf. Qed.
Print Assumptions C47_spatio_write.

Theorem C47_spatio_history : forall A I J (ws : list (write4 A)) (v : dvalues A), dv_shaped v I J ->
  Forall (fun '(h, a, b, o, x) => 0 <= h < m_leaves (dv_meta v) /\ 0 <= a < I /\ 0 <= b < J /\ 0 <= o < dv_osize v) ws ->
  exists v', mfold (fun '(h, a, b, o, x) w => dv_set w h a b o x) ws v = Ok v' /\ dv_shaped v' I J /\
    dv_vsize v' = dv_vsize v /\ dv_osize v' = dv_osize v /\ dv_meta v' = dv_meta v /\ dv_dim v' = dv_dim v /\
    forall h a b o, 0 <= a < I -> 0 <= b < J ->
      dv_get v' h a b o = match latest (h, a, b, o) ws with Some x => Ok x | None => dv_get v h a b o end.
Proof. exact dv_history_prf. Qed.
Print Assumptions C47_spatio_history.

(** Hierarchical constructors. A successful construction records the leaf count it was given. *)
Lemma meta_build_leaves : forall L ps m, meta_build L ps = Ok m -> m_leaves m = L /\ m_parents m = ps /\ m_hsize m = vlen ps.
Proof.
  intros L ps m H. unfold meta_build, meta_build_fuel in H. destruct (sp_loop _ _ _ _) as [[[p c] s]| |]; try discriminate.
  cbn [bind] in H. destruct (vget p (vlen p - 1)); try discriminate. injection H as <-. auto.
Qed.

Theorem C47_hier_new : forall A ps L i j k, 0 <= L -> 0 <= i -> 0 <= j -> 0 <= k ->
  forall v r I J K, In (r, I, J, K) [(hv1_new A L ps, 1, 1, 1); (hv2_new A L i ps, i, 1, 1); (hv3_new A L i j ps, i, j, 1); (hv4_new A L i j k ps, i, j, k)] ->
    r = Ok v -> hv_shaped v I J K /\ meta_build L ps = Ok (hv_meta v) /\ m_leaves (hv_meta v) = L /\
     forall h a b c, 0 <= h < L -> 0 <= a < I -> 0 <= b < J -> 0 <= c < K -> hv_get v h a b c = Ok (n_zero A).
Proof.
  intros A ps L i j k HL Hi Hj Hk v r I J K H E. subst r.
  unfold hv1_new, hv2_new, hv3_new, hv4_new in H. destruct (meta_build L ps) as [m| |] eqn:EM;
    cbn [In bind] in H; destruct H as [H|[H|[H|[H|[]]]]]; try discriminate; injection H as <- <- <- <-;
    destruct (meta_build_leaves _ _ _ EM) as (EL & _ & _); subst L;
    unfold hv_shaped, hv_get, rect4, rect3, rect2, vget4, vget3, vget2; cbn [hv_meta hv_data hv_vsize];
    (split; [repeat split; try lia; rewrite ?vlen_vrep; auto;
             repeat (apply Forall_vrep; rewrite ?vlen_vrep; auto; try split; auto); rewrite ?vlen_vrep; auto|]);
    (split; [reflexivity|]); (split; [reflexivity|]); intros h a b c Hh Ha Hb Hc;
    repeat (rewrite vget_vrep by auto; cbn [bind]); rewrite ?vget_vrep by auto; reflexivity.
Qed.
Print Assumptions C47_hier_new.

Theorem C47_spatio_new : forall A ps L i j n, 0 <= L -> 0 <= i -> 0 <= j -> 0 <= n ->
  forall v r I J, In (r, I, J) [(dv2_new A L n ps, 1, 1); (dv3_new A L i n ps, i, 1); (dv4_new A L i j n ps, i, j)] ->
    r = Ok v -> dv_shaped v I J /\ meta_build L ps = Ok (dv_meta v) /\ m_leaves (dv_meta v) = L /\ dv_osize v = n /\
     forall h a b o, 0 <= h < L -> 0 <= a < I -> 0 <= b < J -> 0 <= o < n -> dv_get v h a b o = Ok (n_zero A).
Proof.
  intros A ps L i j n HL Hi Hj Hn v r I J H E. subst r.
  unfold dv2_new, dv3_new, dv4_new in H. destruct (meta_build L ps) as [m| |] eqn:EM;
    cbn [In bind] in H; destruct H as [H|[H|[H|[]]]]; try discriminate; injection H as <- <- <-;
    destruct (meta_build_leaves _ _ _ EM) as (EL & _ & _); subst L;
    unfold dv_shaped, dv_get, rect4, rect3, rect2, vget4, vget3, vget2; cbn [dv_meta dv_data dv_vsize dv_osize];
    (split; [repeat split; try lia; rewrite ?vlen_vrep; auto;
             repeat (apply Forall_vrep; rewrite ?vlen_vrep; auto; try split; auto); rewrite ?vlen_vrep; auto|]);
    (split; [reflexivity|]); (split; [reflexivity|]); (split; [reflexivity|]); intros h a b o Hh Ha Hb Ho;
    repeat (rewrite vget_vrep by auto; cbn [bind]); rewrite ?vget_vrep by auto; reflexivity.
Qed.
Print Assumptions C47_spatio_new.

Theorem C47_hier_of : forall A ps (d1 : list (num A)) d2 d3 d4 v,
  (hv1_of A d1 ps = Ok v -> hv_shaped v 1 1 1 /\ m_leaves (hv_meta v) = vlen d1 /\ forall h, hv_get v h 0 0 0 = vget d1 h) /\
  (hv2_of A d2 ps = Ok v -> rect2 d2 (size2 d2) -> hv_shaped v (size2 d2) 1 1 /\ m_leaves (hv_meta v) = vlen d2 /\
     forall h a, hv_get v h a 0 0 = (let* r := vget d2 h in vget r a)) /\
  (hv3_of A d3 ps = Ok v -> rect3 d3 (size2 d3) (size3 d3) -> hv_shaped v (size2 d3) (size3 d3) 1 /\ m_leaves (hv_meta v) = vlen d3 /\
     forall h a b, hv_get v h a b 0 = (let* r := vget d3 h in let* s := vget r a in vget s b)) /\
  (hv4_of A d4 ps = Ok v -> rect4 d4 (size2 d4) (size3 d4) (size4 d4) -> hv_shaped v (size2 d4) (size3 d4) (size4 d4) /\
     m_leaves (hv_meta v) = vlen d4 /\
     forall h a b c, hv_get v h a b c = (let* r := vget d4 h in let* s := vget r a in let* t := vget s b in vget t c)).
Proof.
  assert (S1 : forall X (d : list X), 0 <= size1 d) by (intros; apply vlen_nonneg).
  assert (S2 : forall X (d : list (list X)), 0 <= size2 d) by (intros X [|r d]; cbn; [lia|apply vlen_nonneg]).
  assert (S3 : forall X (d : list (list (list X))), 0 <= size3 d) by (intros X [|r d]; cbn; [lia|apply S2]).
  assert (S4 : forall X (d : list (list (list (list X)))), 0 <= size4 d) by (intros X [|r d]; cbn; [lia|apply S3]).
  intros A ps d1 d2 d3 d4 v. unfold hv1_of, hv2_of, hv3_of, hv4_of.
  split; [|split; [|split]]; intros E; intros;
    match type of E with (let* _ := ?b in _) = _ => destruct b as [m| |] eqn:EM; try discriminate end;
    cbn [bind] in E; injection E as <-; destruct (meta_build_leaves _ _ _ EM) as (EL & _ & _);
    unfold hv_shaped; cbn [hv_meta hv_data hv_vsize]; rewrite EL; (split; [repeat split; auto; lia|]); (split; [reflexivity|]); reflexivity.
Qed.
Print Assumptions C47_hier_of.

Theorem C47_spatio_of : forall A ps (d2 : list (list (num A))) d3 d4 v,
  (dv2_of A d2 ps = Ok v -> rect2 d2 (size2 d2) -> dv_shaped v 1 1 /\ m_leaves (dv_meta v) = vlen d2 /\ dv_osize v = size2 d2 /\
     forall h o, dv_get v h 0 0 o = (let* r := vget d2 h in vget r o)) /\
  (dv3_of A d3 ps = Ok v -> rect3 d3 (size2 d3) (size3 d3) -> dv_shaped v (size2 d3) 1 /\ m_leaves (dv_meta v) = vlen d3 /\ dv_osize v = size3 d3 /\
     forall h a o, dv_get v h a 0 o = (let* r := vget d3 h in let* s := vget r a in vget s o)) /\
  (dv4_of A d4 ps = Ok v -> rect4 d4 (size2 d4) (size3 d4) (size4 d4) -> dv_shaped v (size2 d4) (size3 d4) /\
     m_leaves (dv_meta v) = vlen d4 /\ dv_osize v = size4 d4 /\
     forall h a b o, dv_get v h a b o = (let* r := vget d4 h in let* s := vget r a in let* t := vget s b in vget t o)).
Proof.
  assert (S1 : forall X (d : list X), 0 <= size1 d) by (intros; apply vlen_nonneg).
  assert (S2 : forall X (d : list (list X)), 0 <= size2 d) by (intros X [|r d]; cbn; [lia|apply vlen_nonneg]).
  assert (S3 : forall X (d : list (list (list X))), 0 <= size3 d) by (intros X [|r d]; cbn; [lia|apply S2]).
  assert (S4 : forall X (d : list (list (list (list X)))), 0 <= size4 d) by (intros X [|r d]; cbn; [lia|apply S3]).
  intros A ps d2 d3 d4 v. unfold dv2_of, dv3_of, dv4_of.
  split; [|split]; intros E; intros;
    match type of E with (let* _ := ?b in _) = _ => destruct b as [m| |] eqn:EM; try discriminate end;
    cbn [bind] in E; injection E as <-; destruct (meta_build_leaves _ _ _ EM) as (EL & _ & _);
    unfold dv_shaped; cbn [dv_meta dv_data dv_vsize dv_osize]; rewrite EL; (split; [repeat split; auto; lia|]); (split; [reflexivity|]); (split; [reflexivity|]); reflexivity.
Qed.
Print Assumptions C47_spatio_of.

(** A concrete 2 x 3 x 2 (x 2) object, written to twice, and its row 9 = (1,1,1). *)
Example ex_values : let w := [(1, 1, 1, 0, 5%R); (0, 2, 0, 1, 7%R); (1, 1, 1, 0, 6%R)] : list (write4 RA) in
  exists v, mfold (fun '(a, b, c, o, x) w => ov_set w a b c o x) w (ov4_new RA 2 3 2 2) = Ok v /\
    ov_row v 9 = Ok [6%R; 0%R] /\ ov_get v 0 2 0 1 = Ok 7%R /\ ov_get v 1 1 0 0 = Ok 0%R /\ ov_vsize v = 12 /\ ov_shaped (ov4_new RA 2 3 2 2) 2 3 2.
Proof. eexists. split; [reflexivity|]. repeat (split; [reflexivity|]). apply (ov_new_prf RA 2 3 2 2); lia. Qed.
