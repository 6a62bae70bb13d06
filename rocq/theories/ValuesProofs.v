(** * Proofs for C46 and C47. *)
From Coq Require Import Lia.
From Verif Require Import Base BaseFacts Arith Hierarchy Values SpecTree SpecParts SpecData SpecValues ValuesFacts.

(** [latest] respects one more write at the front of the remaining history. *)
Lemma latest_cons : forall A k k' (x : num A) ws, latest k ((k', x) :: ws) =
  match latest k ws with Some y => Some y | None =>
    if (let '(a, b, c, d) := k in let '(a', b', c', d') := k' in (a =? a') && (b =? b') && (c =? c') && (d =? d')) then Some x else None end.
Proof. reflexivity. Qed.

Section M.
Context (A : arith).

(** ** Ordered *)
Lemma ov_get_ok : forall (v : ovalues A) I J K a b c o, ov_shaped v I J K ->
  0 <= a < I -> 0 <= b < J -> 0 <= c < K -> 0 <= o < ov_osize v -> exists x, ov_get v a b c o = Ok x.
Proof.
  intros v I J K a b c o (HI & HJ & HK & Ho & _ & Hd) Ha Hb Hc Hoo. unfold ov_get.
  destruct (ov_data v) as [d|d|i j d|i j k d].
  - apply vget_ok. lia.
  - destruct Hd as (-> & -> & <- & R2). eapply vget2_ok; eauto.
  - destruct Hd as (-> & -> & -> & <- & R2). eapply vget3_ok; eauto.
  - destruct Hd as (-> & -> & -> & <- & R2). eapply vget4_ok; eauto.
Qed.

Lemma ov_write_prf : forall (v : ovalues A) I J K a b c o x, ov_shaped v I J K ->
  0 <= a < I -> 0 <= b < J -> 0 <= c < K -> 0 <= o < ov_osize v ->
  exists v', ov_set v a b c o x = Ok v' /\ ov_shaped v' I J K /\
    ov_vsize v' = ov_vsize v /\ ov_osize v' = ov_osize v /\ ov_dim v' = ov_dim v /\
    forall a' b' c' o', 0 <= a' < I -> 0 <= b' < J -> 0 <= c' < K ->
      ov_get v' a' b' c' o' = if (a' =? a) && (b' =? b) && (c' =? c) && (o' =? o) then Ok x else ov_get v a' b' c' o'.
Proof.
  intros v I J K a b c o x (HI & HJ & HK & Ho & HV & Hd) Ha Hb Hc Hoo. unfold ov_set, ov_shaped, ov_dim, ov_get.
  destruct (ov_data v) as [d|d|i j d|i j k d].
  - destruct Hd as (-> & -> & -> & L). rewrite vset_ok by lia. cbn [bind]. eexists. split; [reflexivity|]. cbn.
    rewrite vlen_upd. repeat split; auto. intros a' b' c' o' Ha' Hb' Hc'.
    assert (a = 0) by lia. assert (a' = 0) by lia. assert (b = 0) by lia. assert (b' = 0) by lia. assert (c = 0) by lia. assert (c' = 0) by lia.
    subst. rewrite vget_upd by lia. reflexivity.
  - destruct Hd as (-> & -> & L & R2). destruct (vset2_ok _ d _ a o x R2) as (d' & E & R2' & L' & G); [lia|lia|].
    rewrite E. cbn [bind]. eexists. split; [reflexivity|]. cbn. repeat split; auto; try lia.
    intros a' b' c' o' Ha' Hb' Hc'. assert (b = 0) by lia. assert (b' = 0) by lia. assert (c = 0) by lia. assert (c' = 0) by lia. subst.
    rewrite G. destruct (a' =? a); reflexivity.
  - destruct Hd as (-> & -> & -> & L & R2). destruct (vset3_ok _ d _ _ a b o x R2) as (d' & E & R2' & L' & G); [lia|lia|lia|].
    rewrite E. cbn [bind]. eexists. split; [reflexivity|]. cbn. repeat split; auto; try lia.
    intros a' b' c' o' Ha' Hb' Hc'. assert (c = 0) by lia. assert (c' = 0) by lia. subst.
    rewrite G. destruct (a' =? a), (b' =? b); reflexivity.
  - destruct Hd as (-> & -> & -> & L & R2). destruct (vset4_ok _ d _ _ _ a b c o x R2) as (d' & E & R2' & L' & G); [lia|lia|lia|lia|].
    rewrite E. cbn [bind]. eexists. split; [reflexivity|]. cbn. repeat split; auto; try lia.
Qed.

Lemma ov_history_prf : forall I J K (ws : list (write4 A)) (v : ovalues A), ov_shaped v I J K ->
  Forall (fun '(a, b, c, o, x) => 0 <= a < I /\ 0 <= b < J /\ 0 <= c < K /\ 0 <= o < ov_osize v) ws ->
  exists v', mfold (fun '(a, b, c, o, x) w => ov_set w a b c o x) ws v = Ok v' /\ ov_shaped v' I J K /\
    ov_vsize v' = ov_vsize v /\ ov_osize v' = ov_osize v /\ ov_dim v' = ov_dim v /\
    forall a b c o, 0 <= a < I -> 0 <= b < J -> 0 <= c < K ->
      ov_get v' a b c o = match latest (a, b, c, o) ws with Some x => Ok x | None => ov_get v a b c o end.
Proof.
  intros I J K ws. induction ws as [|[[[[a b] c] o] x] ws IH]; intros v Sh F.
  - exists v. cbn [mfold latest]. split; [reflexivity|]. split; [exact Sh|]. repeat (split; auto).
  - inversion F as [|? ? HW F']; subst. cbv beta iota in HW. destruct HW as (Ha & Hb & Hc & Ho).
    destruct (ov_write_prf v I J K a b c o x Sh Ha Hb Hc Ho) as (v1 & E1 & S1 & V1 & O1 & D1 & G1).
    destruct (IH v1 S1) as (v2 & E2 & S2 & V2 & O2 & D2 & G2); [rewrite O1; auto|].
    exists v2. cbn [mfold]. rewrite E1. cbn [bind]. rewrite E2. split; [reflexivity|]. split; [exact S2|]. repeat (split; [congruence|]).
    intros a' b' c' o' Ha' Hb' Hc'. rewrite G2, G1, latest_cons by auto.
    destruct (latest (a', b', c', o') ws); auto. destruct (_ && _ && _ && _); reflexivity.
Qed.

Lemma ov_index_prf : forall (v : ovalues A) I J K, ov_shaped v I J K ->
  (forall a b c, 0 <= a < I -> 0 <= b < J -> 0 <= c < K ->
     0 <= (a * J + b) * K + c < ov_vsize v /\
     exists row, ov_row v ((a * J + b) * K + c) = Ok row /\ vlen row = ov_osize v /\
       forall o, vget row o = ov_get v a b c o) /\
  (forall ix, 0 <= ix < ov_vsize v -> exists a b c, 0 <= a < I /\ 0 <= b < J /\ 0 <= c < K /\ ix = (a * J + b) * K + c /\
     forall a' b' c', 0 <= a' < I -> 0 <= b' < J -> 0 <= c' < K -> ix = (a' * J + b') * K + c' -> a' = a /\ b' = b /\ c' = c).
Proof.
  intros v I J K (HI & HJ & HK & Ho & HV & Hd). rewrite HV. split.
  - intros a b c Ha Hb Hc. split; [apply idx_bound; auto|]. unfold ov_row, ov_get.
    destruct (ov_data v) as [d|d|i j d|i j k d].
    + exists d. intuition.
    + destruct Hd as (-> & -> & L & R2). replace ((a * 1 + b) * 1 + c) with a by lia.
      destruct (vget_ok _ d a ltac:(lia)) as [r Er]. exists r. split; auto. split; [exact (Forall_vget _ _ _ _ _ R2 Er)|].
      intro o. unfold vget2. rewrite Er. reflexivity.
    + destruct Hd as (-> & -> & -> & L & R2). replace ((a * J + b) * 1 + c) with (a * J + b) by lia.
      rewrite udiv_ok, umod_ok by lia. cbn [bind]. destruct (idx2 a b J Hb) as [-> ->]. unfold vget2, vget3.
      destruct (vget_ok _ d a ltac:(lia)) as [r Er]. rewrite Er. cbn [bind]. destruct (Forall_vget _ _ _ _ _ R2 Er) as [L1 R1].
      destruct (vget_ok _ r b ltac:(lia)) as [r2 Er2]. exists r2. split; auto. split; [exact (Forall_vget _ _ _ _ _ R1 Er2)|].
      intro o. unfold vget2. rewrite Er2. reflexivity.
    + destruct Hd as (-> & -> & -> & L & R2). rewrite !udiv_ok, umod_ok by nia. cbn [bind]. rewrite umod_ok by lia. cbn [bind].
      destruct (idx3 a b c J K Hb Hc) as (-> & -> & ->). unfold vget3, vget4.
      destruct (vget_ok _ d a ltac:(lia)) as [r Er]. rewrite Er. cbn [bind]. destruct (Forall_vget _ _ _ _ _ R2 Er) as [L1 R1].
      unfold vget2, vget3. destruct (vget_ok _ r b ltac:(lia)) as [r2 Er2]. rewrite Er2. cbn [bind]. destruct (Forall_vget _ _ _ _ _ R1 Er2) as [L2 R0].
      destruct (vget_ok _ r2 c ltac:(lia)) as [r3 Er3]. exists r3. split; auto. split; [exact (Forall_vget _ _ _ _ _ R0 Er3)|].
      intro o. unfold vget2. rewrite Er3. reflexivity.
  - intros ix Hix. destruct (idx_cover ix I J K Hix HI HJ HK) as (a & b & c & Ha & Hb & Hc & E).
    exists a, b, c. split; [auto|]. split; [auto|]. split; [auto|]. split; [auto|]. intros a' b' c' Ha' Hb' Hc' E'. rewrite E in E'.
    destruct (idx_unique a b c a' b' c' J K) as (? & ? & ?); auto.
Qed.

(** ** Hierarchical *)
Lemma hv_get_ok : forall (v : hvalues A) I J K h a b c, hv_shaped v I J K ->
  0 <= h < m_leaves (hv_meta v) -> 0 <= a < I -> 0 <= b < J -> 0 <= c < K -> exists x, hv_get v h a b c = Ok x.
Proof.
  intros v I J K h a b c (HI & HJ & HK & Ho & _ & Hd) Hh Ha Hb Hc. unfold hv_get.
  destruct (hv_data v) as [d|d|i j d|i j k d].
  - apply vget_ok. lia.
  - destruct Hd as (-> & -> & L & R2). eapply vget2_ok; eauto. lia.
  - destruct Hd as (-> & -> & -> & L & R2). eapply vget3_ok; eauto. lia.
  - destruct Hd as (-> & -> & -> & L & R2). eapply vget4_ok; eauto. lia.
Qed.

Lemma hv_write_prf : forall (v : hvalues A) I J K h a b c x, hv_shaped v I J K ->
  0 <= h < m_leaves (hv_meta v) -> 0 <= a < I -> 0 <= b < J -> 0 <= c < K ->
  exists v', hv_set v h a b c x = Ok v' /\ hv_shaped v' I J K /\
    hv_vsize v' = hv_vsize v /\ hv_meta v' = hv_meta v /\ hv_dim v' = hv_dim v /\
    forall h' a' b' c', 0 <= a' < I -> 0 <= b' < J -> 0 <= c' < K ->
      hv_get v' h' a' b' c' = if (h' =? h) && (a' =? a) && (b' =? b) && (c' =? c) then Ok x else hv_get v h' a' b' c'.
Proof.
  intros v I J K h a b c x (HI & HJ & HK & Ho & HV & Hd) Hh Ha Hb Hc. unfold hv_set, hv_shaped, hv_dim, hv_get.
  destruct (hv_data v) as [d|d|i j d|i j k d].
  - destruct Hd as (-> & -> & -> & L). rewrite vset_ok by lia. cbn [bind]. eexists. split; [reflexivity|]. cbn.
    rewrite vlen_upd. repeat split; auto. intros h' a' b' c' Ha' Hb' Hc'.
    assert (a = 0) by lia. assert (a' = 0) by lia. assert (b = 0) by lia. assert (b' = 0) by lia. assert (c = 0) by lia. assert (c' = 0) by lia.
    subst. rewrite vget_upd by lia. rewrite !Z.eqb_refl, !andb_true_r. reflexivity.
  - destruct Hd as (-> & -> & L & R2). destruct (vset2_ok _ d _ h a x R2) as (d' & E & R2' & L' & G); [lia|lia|].
    rewrite E. cbn [bind]. eexists. split; [reflexivity|]. cbn. repeat split; auto; try lia.
    intros h' a' b' c' Ha' Hb' Hc'. assert (b = 0) by lia. assert (b' = 0) by lia. assert (c = 0) by lia. assert (c' = 0) by lia. subst.
    rewrite G. rewrite !Z.eqb_refl, !andb_true_r. reflexivity.
  - destruct Hd as (-> & -> & -> & L & R2). destruct (vset3_ok _ d _ _ h a b x R2) as (d' & E & R2' & L' & G); [lia|lia|lia|].
    rewrite E. cbn [bind]. eexists. split; [reflexivity|]. cbn. repeat split; auto; try lia.
    intros h' a' b' c' Ha' Hb' Hc'. assert (c = 0) by lia. assert (c' = 0) by lia. subst.
    rewrite G. rewrite !Z.eqb_refl, !andb_true_r. reflexivity.
  - destruct Hd as (-> & -> & -> & L & R2). destruct (vset4_ok _ d _ _ _ h a b c x R2) as (d' & E & R2' & L' & G); [lia|lia|lia|lia|].
    rewrite E. cbn [bind]. eexists. split; [reflexivity|]. cbn. repeat split; auto; try lia.
Qed.

Lemma hv_history_prf : forall I J K (ws : list (write4 A)) (v : hvalues A), hv_shaped v I J K ->
  Forall (fun '(h, a, b, c, x) => 0 <= h < m_leaves (hv_meta v) /\ 0 <= a < I /\ 0 <= b < J /\ 0 <= c < K) ws ->
  exists v', mfold (fun '(h, a, b, c, x) w => hv_set w h a b c x) ws v = Ok v' /\ hv_shaped v' I J K /\
    hv_vsize v' = hv_vsize v /\ hv_meta v' = hv_meta v /\ hv_dim v' = hv_dim v /\
    forall h a b c, 0 <= a < I -> 0 <= b < J -> 0 <= c < K ->
      hv_get v' h a b c = match latest (h, a, b, c) ws with Some x => Ok x | None => hv_get v h a b c end.
Proof.
  intros I J K ws. induction ws as [|[[[[h a] b] c] x] ws IH]; intros v Sh F.
  - exists v. cbn [mfold latest]. split; [reflexivity|]. split; [exact Sh|]. repeat (split; auto).
  - inversion F as [|? ? HW F']; subst. cbv beta iota in HW. destruct HW as (Hh & Ha & Hb & Hc).
    destruct (hv_write_prf v I J K h a b c x Sh Hh Ha Hb Hc) as (v1 & E1 & S1 & V1 & O1 & D1 & G1).
    destruct (IH v1 S1) as (v2 & E2 & S2 & V2 & O2 & D2 & G2); [rewrite O1; auto|].
    exists v2. cbn [mfold]. rewrite E1. cbn [bind]. rewrite E2. split; [reflexivity|]. split; [exact S2|]. repeat (split; [congruence|]).
    intros h' a' b' c' Ha' Hb' Hc'. rewrite G2, G1, latest_cons by auto.
    destruct (latest (h', a', b', c') ws); auto. destruct (_ && _ && _ && _); reflexivity.
Qed.

Lemma hv_index_prf : forall (v : hvalues A) I J K, hv_shaped v I J K ->
  (forall h a b c, 0 <= a < I -> 0 <= b < J -> 0 <= c < K ->
     0 <= (a * J + b) * K + c < hv_vsize v /\ hv_value v h ((a * J + b) * K + c) = hv_get v h a b c) /\
  (forall ix, 0 <= ix < hv_vsize v -> exists a b c, 0 <= a < I /\ 0 <= b < J /\ 0 <= c < K /\ ix = (a * J + b) * K + c /\
     forall a' b' c', 0 <= a' < I -> 0 <= b' < J -> 0 <= c' < K -> ix = (a' * J + b') * K + c' -> a' = a /\ b' = b /\ c' = c).
Proof.
  intros v I J K (HI & HJ & HK & Ho & HV & Hd). rewrite HV. split.
  - intros h a b c Ha Hb Hc. split; [apply idx_bound; auto|]. unfold hv_value, hv_get.
    destruct (hv_data v) as [d|d|i j d|i j k d]; auto.
    + destruct Hd as (-> & -> & L & R2). f_equal. lia.
    + destruct Hd as (-> & -> & -> & L & R2). replace ((a * J + b) * 1 + c) with (a * J + b) by lia.
      rewrite udiv_ok, umod_ok by lia. cbn [bind]. destruct (idx2 a b J Hb) as [-> ->]. reflexivity.
    + destruct Hd as (-> & -> & -> & L & R2). rewrite !udiv_ok, umod_ok by nia. cbn [bind]. rewrite umod_ok by lia. cbn [bind].
      destruct (idx3 a b c J K Hb Hc) as (-> & -> & ->). reflexivity.
  - intros ix Hix. destruct (idx_cover ix I J K Hix HI HJ HK) as (a & b & c & Ha & Hb & Hc & E).
    exists a, b, c. split; [auto|]. split; [auto|]. split; [auto|]. split; [auto|]. intros a' b' c' Ha' Hb' Hc' E'. rewrite E in E'.
    destruct (idx_unique a b c a' b' c' J K) as (? & ? & ?); auto.
Qed.

(** ** Spatiotemporal *)
Lemma dv_get_ok : forall (v : dvalues A) I J h a b o, dv_shaped v I J ->
  0 <= h < m_leaves (dv_meta v) -> 0 <= a < I -> 0 <= b < J -> 0 <= o < dv_osize v -> exists x, dv_get v h a b o = Ok x.
Proof.
  intros v I J h a b o (HI & HJ & HK & Ho & _ & Hd) Hh Ha Hb Hc. unfold dv_get.
  destruct (dv_data v) as [d|d|i j d].
  - destruct Hd as (-> & -> & L & R2). eapply vget2_ok; eauto. lia.
  - destruct Hd as (-> & L & R2). eapply vget3_ok; eauto. lia.
  - destruct Hd as (-> & -> & L & R2). eapply vget4_ok; eauto. lia.
Qed.

Lemma dv_write_prf : forall (v : dvalues A) I J h a b o x, dv_shaped v I J ->
  0 <= h < m_leaves (dv_meta v) -> 0 <= a < I -> 0 <= b < J -> 0 <= o < dv_osize v ->
  exists v', dv_set v h a b o x = Ok v' /\ dv_shaped v' I J /\
    dv_vsize v' = dv_vsize v /\ dv_osize v' = dv_osize v /\ dv_meta v' = dv_meta v /\ dv_dim v' = dv_dim v /\
    forall h' a' b' o', 0 <= a' < I -> 0 <= b' < J ->
      dv_get v' h' a' b' o' = if (h' =? h) && (a' =? a) && (b' =? b) && (o' =? o) then Ok x else dv_get v h' a' b' o'.
Proof.
  intros v I J h a b o x (HI & HJ & HK & Ho & HV & Hd) Hh Ha Hb Hc. unfold dv_set, dv_shaped, dv_dim, dv_get.
  destruct (dv_data v) as [d|d|i j d].
  - destruct Hd as (-> & -> & L & R2). destruct (vset2_ok _ d _ h o x R2) as (d' & E & R2' & L' & G); [lia|lia|].
    rewrite E. cbn [bind]. eexists. split; [reflexivity|]. cbn. repeat split; auto; try lia.
    intros h' a' b' o' Ha' Hb'. assert (a = 0) by lia. assert (a' = 0) by lia. assert (b = 0) by lia. assert (b' = 0) by lia. subst.
    rewrite G. rewrite !Z.eqb_refl, !andb_true_r. reflexivity.
  - destruct Hd as (-> & L & R2). destruct (vset3_ok _ d _ _ h a o x R2) as (d' & E & R2' & L' & G); [lia|lia|lia|].
    rewrite E. cbn [bind]. eexists. split; [reflexivity|]. cbn. repeat split; auto; try lia.
    intros h' a' b' o' Ha' Hb'. assert (b = 0) by lia. assert (b' = 0) by lia. subst.
    rewrite G. rewrite !Z.eqb_refl, !andb_true_r. reflexivity.
  - destruct Hd as (-> & -> & L & R2). destruct (vset4_ok _ d _ _ _ h a b o x R2) as (d' & E & R2' & L' & G); [lia|lia|lia|lia|].
    rewrite E. cbn [bind]. eexists. split; [reflexivity|]. cbn. repeat split; auto; try lia.
Qed.

Lemma dv_history_prf : forall I J (ws : list (write4 A)) (v : dvalues A), dv_shaped v I J ->
  Forall (fun '(h, a, b, o, x) => 0 <= h < m_leaves (dv_meta v) /\ 0 <= a < I /\ 0 <= b < J /\ 0 <= o < dv_osize v) ws ->
  exists v', mfold (fun '(h, a, b, o, x) w => dv_set w h a b o x) ws v = Ok v' /\ dv_shaped v' I J /\
    dv_vsize v' = dv_vsize v /\ dv_osize v' = dv_osize v /\ dv_meta v' = dv_meta v /\ dv_dim v' = dv_dim v /\
    forall h a b o, 0 <= a < I -> 0 <= b < J ->
      dv_get v' h a b o = match latest (h, a, b, o) ws with Some x => Ok x | None => dv_get v h a b o end.
Proof.
  intros I J ws. induction ws as [|[[[[h a] b] o] x] ws IH]; intros v Sh F.
  - exists v. cbn [mfold latest]. split; [reflexivity|]. split; [exact Sh|]. repeat (split; auto).
  - inversion F as [|? ? HW F']; subst. cbv beta iota in HW. destruct HW as (Hh & Ha & Hb & Hc).
    destruct (dv_write_prf v I J h a b o x Sh Hh Ha Hb Hc) as (v1 & E1 & S1 & V1 & O1 & M1 & D1 & G1).
    destruct (IH v1 S1) as (v2 & E2 & S2 & V2 & O2 & M2 & D2 & G2); [rewrite M1, O1; auto|].
    exists v2. cbn [mfold]. rewrite E1. cbn [bind]. rewrite E2. split; [reflexivity|]. split; [exact S2|]. repeat (split; [congruence|]).
    intros h' a' b' c' Ha' Hb'. rewrite G2, G1, latest_cons by auto.
    destruct (latest (h', a', b', c') ws); auto. destruct (_ && _ && _ && _); reflexivity.
Qed.

Lemma dv_index_prf : forall (v : dvalues A) I J, dv_shaped v I J ->
  (forall h a b, 0 <= h < m_leaves (dv_meta v) -> 0 <= a < I -> 0 <= b < J ->
     0 <= a * J + b < dv_vsize v /\ exists row, dv_row v h (a * J + b) = Ok row /\ vlen row = dv_osize v /\
       forall o, vget row o = dv_get v h a b o) /\
  (forall ix, 0 <= ix < dv_vsize v -> exists a b, 0 <= a < I /\ 0 <= b < J /\ ix = a * J + b /\
     forall a' b', 0 <= a' < I -> 0 <= b' < J -> ix = a' * J + b' -> a' = a /\ b' = b).
Proof.
  intros v I J (HI & HJ & HK & Ho & HV & Hd). rewrite HV. split.
  - intros h a b Hh Ha Hb. split; [pose proof (idx_bound a b 0 I J 1 Ha Hb ltac:(lia)); lia|]. unfold dv_row, dv_get.
    destruct (dv_data v) as [d|d|i j d].
    + destruct Hd as (-> & -> & L & R2). destruct (vget_ok _ d h ltac:(lia)) as [r Er]. exists r. split; auto.
      split; [exact (Forall_vget _ _ _ _ _ R2 Er)|]. intro o. unfold vget2. rewrite Er. reflexivity.
    + destruct Hd as (-> & L & R2). replace (a * 1 + b) with a by lia. unfold vget2, vget3.
      destruct (vget_ok _ d h ltac:(lia)) as [r Er]. rewrite Er. cbn [bind]. destruct (Forall_vget _ _ _ _ _ R2 Er) as [L1 R1].
      destruct (vget_ok _ r a ltac:(lia)) as [r2 Er2]. exists r2. split; auto. split; [exact (Forall_vget _ _ _ _ _ R1 Er2)|].
      intro o. unfold vget2. rewrite Er2. reflexivity.
    + destruct Hd as (-> & -> & L & R2). rewrite udiv_ok, umod_ok by lia. cbn [bind]. destruct (idx2 a b J Hb) as [-> ->]. unfold vget3, vget4.
      destruct (vget_ok _ d h ltac:(lia)) as [r Er]. rewrite Er. cbn [bind]. destruct (Forall_vget _ _ _ _ _ R2 Er) as [L1 R1].
      unfold vget2, vget3. destruct (vget_ok _ r a ltac:(lia)) as [r2 Er2]. rewrite Er2. cbn [bind]. destruct (Forall_vget _ _ _ _ _ R1 Er2) as [L2 R0].
      destruct (vget_ok _ r2 b ltac:(lia)) as [r3 Er3]. exists r3. split; auto. split; [exact (Forall_vget _ _ _ _ _ R0 Er3)|].
      intro o. unfold vget2. rewrite Er3. reflexivity.
  - intros ix Hix. destruct (idx_cover ix I J 1 ltac:(lia) HI HJ ltac:(lia)) as (a & b & c & Ha & Hb & Hc & E).
    exists a, b. split; [auto|]. split; [auto|]. split; [lia|]. intros a' b' Ha' Hb' E'.
    destruct (idx_unique a b 0 a' b' 0 J 1) as (? & ? & ?); auto; lia.
Qed.

(** ** Constructors *)
Lemma ov_new_prf : forall i j k n, 0 <= i -> 0 <= j -> 0 <= k -> 0 <= n ->
  ov_shaped (ov1_new A n) 1 1 1 /\ ov_shaped (ov2_new A i n) i 1 1 /\ ov_shaped (ov3_new A i j n) i j 1 /\ ov_shaped (ov4_new A i j k n) i j k.
Proof.
  intros i j k n Hi Hj Hk Hn. unfold ov_shaped, ov1_new, ov2_new, ov3_new, ov4_new, rect4, rect3, rect2. cbn [ov_data ov_osize ov_vsize].
  repeat split; try lia; rewrite ?vlen_vrep; auto; repeat (apply Forall_vrep; rewrite ?vlen_vrep; auto; try split; auto); rewrite ?vlen_vrep; auto.
Qed.

Lemma ov_of_prf : forall (d1 : list (num A)) d2 d3 d4,
  ov_shaped (ov1_of A d1) 1 1 1 /\
  (rect2 d2 (size2 d2) -> ov_shaped (ov2_of A d2) (size1 d2) 1 1) /\
  (rect3 d3 (size2 d3) (size3 d3) -> ov_shaped (ov3_of A d3) (size1 d3) (size2 d3) 1) /\
  (rect4 d4 (size2 d4) (size3 d4) (size4 d4) -> ov_shaped (ov4_of A d4) (size1 d4) (size2 d4) (size3 d4)).
Proof.
  assert (S1 : forall X (d : list X), 0 <= size1 d) by (intros; apply vlen_nonneg).
  assert (S2 : forall X (d : list (list X)), 0 <= size2 d) by (intros X [|r d]; cbn; [lia|apply vlen_nonneg]).
  assert (S3 : forall X (d : list (list (list X))), 0 <= size3 d) by (intros X [|r d]; cbn; [lia|apply S2]).
  assert (S4 : forall X (d : list (list (list (list X)))), 0 <= size4 d) by (intros X [|r d]; cbn; [lia|apply S3]).
  intros. unfold ov_shaped, ov1_of, ov2_of, ov3_of, ov4_of. cbn [ov_data ov_osize ov_vsize]. repeat split; auto; try lia.
Qed.

End M.
