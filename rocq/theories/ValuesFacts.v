(** * Facts about nested vectors and the data containers. *)
From Coq Require Import Lia.
From Verif Require Import Base BaseFacts Arith Hierarchy Values SpecTree SpecParts SpecData SpecValues.

Lemma Forall_vget : forall X (P : X -> Prop) l i x, Forall P l -> vget l i = Ok x -> P x.
Proof. intros X P l i x F E. eapply Forall_forall; eauto. eapply vget_In; eauto. Qed.

Lemma Forall_upd : forall X (P : X -> Prop) l n x, Forall P l -> P x -> Forall P (upd n x l).
Proof. intros X P l n x F H. revert n. induction F as [|y l H0 F IH]; intros [|n]; simpl; auto. Qed.

Lemma vlen_upd : forall X (l : list X) n x, vlen (upd n x l) = vlen l.
Proof. intros. unfold vlen. rewrite upd_length. reflexivity. Qed.

Lemma Forall_vrep : forall X (P : X -> Prop) n x, P x -> Forall P (vrep n x).
Proof. intros X P n x H. unfold vrep. apply Forall_forall. intros y E. apply repeat_spec in E. congruence. Qed.

(** ** Two levels *)
Lemma vget2_ok : forall X (d : list (list X)) n a o, rect2 d n -> 0 <= a < vlen d -> 0 <= o < n -> exists x, vget2 d a o = Ok x.
Proof.
  intros X d n a o R2 Ha Ho. unfold vget2. destruct (vget_ok _ d a Ha) as [r Er]. rewrite Er. cbn [bind].
  apply vget_ok. assert (E := Forall_vget _ _ _ _ _ R2 Er). cbv beta in E. lia.
Qed.

Lemma vset2_ok : forall X (d : list (list X)) n a o x, rect2 d n -> 0 <= a < vlen d -> 0 <= o < n ->
  exists d', vset2 d a o x = Ok d' /\ rect2 d' n /\ vlen d' = vlen d /\
    forall a' o', vget2 d' a' o' = if (a' =? a) && (o' =? o) then Ok x else vget2 d a' o'.
Proof.
  intros X d n a o x R2 Ha Ho. unfold vset2, vget2. destruct (vget_ok _ d a Ha) as [r Er]. rewrite Er. cbn [bind].
  assert (E := Forall_vget _ _ _ _ _ R2 Er). cbv beta in E.
  rewrite (vset_ok _ r o x) by lia. cbn [bind]. rewrite vset_ok by auto. eexists. split; [reflexivity|]. split; [|split].
  - apply Forall_upd; auto. rewrite vlen_upd. auto.
  - apply vlen_upd.
  - intros a' o'. rewrite vget_upd by auto. destruct (Z.eqb_spec a' a) as [->|N]; cbn [andb]; auto.
    cbn [bind]. rewrite vget_upd by lia. rewrite Er. cbn [bind]. reflexivity.
Qed.

Lemma vget3_ok : forall X (d : list (list (list X))) m n a b o, rect3 d m n -> 0 <= a < vlen d -> 0 <= b < m -> 0 <= o < n ->
  exists x, vget3 d a b o = Ok x.
Proof.
  intros X d m n a b o R3 Ha Hb Ho. unfold vget3. destruct (vget_ok _ d a Ha) as [r Er]. rewrite Er. cbn [bind].
  destruct (Forall_vget _ _ _ _ _ R3 Er) as [E R2]. eapply vget2_ok; eauto. lia.
Qed.

Lemma vset3_ok : forall X (d : list (list (list X))) m n a b o x, rect3 d m n -> 0 <= a < vlen d -> 0 <= b < m -> 0 <= o < n ->
  exists d', vset3 d a b o x = Ok d' /\ rect3 d' m n /\ vlen d' = vlen d /\
    forall a' b' o', vget3 d' a' b' o' = if (a' =? a) && (b' =? b) && (o' =? o) then Ok x else vget3 d a' b' o'.
Proof.
  intros X d m n a b o x R3 Ha Hb Ho. unfold vset3, vget3. destruct (vget_ok _ d a Ha) as [r Er]. rewrite Er. cbn [bind].
  destruct (Forall_vget _ _ _ _ _ R3 Er) as [E R2].
  destruct (vset2_ok _ r n b o x R2) as (r' & E' & R2' & L' & G'); [lia|lia|]. rewrite E'. cbn [bind].
  rewrite vset_ok by auto. eexists. split; [reflexivity|]. split; [|split].
  - apply Forall_upd; auto. split; auto. lia.
  - apply vlen_upd.
  - intros a' b' o'. rewrite vget_upd by auto. destruct (Z.eqb_spec a' a) as [->|N]; cbn [andb]; auto.
    cbn [bind]. rewrite G', Er. cbn [bind]. reflexivity.
Qed.

Lemma vget4_ok : forall X (d : list (list (list (list X)))) l m n a b c o, rect4 d l m n ->
  0 <= a < vlen d -> 0 <= b < l -> 0 <= c < m -> 0 <= o < n -> exists x, vget4 d a b c o = Ok x.
Proof.
  intros X d l m n a b c o R4 Ha Hb Hc Ho. unfold vget4. destruct (vget_ok _ d a Ha) as [r Er]. rewrite Er. cbn [bind].
  destruct (Forall_vget _ _ _ _ _ R4 Er) as [E R3]. eapply vget3_ok; eauto. lia.
Qed.

Lemma vset4_ok : forall X (d : list (list (list (list X)))) l m n a b c o x, rect4 d l m n ->
  0 <= a < vlen d -> 0 <= b < l -> 0 <= c < m -> 0 <= o < n ->
  exists d', vset4 d a b c o x = Ok d' /\ rect4 d' l m n /\ vlen d' = vlen d /\
    forall a' b' c' o', vget4 d' a' b' c' o' = if (a' =? a) && (b' =? b) && (c' =? c) && (o' =? o) then Ok x else vget4 d a' b' c' o'.
Proof.
  intros X d l m n a b c o x R4 Ha Hb Hc Ho. unfold vset4, vget4. destruct (vget_ok _ d a Ha) as [r Er]. rewrite Er. cbn [bind].
  destruct (Forall_vget _ _ _ _ _ R4 Er) as [E R3].
  destruct (vset3_ok _ r m n b c o x R3) as (r' & E' & R3' & L' & G'); [lia|lia|lia|]. rewrite E'. cbn [bind].
  rewrite vset_ok by auto. eexists. split; [reflexivity|]. split; [|split].
  - apply Forall_upd; auto. split; auto. lia.
  - apply vlen_upd.
  - intros a' b' c' o'. rewrite vget_upd by auto. destruct (Z.eqb_spec a' a) as [->|N]; cbn [andb]; auto.
    cbn [bind]. rewrite G', Er. cbn [bind]. reflexivity.
Qed.

(** Index arithmetic. *)
Lemma idx2 : forall a b J, 0 <= b < J -> (a * J + b) / J = a /\ (a * J + b) mod J = b.
Proof.
  intros a b J H. split.
  - rewrite Z.add_comm, Z.div_add by lia. rewrite Z.div_small; lia.
  - rewrite Z.add_comm, Z.mod_add by lia. apply Z.mod_small; lia.
Qed.

Lemma idx3 : forall a b c J K, 0 <= b < J -> 0 <= c < K ->
  ((a * J + b) * K + c) / (K * J) = a /\ (((a * J + b) * K + c) / K) mod J = b /\ ((a * J + b) * K + c) mod K = c.
Proof.
  intros a b c J K Hb Hc. destruct (idx2 (a * J + b) c K Hc) as [E1 E2]. destruct (idx2 a b J Hb) as [E3 E4].
  rewrite E1, E2, E4. rewrite <- Z.div_div, E1, E3 by lia. auto.
Qed.

Lemma idx_bound : forall a b c I J K, 0 <= a < I -> 0 <= b < J -> 0 <= c < K -> 0 <= (a * J + b) * K + c < I * J * K.
Proof.
  intros a b c I J K Ha Hb Hc. assert (0 <= a * J) by (apply Z.mul_nonneg_nonneg; lia).
  assert (H0 : a * J + b + 1 <= I * J) by nia. split; [nia|].
  assert ((a * J + b + 1) * K <= I * J * K) by (apply Z.mul_le_mono_nonneg_r; lia). lia.
Qed.

Lemma idx_cover : forall ix I J K, 0 <= ix < I * J * K -> 0 <= I -> 0 <= J -> 0 <= K ->
  exists a b c, 0 <= a < I /\ 0 <= b < J /\ 0 <= c < K /\ ix = (a * J + b) * K + c.
Proof.
  intros ix I J K H HI HJ HK. assert (0 < K) by nia. assert (0 < J) by nia.
  exists (ix / K / J), ((ix / K) mod J), (ix mod K).
  assert (B1 := Z.mod_pos_bound ix K ltac:(lia)). assert (B2 := Z.mod_pos_bound (ix / K) J ltac:(lia)).
  assert (D1 := Z.div_mod ix K ltac:(lia)). assert (D2 := Z.div_mod (ix / K) J ltac:(lia)).
  repeat split; try lia.
  - apply Z.div_pos; [|lia]. apply Z.div_pos; lia.
  - apply Z.div_lt_upper_bound; [lia|]. apply Z.div_lt_upper_bound; lia.
Qed.

Lemma idx_unique : forall a b c a' b' c' J K, 0 <= b < J -> 0 <= c < K -> 0 <= b' < J -> 0 <= c' < K ->
  (a * J + b) * K + c = (a' * J + b') * K + c' -> a = a' /\ b = b' /\ c = c'.
Proof.
  intros a b c a' b' c' J K Hb Hc Hb' Hc' E.
  destruct (idx3 a b c J K Hb Hc) as (E1 & E2 & E3). destruct (idx3 a' b' c' J K Hb' Hc') as (E4 & E5 & E6).
  rewrite E in *. split; [|split]; congruence.
Qed.

Lemma udiv_ok : forall a b, b <> 0 -> udiv a b = Ok (a / b).
Proof. intros. unfold udiv. destruct (Z.eqb_spec b 0); congruence. Qed.
Lemma umod_ok : forall a b, b <> 0 -> umod a b = Ok (a mod b).
Proof. intros. unfold umod. destruct (Z.eqb_spec b 0); congruence. Qed.
