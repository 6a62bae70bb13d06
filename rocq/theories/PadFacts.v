(** * Single-child nodes above the leaves make any hierarchy even. *)
From Coq Require Import Reals Lia List.
From Verif Require Import Base BaseFacts SpecTree SpecParts TreeFacts SpecPad.

Lemma pad_id : forall L ps, padding L ps ps (fun y => y).
Proof. intros. constructor; intros; eauto; reflexivity. Qed.

Lemma pad_comp : forall L ps ps1 ps2 g1 g2, 0 <= L <= vlen ps2 -> padding L ps ps1 g1 -> padding L ps1 ps2 g2 -> padding L ps ps2 (fun y => g1 (g2 y)).
Proof.
  intros L ps ps1 ps2 g1 g2 HL P Q. constructor.
  - intros y Ny. apply (pd_node _ _ _ _ P), (pd_node _ _ _ _ Q); auto.
  - intros x Hx. rewrite (pd_leaf _ _ _ _ Q x Hx). apply (pd_leaf _ _ _ _ P x Hx).
  - intros h Nh. destruct (pd_onto _ _ _ _ P h Nh) as (y & Ny & <-). destruct (pd_onto _ _ _ _ Q y Ny) as (z & Nz & <-). eauto.
  - intros x y Hx Ny. rewrite (pd_below _ _ _ _ Q x y Hx Ny). apply (pd_below _ _ _ _ P); auto. apply (pd_node _ _ _ _ Q); auto.
  - intros y z Ny Nz B. apply (pd_mono _ _ _ _ P); try (apply (pd_node _ _ _ _ Q); assumption). apply (pd_mono _ _ _ _ Q); auto.
Qed.

(** A new node above leaf [x]. *)
Definition above (ps : list Z) (x : Z) : list Z := upd (Z.to_nat x) (vlen ps) ps ++ [parent ps x].

Section Above.
Variables (L : Z) (ps : list Z) (r x : Z).
Hypothesis V : valid_tree L ps r.
Hypothesis Hx : leaf L x.
Hypothesis Hr : x <> r.
Let N := vlen ps.
Let ps' := above ps x.
Let g := fun y => if y =? N then x else y.

Lemma a_x : 0 <= x < L /\ L <= vlen ps.
Proof. pose proof (vt_L _ _ _ V). unfold leaf in Hx. lia. Qed.
Lemma a_len : vlen ps' = N + 1.
Proof. unfold ps', above. rewrite vlen_app. unfold vlen at 1. rewrite upd_length. reflexivity. Qed.
Lemma a_px : L <= parent ps x < N.
Proof. pose proof a_x. apply (vt_parent _ _ _ V); auto. unfold node. lia. Qed.
Lemma a_parent : forall y, parent ps' y = if y =? x then N else if y =? N then parent ps x else parent ps y.
Proof.
  intros y. pose proof a_x as A. assert (E : vlen (upd (Z.to_nat x) (vlen ps) ps) = N) by (unfold vlen; rewrite upd_length; reflexivity).
  unfold ps', above, parent at 1. destruct (Z.ltb_spec y N) as [C|C].
  - rewrite vget_app_l by (rewrite E; exact C). rewrite vget_upd by lia. destruct (Z.eqb_spec y x); [reflexivity|]. destruct (Z.eqb_spec y N); [lia|reflexivity].
  - rewrite vget_app_r by (rewrite E; exact C). rewrite E. destruct (Z.eqb_spec y x); [unfold N in C; lia|]. destruct (Z.eqb_spec y N) as [->|D].
    + rewrite Z.sub_diag. reflexivity.
    + assert (O : forall X (v : list X) i, vlen v <= i -> vget v i = UB).
      { intros X v i H. unfold vget, vlen in *. destruct (Z.ltb_spec i 0); [reflexivity|]. destruct (nth_error v (Z.to_nat i)) eqn:Q; [|reflexivity]. assert (nth_error v (Z.to_nat i) <> None) by congruence. apply nth_error_Some in H1. lia. }
      rewrite O by (unfold vlen; cbn [length]; lia). unfold parent. rewrite O by (fold N; lia). reflexivity.
Qed.
Lemma a_nochild : forall z, below ps z x -> node ps z -> z = x.
Proof.
  intros z B. remember x as w eqn:E in B. induction B as [h|z h Hp B IH]; intros Nz; [exact E|].
  pose proof a_x. subst h. assert (Nr : z <> r) by (intros ->; apply Hp; apply (vt_rootp _ _ _ V)). pose proof (vt_parent _ _ _ V z Nz Nr) as K.
  assert (node ps (parent ps z)) by (unfold node; lia). specialize (IH eq_refl H0). lia.
Qed.
Lemma a_pnode : forall z, node ps z -> parent ps z <> -1 -> node ps (parent ps z).
Proof. intros z Nz Hp. pose proof a_x. assert (Nr : z <> r) by (intros ->; apply Hp; apply (vt_rootp _ _ _ V)). pose proof (vt_parent _ _ _ V z Nz Nr). unfold node. lia. Qed.

Lemma a_fwd : forall a b, below ps a b -> node ps a -> below ps' a b.
Proof.
  intros a b B. induction B as [h|a h Hp B IH]; intros Na; [constructor|]. pose proof (IH (a_pnode a Na Hp)) as B'. pose proof a_x. unfold node in Na. fold N in Na.
  destruct (Z.eq_dec a x) as [->|D].
  - apply below_up; rewrite a_parent, Z.eqb_refl; [unfold N; lia|]. apply below_up; rewrite a_parent; (destruct (Z.eqb_spec N x); [unfold N in *; lia|]); rewrite Z.eqb_refl; auto.
  - apply below_up; rewrite a_parent; (destruct (Z.eqb_spec a x); [congruence|]); (destruct (Z.eqb_spec a N); [lia|]); auto.
Qed.
Lemma a_bwd : forall a b, below ps' a b -> node ps' a -> below ps (g a) (g b).
Proof.
  intros a b B. induction B as [h|a h Hp B IH]; intros Na; [constructor|]. unfold node in Na. rewrite a_len in Na. pose proof a_x as A. pose proof a_px as Px. rewrite a_parent in *.
  destruct (Z.eqb_spec a x) as [->|D].
  - assert (K : node ps' N) by (unfold node; rewrite a_len; unfold N in *; lia). specialize (IH K). unfold g in IH at 1. rewrite Z.eqb_refl in IH. unfold g at 1. destruct (Z.eqb_spec x N); exact IH.
  - destruct (Z.eqb_spec a N) as [->|D2].
    + assert (K : node ps' (parent ps x)) by (unfold node; rewrite a_len; unfold N in *; lia). specialize (IH K). unfold g at 1. rewrite Z.eqb_refl. apply below_up; [exact Hp|]. unfold g in IH at 1. destruct (Z.eqb_spec (parent ps x) N); [lia|exact IH].
    + assert (Na' : node ps a) by (unfold node; fold N; lia). pose proof (a_pnode a Na' Hp) as K. unfold node in K. fold N in K.
      specialize (IH ltac:(unfold node; rewrite a_len; lia)). unfold g at 1. destruct (Z.eqb_spec a N); [lia|]. apply below_up; [exact Hp|]. unfold g in IH at 1. destruct (Z.eqb_spec (parent ps a) N); [lia|exact IH].
Qed.
Lemma a_node : forall y, node ps' y <-> node ps y \/ y = N.
Proof. intros y. unfold node. rewrite a_len. fold N. pose proof a_x. unfold N. lia. Qed.
Lemma a_g : forall y, node ps y -> g y = y.
Proof. intros y Ny. unfold g. unfold node in Ny. fold N in Ny. destruct (Z.eqb_spec y N); lia. Qed.
Lemma a_leafnode : forall z, leaf L z -> node ps z.
Proof. intros z Hz. pose proof a_x. unfold leaf in Hz. unfold node. lia. Qed.

Lemma a_padding : padding L ps ps' g.
Proof.
  pose proof (a_leafnode x Hx) as Nx. constructor.
  - intros y Ny. apply a_node in Ny. destruct Ny as [Ny| ->]; [rewrite a_g; auto|unfold g; rewrite Z.eqb_refl; exact Nx].
  - intros z Hz. apply a_g, a_leafnode, Hz.
  - intros h Nh. exists h. split; [apply a_node; auto|apply a_g; auto].
  - intros z y Hz Ny. pose proof (a_leafnode z Hz) as Nz. split; intros B.
    + apply a_bwd in B; [|apply a_node; auto]. rewrite (a_g z Nz) in B. exact B.
    + apply a_node in Ny. destruct Ny as [Ny| ->]; [rewrite (a_g y Ny) in B; apply a_fwd; auto|].
      unfold g in B. rewrite Z.eqb_refl in B. rewrite (a_nochild z B Nz). apply below_up; rewrite a_parent, Z.eqb_refl; [pose proof a_x; unfold N; lia|constructor].
  - intros y z Ny Nz B. apply a_bwd; auto.
Qed.

Lemma a_valid : valid_tree L ps' r.
Proof.
  pose proof a_x as A. pose proof a_px as Px. pose proof (vt_root _ _ _ V) as Nr. assert (Rn : r <> N) by (unfold node in Nr; fold N in Nr; lia). constructor.
  - rewrite a_len. unfold N. lia.
  - apply a_node. auto.
  - rewrite a_parent. destruct (Z.eqb_spec r x); [congruence|]. destruct (Z.eqb_spec r N); [congruence|]. apply (vt_rootp _ _ _ V).
  - intros h Nh D. rewrite a_len, a_parent. destruct (Z.eqb_spec h x); [unfold N; lia|]. destruct (Z.eqb_spec h N); [lia|]. apply a_node in Nh. destruct Nh as [Nh|]; [|contradiction]. pose proof (vt_parent _ _ _ V h Nh D). fold N in H. lia.
  - intros h Hh. rewrite a_len in Hh. destruct (Z.eq_dec h N) as [->|D].
    + exists x. split; [apply a_node; left; apply a_leafnode; exact Hx|]. rewrite a_parent, Z.eqb_refl. reflexivity.
    + destruct (vt_child _ _ _ V h ltac:(fold N; lia)) as (c & Nc & Ec). destruct (Z.eq_dec c x) as [->|D2].
      * exists N. split; [apply a_node; auto|]. rewrite a_parent, Z.eqb_refl. destruct (Z.eqb_spec N x); [unfold N in *; lia|exact Ec].
      * exists c. split; [apply a_node; auto|]. rewrite a_parent. destruct (Z.eqb_spec c x); [contradiction|]. destruct (Z.eqb_spec c N); [unfold node in Nc; fold N in Nc; lia|exact Ec].
  - intros h Nh. apply a_node in Nh. destruct Nh as [Nh| ->]; [apply a_fwd; auto; apply (vt_reach _ _ _ V); auto|].
    assert (K : node ps (parent ps x)) by (unfold node; fold N; lia).
    apply below_up; rewrite a_parent; (destruct (Z.eqb_spec N x); [unfold N in *; lia|]); rewrite Z.eqb_refl; [lia|apply a_fwd; auto; apply (vt_reach _ _ _ V); auto].
Qed.

(** Depths: the leaf is one deeper. *)
Variable depth : Z -> Z.
Hypothesis D0 : depth r = 0.
Hypothesis D1 : forall h, node ps h -> h <> r -> depth h = depth (parent ps h) + 1.
Hypothesis D2 : forall h, node ps h -> 0 <= depth h.
Let depth' := fun h => if h =? x then depth x + 1 else if h =? N then depth x else depth h.
Lemma a_depth : depth' r = 0 /\ (forall h, node ps' h -> h <> r -> depth' h = depth' (parent ps' h) + 1) /\ (forall h, node ps' h -> 0 <= depth' h).
Proof.
  pose proof a_x as A. pose proof a_px as Px. pose proof (vt_root _ _ _ V) as Nr. assert (Rn : r <> N) by (unfold node in Nr; fold N in Nr; lia). pose proof (a_leafnode x Hx) as Nx.
  unfold depth'. split; [destruct (Z.eqb_spec r x); [congruence|]; destruct (Z.eqb_spec r N); congruence|]. split.
  - intros h Nh D. rewrite a_parent. destruct (Z.eqb_spec h x) as [->|E].
    + destruct (Z.eqb_spec N x); [unfold N in *; lia|]. rewrite Z.eqb_refl. lia.
    + destruct (Z.eqb_spec h N) as [->|E2].
      * destruct (Z.eqb_spec (parent ps x) x); [lia|]. destruct (Z.eqb_spec (parent ps x) N); [lia|]. apply D1; auto.
      * apply a_node in Nh. destruct Nh as [Nh|]; [|contradiction]. pose proof (vt_parent _ _ _ V h Nh D) as Pb. fold N in Pb.
        destruct (Z.eqb_spec (parent ps h) x); [lia|]. destruct (Z.eqb_spec (parent ps h) N); [lia|]. apply D1; auto.
  - intros h Nh. destruct (Z.eqb_spec h x); [pose proof (D2 x Nx); lia|]. destruct (Z.eqb_spec h N); [auto|]. apply a_node in Nh. destruct Nh; [auto|contradiction].
Qed.
End Above.

Lemma iter_swap : forall n (f : Z -> Z) x, Nat.iter (S n) f x = Nat.iter n f (f x).
Proof. induction n as [|n IH]; intros f x; [reflexivity|]. change (f (Nat.iter (S n) f x) = f (Nat.iter n f (f x))). rewrite IH. reflexivity. Qed.

Lemma depth_iter : forall ps r depth, (forall h, node ps h -> h <> r -> node ps (parent ps h)) -> node ps r ->
  (forall h, node ps h -> h <> r -> depth h = depth (parent ps h) + 1) -> (forall h, node ps h -> 0 <= depth h) ->
  forall n h, node ps h -> depth h = Z.of_nat n -> depth r = 0 -> Nat.iter n (parent ps) h = r.
Proof.
  intros ps r depth Np Nr D1 D2 n. induction n as [|n IH]; intros h Nh E D0.
  - destruct (Z.eq_dec h r) as [->|D]; [reflexivity|]. pose proof (D1 h Nh D). pose proof (D2 _ (Np h Nh D)). lia.
  - rewrite iter_swap. assert (D : h <> r) by (intros ->; lia). apply IH; auto. pose proof (D1 h Nh D). lia.
Qed.

(** Any hierarchy can be made even. *)
Lemma pad_exists : forall L ps r, valid_tree L ps r -> exists ps' g, valid_tree L ps' r /\ uniform_depth L ps' r /\ padding L ps ps' g /\ vlen ps <= vlen ps'.
Proof.
  intros L ps r V. destruct (Z_lt_ge_dec r L) as [Rl|Rl].
  { exists ps, (fun y => y). split; [exact V|]. split; [|split; [apply pad_id|lia]]. exists O. intros h Hh. cbn. destruct (Z.eq_dec h r) as [|D]; [auto|exfalso].
    pose proof (vt_L _ _ _ V) as VL. assert (Nh : node ps h) by (unfold leaf in Hh; unfold node; lia).
    pose proof (vt_reach _ _ _ V h Nh) as B. clear Hh. revert D Nh. remember r as w eqn:E in B. induction B as [z|z w Hp B IHB]; intros D Nz; [congruence|].
    pose proof (vt_parent _ _ _ V z Nz D) as Pb. subst w. apply (IHB eq_refl); [lia|unfold node; lia]. }
  destruct (valid_depth _ _ _ V) as (depth & D0 & D1 & D2 & _).
  assert (M : exists M, forall x, leaf L x -> depth x <= M).
  { pose proof (vt_L _ _ _ V). exists (fold_right Z.max 0 (map depth (zrange 0 L))). intros x Hx. assert (I : In x (zrange 0 L)) by (apply In_zrange; exact Hx).
    induction (zrange 0 L) as [|z l IH]; [destruct I|]. cbn. destruct I as [->|I]; [lia|specialize (IH I); lia]. }
  destruct M as [M HM].
  remember (Z.to_nat (fold_right Z.add 0 (map (fun x => M - depth x) (zrange 0 L)))) as k eqn:Ek. revert ps depth V D0 D1 D2 HM Ek.
  induction k as [|k IH]; intros ps depth V D0 D1 D2 HM Ek; pose proof (vt_L _ _ _ V) as VL.
  - exists ps, (fun y => y). split; [exact V|]. split; [|split; [apply pad_id|lia]]. exists (Z.to_nat M). intros x Hx.
    assert (E : depth x = M).
    { assert (S : forall l, (forall z, In z l -> depth z <= M) -> 0 <= fold_right Z.add 0 (map (fun x => M - depth x) l) /\ (In x l -> M - depth x <= fold_right Z.add 0 (map (fun x => M - depth x) l))).
      { induction l as [|z l IHl]; intros H; cbn; [split; [lia|tauto]|]. destruct (IHl ltac:(intros; apply H; cbn; auto)) as [K1 K2]. pose proof (H z ltac:(cbn; auto)). split; [lia|]. intros [->|I]; [lia|specialize (K2 I); lia]. }
      destruct (S (zrange 0 L)) as [K1 K2]; [intros z Iz; apply HM, In_zrange, Iz|]. specialize (K2 ltac:(apply In_zrange; exact Hx)). pose proof (HM x Hx). lia. }
    assert (Nx : node ps x) by (unfold leaf in Hx; unfold node; lia).
    apply (depth_iter ps r depth); auto; [|apply (vt_root _ _ _ V)|pose proof (D2 x Nx); lia]. intros h Nh D. pose proof (vt_parent _ _ _ V h Nh D). unfold node. lia.
  - assert (X : exists x, leaf L x /\ depth x < M).
    { assert (S : forall l, (forall z, In z l -> depth z <= M) -> 0 < fold_right Z.add 0 (map (fun x => M - depth x) l) -> exists z, In z l /\ depth z < M).
      { induction l as [|z l IHl]; intros H; cbn; [lia|]. intros K. destruct (Z.eq_dec (depth z) M); [|exists z; split; [auto|pose proof (H z ltac:(cbn; auto)); lia]].
        destruct IHl as (w & I & Hw); [intros; apply H; cbn; auto|lia|]. exists w. auto. }
      destruct (S (zrange 0 L)) as (x & I & Hx); [intros z Iz; apply HM, In_zrange, Iz|lia|]. exists x. split; [apply In_zrange, I|exact Hx]. }
    destruct X as (x & Hx & Dx). assert (Hxr : x <> r) by (unfold leaf in Hx; lia).
    pose proof (a_depth L ps r x V Hx Hxr depth D0 D1 D2) as (E0 & E1 & E2).
    destruct (IH (above ps x) (fun h => if h =? x then depth x + 1 else if h =? vlen ps then depth x else depth h)) as (ps' & g & V' & U' & P' & Le); auto.
    + apply a_valid; auto.
    + intros z Hz. pose proof (HM z Hz). destruct (Z.eqb_spec z x); [lia|]. destruct (Z.eqb_spec z (vlen ps)); [unfold leaf in Hz; lia|lia].
    + assert (S : forall l, NoDup l -> (forall z, In z l -> leaf L z) ->
        fold_right Z.add 0 (map (fun z => M - (if z =? x then depth x + 1 else if z =? vlen ps then depth x else depth z)) l) = fold_right Z.add 0 (map (fun z => M - depth z) l) - (if in_dec Z.eq_dec x l then 1 else 0)).
      { induction l as [|z l IHl]; intros ND H; [reflexivity|]. inversion ND as [|? ? N1 N2]; subst. cbn [map fold_right]. rewrite IHl by (auto; intros; apply H; cbn; auto). pose proof (H z ltac:(cbn; auto)) as Hz. unfold leaf in Hz.
        destruct (Z.eqb_spec z x) as [->|D].
        - destruct (in_dec Z.eq_dec x l); [contradiction|]. destruct (in_dec Z.eq_dec x (x :: l)) as [|Q]; [lia|exfalso; apply Q; left; reflexivity].
        - destruct (Z.eqb_spec z (vlen ps)); [lia|]. destruct (in_dec Z.eq_dec x l) as [I|I], (in_dec Z.eq_dec x (z :: l)) as [I'|I']; try lia; exfalso; [apply I'; right; exact I|destruct I' as [I'|I']; [congruence|contradiction]]. }
      rewrite S; [|apply NoDup_zrange|intros z Iz; apply In_zrange, Iz]. destruct (in_dec Z.eq_dec x (zrange 0 L)) as [I|I]; [lia|exfalso; apply I, In_zrange, Hx].
    + exists ps', (fun y => if g y =? vlen ps then x else g y). split; [exact V'|]. split; [exact U'|]. split; [|rewrite (a_len ps x) in Le; lia].
      apply (pad_comp L ps (above ps x) ps' (fun y => if y =? vlen ps then x else y) g); [pose proof (vt_L _ _ _ V'); lia|apply (a_padding L ps r x V Hx Hxr)|exact P'].
Qed.

(** The same hierarchy with nodes [a] and [b] exchanged (two internal nodes). *)
Definition swap (a b k : Z) : Z := if k =? a then b else if k =? b then a else k.
Lemma swap_inv : forall a b k, swap a b (swap a b k) = k.
Proof. intros a b k. unfold swap. destruct (Z.eqb_spec k a) as [->|]; [destruct (Z.eqb_spec b a); [auto|rewrite Z.eqb_refl; reflexivity]|]. destruct (Z.eqb_spec k b) as [->|]; [rewrite Z.eqb_refl; reflexivity|]. destruct (Z.eqb_spec k a); [contradiction|]. destruct (Z.eqb_spec k b); [contradiction|reflexivity]. Qed.
Lemma swap_range : forall a b k lo hi, lo <= a < hi -> lo <= b < hi -> lo <= k < hi -> lo <= swap a b k < hi.
Proof. intros a b k lo hi Ha Hb Hk. unfold swap. destruct (k =? a); [lia|]. destruct (k =? b); lia. Qed.

Section Swap.
Variables (L : Z) (ps : list Z) (r a b : Z).
Hypothesis V : valid_tree L ps r.
Hypothesis Ha : L <= a < vlen ps.
Hypothesis Hb : L <= b < vlen ps.
Let N := vlen ps.
Let s := swap a b.
Let up (p : Z) : Z := if p =? -1 then -1 else s p.
Definition swapped : list Z := map (fun k => up (parent ps (s k))) (zrange 0 N).

Lemma s_HL : 0 < L <= N. Proof. exact (vt_L _ _ _ V). Qed.
Lemma s_leaf : forall x, leaf L x -> s x = x.
Proof. intros x Hx. unfold leaf in Hx. unfold s, swap. destruct (Z.eqb_spec x a); [lia|]. destruct (Z.eqb_spec x b); lia. Qed.
Lemma s_len : vlen swapped = N.
Proof. pose proof s_HL. unfold swapped, vlen. rewrite map_length, zrange_length. lia. Qed.
Lemma s_node : forall h, node swapped (s h) <-> node ps h.
Proof.
  pose proof s_HL as B. assert (K : forall h, 0 <= h < N -> 0 <= s h < N) by (intros h Hh; apply swap_range; fold N in Ha, Hb; lia).
  intros h. unfold node. rewrite s_len. fold N. split; [|apply K]. intros H. specialize (K _ H). unfold s in K. rewrite swap_inv in K. exact K.
Qed.
Lemma s_node' : forall h, node swapped h <-> node ps (s h).
Proof. intros h. rewrite <- (s_node (s h)). unfold s. rewrite swap_inv. tauto. Qed.
Lemma s_parent : forall h, node ps h -> parent swapped (s h) = up (parent ps h).
Proof.
  intros h Nh. pose proof (proj2 (s_node h) Nh) as Ns. unfold node in Ns. rewrite s_len in Ns. unfold parent at 1, swapped.
  rewrite (vget_map _ _ (fun k => up (parent ps (s k))) _ (s h) (0 + s h)) by (apply vget_zrange; lia). rewrite Z.add_0_l. assert (Q : s (s h) = h) by (unfold s; apply swap_inv). rewrite Q. reflexivity.
Qed.
Lemma s_pnode : forall z, node ps z -> parent ps z <> -1 -> L <= parent ps z < N.
Proof. intros z Nz Hp. assert (Nr : z <> r) by (intros ->; apply Hp; apply (vt_rootp _ _ _ V)). apply (vt_parent _ _ _ V z Nz Nr). Qed.
Lemma s_up : forall x h, below ps x h -> node ps x -> below swapped (s x) (s h).
Proof.
  intros x h B. induction B as [h|x h Hp B IH]; intros Nx; [constructor|]. pose proof (s_pnode x Nx Hp) as K. pose proof s_HL.
  assert (U : up (parent ps x) = s (parent ps x)) by (unfold up; destruct (Z.eqb_spec (parent ps x) (-1)); [contradiction|reflexivity]).
  assert (R : L <= s (parent ps x) < N) by (apply swap_range; fold N in Ha, Hb; lia).
  apply below_up; rewrite (s_parent x Nx), U; [lia|apply IH; unfold node; fold N; lia].
Qed.
Lemma s_down : forall y k, below swapped y k -> node swapped y -> below ps (s y) (s k).
Proof.
  intros y k B. induction B as [k|y k Hp B IH]; intros Ny; [constructor|]. apply s_node' in Ny. assert (E : y = s (s y)) by (unfold s; rewrite swap_inv; reflexivity). rewrite E in Hp, B, IH. rewrite (s_parent (s y) Ny) in Hp, IH.
  unfold up in Hp, IH. destruct (Z.eqb_spec (parent ps (s y)) (-1)) as [|D]; [congruence|]. apply below_up; [exact D|]. pose proof (s_pnode _ Ny D) as K.
  specialize (IH ltac:(apply s_node; unfold node; fold N; pose proof s_HL; lia)). unfold s at 1 in IH. rewrite swap_inv in IH. exact IH.
Qed.

Lemma s_padding : padding L ps swapped s.
Proof.
  pose proof s_HL as B. constructor.
  - intros y Ny. apply s_node'. exact Ny.
  - exact s_leaf.
  - intros h Nh. exists (s h). split; [apply s_node; exact Nh|unfold s; apply swap_inv].
  - intros x y Hx Ny. assert (Nx : node ps x) by (unfold leaf in Hx; unfold node; fold N; lia). pose proof (s_leaf x Hx) as Ex. split; intros Q.
    + apply s_down in Q; [rewrite Ex in Q; exact Q|]. apply s_node'. rewrite Ex. exact Nx.
    + apply s_up in Q; [|exact Nx]. rewrite Ex in Q. unfold s in Q. rewrite swap_inv in Q. exact Q.
  - intros y z Ny Nz Q. apply s_down; auto.
Qed.
Lemma s_valid : valid_tree L swapped (s r).
Proof.
  pose proof s_HL as B. pose proof (vt_root _ _ _ V) as Nr. assert (SI : forall h, s (s h) = h) by (intros; unfold s; apply swap_inv). constructor.
  - rewrite s_len. lia.
  - apply s_node. exact Nr.
  - rewrite s_parent by exact Nr. rewrite (vt_rootp _ _ _ V). reflexivity.
  - intros h Nh D. apply s_node' in Nh. assert (D' : s h <> r) by (intros <-; apply D; symmetry; apply SI). pose proof (vt_parent _ _ _ V _ Nh D') as Pb. rewrite <- (SI h), (s_parent _ Nh), s_len.
    unfold up. destruct (Z.eqb_spec (parent ps (s h)) (-1)); [lia|]. apply swap_range; fold N in Ha, Hb, Pb; lia.
  - intros h Hh. rewrite s_len in Hh. assert (K : L <= s h < N) by (apply swap_range; fold N in Ha, Hb; lia). destruct (vt_child _ _ _ V (s h) K) as (c & Nc & Ec).
    exists (s c). split; [apply s_node; exact Nc|]. rewrite (s_parent c Nc), Ec. unfold up. destruct (Z.eqb_spec (s h) (-1)); [lia|apply SI].
  - intros h Nh. apply s_node' in Nh. rewrite <- (SI h). apply s_up; [apply (vt_reach _ _ _ V); exact Nh|exact Nh].
Qed.
Lemma s_uniform : uniform_depth L ps r -> uniform_depth L swapped (s r).
Proof.
  intros (D & U). exists D. pose proof s_HL as B.
  assert (I : forall n x, node ps x -> Nat.iter n (parent ps) x = r -> Nat.iter n (parent swapped) (s x) = s r).
  { induction n as [|n IH]; intros x Nx E; [cbn in *; congruence|]. rewrite iter_swap in *. rewrite (s_parent x Nx). unfold up. destruct (Z.eqb_spec (parent ps x) (-1)) as [Q|Q].
    - exfalso. rewrite Q in E. assert (Z : forall k, Nat.iter k (parent ps) (-1) = -1) by (induction k as [|k IHk]; [reflexivity|]; cbn [Nat.iter]; change (Nat.iter (S k) (parent ps) (-1)) with (parent ps (Nat.iter k (parent ps) (-1))); rewrite IHk; reflexivity).
      rewrite Z in E. pose proof (vt_root _ _ _ V) as Nr. unfold node in Nr. lia.
    - apply IH; [pose proof (s_pnode x Nx Q); unfold node; fold N; lia|exact E]. }
  intros x Hx. rewrite <- (s_leaf x Hx). apply I; [unfold leaf in Hx; unfold node; fold N; lia|apply U; exact Hx].
Qed.
End Swap.

Lemma root_leaf_one : forall L ps r, valid_tree L ps r -> r < L -> vlen ps = 1.
Proof.
  intros L ps r V Hr. pose proof (vt_L _ _ _ V) as VL. pose proof (vt_root _ _ _ V) as Nr.
  assert (One : forall h, node ps h -> h = r).
  { intros h Nh. destruct (Z.eq_dec h r) as [|D]; [auto|exfalso]. pose proof (vt_reach _ _ _ V h Nh) as B. revert D Nh. remember r as w eqn:E in B. induction B as [z|z w Hp B IHB]; intros D Nz; [congruence|].
    pose proof (vt_parent _ _ _ V z Nz D) as Pb. subst w. apply (IHB eq_refl); [lia|unfold node; lia]. }
  unfold node in *. destruct (Z.eq_dec (vlen ps) 1); [auto|]. pose proof (One 0 ltac:(lia)). pose proof (One 1 ltac:(lia)). lia.
Qed.

(** Any hierarchy can be made even with the root as the last node. *)
Lemma pad_exists_last : forall L ps r, valid_tree L ps r -> exists ps' g, valid_tree L ps' (vlen ps' - 1) /\ uniform_depth L ps' (vlen ps' - 1) /\ padding L ps ps' g /\ vlen ps <= vlen ps'.
Proof.
  intros L ps r V. destruct (pad_exists L ps r V) as (ps' & g & V' & U' & P' & Le). pose proof (vt_root _ _ _ V') as Nr. unfold node in Nr.
  destruct (Z_lt_ge_dec r L) as [Rl|Rl].
  - pose proof (root_leaf_one _ _ _ V' Rl) as E. exists ps', g. assert (r = vlen ps' - 1) by lia. subst r. auto.
  - assert (Ha : L <= r < vlen ps') by lia. assert (Hb : L <= vlen ps' - 1 < vlen ps') by lia.
    exists (swapped ps' r (vlen ps' - 1)), (fun y => g (swap r (vlen ps' - 1) y)). pose proof (s_len L ps' r r (vlen ps' - 1) V' Ha) as El. rewrite El.
    assert (Er : swap r (vlen ps' - 1) r = vlen ps' - 1) by (unfold swap; rewrite Z.eqb_refl; reflexivity).
    pose proof (s_valid L ps' r r (vlen ps' - 1) V' Ha Hb) as Vs. pose proof (s_uniform L ps' r r (vlen ps' - 1) V' Ha Hb U') as Us. rewrite Er in Vs, Us.
    split; [exact Vs|]. split; [exact Us|]. split; [|exact Le].
    apply (pad_comp L ps ps' _ g (swap r (vlen ps' - 1))); [rewrite El; pose proof (vt_L _ _ _ V'); lia|exact P'|apply (s_padding L ps' r r (vlen ps' - 1) V' Ha Hb)].
Qed.
