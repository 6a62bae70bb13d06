(** * Proofs for the triangular matrix properties. *)
From Coq Require Import Lia FinFun.
From Verif Require Import Base BaseFacts Utm UtmFacts.

(** A matrix as the constructors produce it: n(n+1)/2 cells. *)
Definition utm_shape {X} (u : utm X) (n : Z) : Prop :=
  u_size u = n /\ 2 * u_elements u = n * (n + 1) /\ vlen (u_data u) = u_elements u.

(** The value a history of writes leaves in cell (a,b). *)
Definition last_write {X} (ws : list (Z * Z * X)) (a b : Z) (x0 : X) : X :=
  fold_left (fun acc w => let '(i, j, x) := w in if (i =? a) && (j =? b) then x else acc) ws x0.

Lemma shape_repr : forall X (u : utm X) n, 0 <= n <= 65535 -> utm_shape u n -> (X -> exists f, urepr u n f).
Proof.
  intros X u n Hn (Hs & He & Hd) x0.
  exists (fun i j => match u_get u i j with Ok x => x | _ => x0 end).
  pose proof (tri_eq n). repeat split; try lia.
  intros i j Hi Hj. unfold u_get. rewrite Hs, u_index_ok by lia.
  pose proof (tidx_bound n i j Hi Hj).
  destruct (vget_ok _ (u_data u) (tidx n i j) ltac:(lia)) as [x E]. rewrite E. reflexivity.
Qed.

Lemma repr_shape : forall X (u : utm X) n f, urepr u n f -> utm_shape u n.
Proof. intros X u n f (Hn & Hs & He & Hd & _). unfold utm_shape. pose proof (tri_eq n). lia. Qed.

Lemma utm_new_prf : forall X n (x0 : X), 0 <= n <= 65535 ->
  utm_shape (u_new n x0) n /\ forall i j, 0 <= i <= j -> j < n -> u_get (u_new n x0) i j = Ok x0.
Proof.
  intros X n x0 H. pose proof (urepr_new X n x0 H) as R. split; [eapply repr_shape; eauto|].
  intros; eapply urepr_get in R; eauto.
Qed.

Lemma utm_write_prf : forall X (u : utm X) n i j x, 0 <= n <= 65535 -> utm_shape u n -> 0 <= i <= j -> j < n ->
  exists u', u_set u i j x = Ok u' /\ utm_shape u' n /\ u_elements u' = u_elements u /\
    u_get u' i j = Ok x /\
    forall a b, 0 <= a <= b -> b < n -> (a, b) <> (i, j) ->
      u_get u' a b = u_get u a b /\ exists y, u_get u a b = Ok y.
Proof.
  intros X u n i j x Hn S Hi Hj. destruct (shape_repr X u n Hn S x) as [f R].
  destruct (urepr_set _ _ _ _ i j x R Hi Hj) as [u' [E R']]. exists u'. split; auto.
  pose proof (repr_shape _ _ _ _ R') as S'. split; auto. split. { destruct S as (_ & S & _), S' as (_ & S' & _). lia. }
  split. { rewrite (urepr_get _ _ _ _ i j R'); auto. rewrite fupd2_same; auto. }
  intros a b Ha Hb D. rewrite (urepr_get _ _ _ _ a b R'), (urepr_get _ _ _ _ a b R); auto.
  rewrite fupd2_other; [eauto|]. intros [-> ->]; congruence.
Qed.

Lemma utm_last_prf : forall X (u : utm X) n, 0 < n <= 65535 -> utm_shape u n ->
  vget (u_data u) (u_elements u - 1) = u_get u 0 (n - 1).
Proof.
  intros X u n Hn (Hs & He & Hd). unfold u_get. rewrite Hs, u_index_ok by lia. rewrite tidx_last by lia.
  pose proof (tri_eq n). f_equal. lia.
Qed.

Lemma utm_history_prf : forall X n (x0 : X) ws, 0 <= n <= 65535 ->
  (forall i j x, In (i, j, x) ws -> 0 <= i <= j /\ j < n) ->
  exists u, mfold (fun w u => let '(i, j, x) := w in u_set u i j x) ws (u_new n x0) = Ok u /\
    utm_shape u n /\ forall a b, 0 <= a <= b -> b < n -> u_get u a b = Ok (last_write ws a b x0).
Proof.
  intros X n x0 ws Hn.
  assert (G : forall (ws : list (Z * Z * X)) (u : utm X) f, urepr u n f -> (forall i j x, In (i, j, x) ws -> 0 <= i <= j /\ j < n) ->
     exists u', mfold (fun w u => let '(i, j, x) := w in u_set u i j x) ws u = Ok u' /\
       urepr u' n (fun a b => last_write ws a b (f a b))).
  { clear ws. induction ws as [|[[i j] x] ws IH]; intros u f R H; simpl.
    - exists u; split; auto.
    - destruct (H i j x (or_introl eq_refl)) as [Hi Hj].
      destruct (urepr_set _ _ _ _ i j x R Hi Hj) as [u1 [E1 R1]]. rewrite E1; simpl.
      destruct (IH u1 _ R1) as [u2 [E2 R2]]; [intros; eapply H; right; eauto|]. exists u2; split; auto.
      eapply urepr_ext; [exact R2|]. intros a b Ha Hb. unfold last_write. simpl. f_equal. unfold fupd2.
      rewrite (Z.eqb_sym i a), (Z.eqb_sym j b). reflexivity. }
  intros H. destruct (G ws _ _ (urepr_new X n x0 Hn) H) as [u [E R]]. exists u. split; auto.
  split; [eapply repr_shape; eauto|]. intros; eapply urepr_get in R; eauto.
Qed.

(** ** Too large matrices. *)
Definition cells (n : Z) : list (Z * Z) := flat_map (fun i => map (fun j => (i, j)) (zrange i n)) (zrange 0 n).

Lemma In_cells : forall n i j, In (i, j) (cells n) <-> 0 <= i <= j /\ j < n.
Proof.
  intros n i j. unfold cells. rewrite in_flat_map. split.
  - intros [x [K1 K2]]. apply In_zrange in K1. apply in_map_iff in K2. destruct K2 as [y [E K2]].
    apply In_zrange in K2. inversion E; subst. lia.
  - intros H. exists i. split; [apply In_zrange; lia|]. apply in_map_iff. exists j. split; auto. apply In_zrange; lia.
Qed.

Lemma flat_NoDup : forall (l : list Z) n, NoDup l -> NoDup (flat_map (fun i => map (fun j => (i, j)) (zrange i n)) l).
Proof.
  induction l as [|i l IH]; intros n N; simpl; [constructor|]. inversion N; subst.
  assert (A : forall (u v : list (Z * Z)), NoDup u -> NoDup v -> (forall x, In x u -> In x v -> False) -> NoDup (u ++ v)).
  { clear. induction u as [|a u IH]; intros v Hu Hv D; simpl; auto. inversion Hu; subst. constructor.
    - rewrite in_app_iff. intros [K|K]; [auto|]. apply (D a); simpl; auto.
    - apply IH; auto. intros x K1 K2; apply (D x); simpl; auto. }
  apply A; auto.
  - apply FinFun.Injective_map_NoDup; [intros x y E; inversion E; auto|apply NoDup_zrange].
  - intros [a b] K1 K2. apply in_map_iff in K1. destruct K1 as [y [E _]]. inversion E; subst.
    apply in_flat_map in K2. destruct K2 as [x [K2 K3]]. apply in_map_iff in K3. destruct K3 as [z [E3 _]].
    inversion E3; subst. auto.
Qed.

Lemma cells_length : forall n, 0 <= n -> Z.of_nat (length (cells n)) = tri n.
Proof.
  intros n Hn. unfold cells.
  assert (G : forall k, 0 <= k <= n -> 2 * Z.of_nat (length (flat_map (fun i => map (fun j => (i, j)) (zrange i n)) (zrange k n)))
       = (n - k) * (n - k + 1)).
  { intros k Hk. remember (Z.to_nat (n - k)) as m eqn:Em. revert k Hk Em.
    induction m as [|m IH]; intros k Hk Em.
    - rewrite zrange_empty by lia. simpl. nia.
    - rewrite (zrange_cons k n) by lia. cbn [flat_map]. rewrite app_length, map_length, zrange_length.
      specialize (IH (k + 1) ltac:(lia) ltac:(lia)). nia. }
  specialize (G 0 ltac:(lia)). pose proof (tri_eq n). rewrite Z.sub_0_r in G. lia.
Qed.

Lemma u_count_small : forall n, 0 <= u_count n < 2147483648.
Proof.
  intro n. unfold u_count, wrap. pose proof (Z.mod_pos_bound ((n + 1) mod two32 * n) two32 ltac:(unfold two32; lia)).
  split; [apply Z.div_pos; lia|]. apply Z.div_lt_upper_bound; [lia|]. unfold two32 in *. lia.
Qed.

(** From 65536 on the cells cannot all be independent. *)
Lemma utm_large_prf : forall X (n : Z) (x0 x : X), 65536 <= n -> x <> x0 ->
  ~ (forall i j, 0 <= i <= j -> j < n ->
      exists u', u_set (u_new n x0) i j x = Ok u' /\ u_get u' i j = Ok x /\
        forall a b, 0 <= a <= b -> b < n -> (a, b) <> (i, j) -> u_get u' a b = Ok x0).
Proof.
  intros X n x0 x Hn D H.
  assert (LB : forall i j, 0 <= i <= j -> j < n -> 0 <= u_index n i j < u_count n).
  { intros i j Hi Hj. destruct (H i j Hi Hj) as [u' [E _]]. unfold u_set in E.
    apply bind_ok in E. destruct E as [d [E _]]. apply vset_inv in E. destruct E as [E _]. simpl in E.
    rewrite vlen_vrep in E by (apply u_count_small). exact E. }
  assert (INJ : forall i j a b, 0 <= i <= j -> j < n -> 0 <= a <= b -> b < n -> u_index n i j = u_index n a b -> (i, j) = (a, b)).
  { intros i j a b Hi Hj Ha Hb E. destruct (H i j Hi Hj) as [u' [E1 [E2 E3]]].
    destruct (Z.eq_dec i a) as [->|Da]; [destruct (Z.eq_dec j b) as [->|Db]; auto|].
    - exfalso. apply D. assert (K : u_get u' a b = Ok x0) by (apply E3; auto; congruence).
      unfold u_set in E1. apply bind_ok in E1. destruct E1 as [d [_ E1]]. inversion E1; subst u'.
      unfold u_get in *; simpl in *. rewrite E in E2. congruence.
    - exfalso. apply D. assert (K : u_get u' a b = Ok x0) by (apply E3; auto; congruence).
      unfold u_set in E1. apply bind_ok in E1. destruct E1 as [d [_ E1]]. inversion E1; subst u'.
      unfold u_get in *; simpl in *. rewrite E in E2. congruence. }
  assert (ND : NoDup (map (fun c => u_index n (fst c) (snd c)) (cells n))).
  { assert (G : forall l, NoDup l -> incl l (cells n) -> NoDup (map (fun c => u_index n (fst c) (snd c)) l)).
    { induction l as [|[i j] l IH]; intros N I; simpl; [constructor|]. inversion N; subst. constructor.
      - rewrite in_map_iff. intros [[a b] [E K]]. simpl in E.
        assert (Kc : In (a, b) (cells n)) by (apply I; right; auto). apply In_cells in Kc.
        assert (Ki : In (i, j) (cells n)) by (apply I; left; auto). apply In_cells in Ki.
        assert ((a, b) = (i, j)) by (apply INJ; tauto). congruence.
      - apply IH; auto. intros y K; apply I; right; auto. }
    apply G; [apply flat_NoDup, NoDup_zrange|intros y K; exact K]. }
  assert (IC : incl (map (fun c => u_index n (fst c) (snd c)) (cells n)) (zrange 0 (u_count n))).
  { intros y K. apply in_map_iff in K. destruct K as [[i j] [<- K]]. apply In_cells in K. apply In_zrange. apply LB; tauto. }
  pose proof (NoDup_incl_length ND IC) as LE. rewrite map_length, zrange_length in LE.
  pose proof (cells_length n ltac:(lia)). pose proof (u_count_small n). pose proof (tri_eq n). nia.
Qed.

Lemma utm_65536_prf : forall X (x0 : X), u_elements (u_new 65536 x0) = 32768 /\ u_get (u_new 65536 x0) 0 1 = UB.
Proof.
  intros X x0. assert (C : u_count 65536 = 32768) by reflexivity. split; [exact C|].
  unfold u_get. apply vget_out. simpl u_data. rewrite C, vlen_vrep by lia.
  change (u_size (u_new 65536 x0)) with 65536. change (u_index 65536 0 1) with 65536. lia.
Qed.
