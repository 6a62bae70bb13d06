(** * Lemmas about the triangular matrix. *)
From Coq Require Import Lia.
From Verif Require Import Base BaseFacts Utm.

Ltac Zify.zify_post_hook ::= idtac.

(** Number of cells. *)
Definition tri (n : Z) : Z := n * (n + 1) / 2.

Lemma tri_eq : forall n, 2 * tri n = n * (n + 1).
Proof.
  intro n. unfold tri.
  assert (E : (n * (n + 1)) mod 2 = 0).
  { rewrite Z.mul_mod by lia. rewrite (Z.add_mod n 1) by lia.
    assert (n mod 2 = 0 \/ n mod 2 = 1) as [-> | ->] by (pose proof (Z.mod_pos_bound n 2); lia); reflexivity. }
  pose proof (Z.div_mod (n * (n + 1)) 2 ltac:(lia)). lia.
Qed.

Lemma wrap_small : forall x, 0 <= x < two32 -> wrap x = x.
Proof. intros; unfold wrap; apply Z.mod_small; auto. Qed.

Lemma u_count_ok : forall n, 0 <= n <= 65535 -> u_count n = tri n.
Proof.
  intros n H. unfold u_count. rewrite (wrap_small (n + 1)) by (unfold two32; lia).
  rewrite wrap_small by (unfold two32; nia). unfold tri. f_equal. lia.
Qed.

(** Unwrapped index: the cells are stored diagonal by diagonal. *)
Definition tidx (n i j : Z) : Z := (j - i) * n - (j - i) * (j - i - 1) / 2 + i.

Lemma half_eq : forall d, 2 * (d * (d - 1) / 2) = d * (d - 1).
Proof. intro d. pose proof (tri_eq (d - 1)). unfold tri in H. replace ((d - 1) * (d - 1 + 1)) with (d * (d - 1)) in H by lia. exact H. Qed.

Lemma u_index_ok : forall n i j, 0 <= n <= 65535 -> 0 <= i <= j -> j < n -> u_index n i j = tidx n i j.
Proof.
  intros n i j Hn Hi Hj. unfold u_index, tidx.
  assert (T : two32 = 4294967296) by reflexivity.
  rewrite (wrap_small j), (wrap_small i), (wrap_small n) by lia.
  rewrite (wrap_small (j - i)) by lia.
  set (d := j - i) in *. assert (Hd : 0 <= d < n) by (unfold d; lia).
  rewrite (wrap_small (d * n)) by nia.
  pose proof (half_eq d) as E.
  destruct (Z.eq_dec d 0) as [D0|D0].
  - rewrite D0. cbn [Z.mul Z.sub]. change (wrap 0) with 0. change (0 / 2) with 0.
    rewrite (wrap_small (0 - 0)) by lia. rewrite wrap_small by lia. lia.
  - rewrite (wrap_small (d - 1)) by lia.
    rewrite (wrap_small (d * (d - 1))) by nia.
    rewrite (wrap_small (d * n - _)) by nia.
    rewrite wrap_small by (unfold d in *; nia). reflexivity.
Qed.

Lemma tidx_bound : forall n i j, 0 <= i <= j -> j < n -> 0 <= tidx n i j < tri n.
Proof.
  intros n i j Hi Hj. pose proof (tri_eq n). unfold tidx. set (d := j - i) in *. pose proof (half_eq d).
  assert (0 <= d < n) by (unfold d; lia). assert (i < n - d) by (unfold d; lia).
  split; nia.
Qed.

Lemma tidx_diag : forall n d, 0 <= d < n ->
  2 * (tidx n 0 d) = 2 * d * n - d * (d - 1).
Proof. intros n d H. unfold tidx. pose proof (half_eq d). replace (d - 0) with d by lia. lia. Qed.

Lemma tidx_inj : forall n i j i' j', 0 <= i <= j -> j < n -> 0 <= i' <= j' -> j' < n ->
  tidx n i j = tidx n i' j' -> i = i' /\ j = j'.
Proof.
  intros n i j i' j' Hi Hj Hi' Hj' E. unfold tidx in E.
  pose proof (half_eq (j - i)) as E1. pose proof (half_eq (j' - i')) as E2.
  set (d := j - i) in *. set (d' := j' - i') in *.
  assert (0 <= d < n /\ i < n - d) by (unfold d; lia). assert (0 <= d' < n /\ i' < n - d') by (unfold d'; lia).
  assert (d = d').
  { destruct (Z.lt_trichotomy d d') as [L|[L|L]]; auto; exfalso.
    - assert (2 * (d * n) - d * (d - 1) + 2 * i = 2 * (d' * n) - d' * (d' - 1) + 2 * i') by lia. nia.
    - assert (2 * (d * n) - d * (d - 1) + 2 * i = 2 * (d' * n) - d' * (d' - 1) + 2 * i') by lia. nia. }
  assert (i = i') by nia. unfold d, d' in *; lia.
Qed.

Lemma tidx_last : forall n, 0 < n -> tidx n 0 (n - 1) = tri n - 1.
Proof. intros n H. pose proof (tidx_diag n (n - 1) ltac:(lia)). pose proof (tri_eq n). nia. Qed.

(** Every position is the position of exactly one cell. *)
Lemma tidx_surj : forall n k, 0 <= n -> 0 <= k < tri n -> exists i j, 0 <= i <= j /\ j < n /\ tidx n i j = k.
Proof.
  intros n k Hn H. pose proof (tri_eq n) as T.
  (* largest d with start(d) <= k *)
  assert (G : forall m, 0 <= m <= n -> k < tidx n 0 m -> exists i j, 0 <= i <= j /\ j < n /\ tidx n i j = k).
  { intros m Hm. destruct Hm as [Hm0 Hmn]. revert Hmn. pattern m. apply natlike_ind; auto; clear m Hm0.
    - intros _ K. unfold tidx in K. simpl in K. lia.
    - intros d Hd IH Hmn K. unfold Z.succ in *.
      destruct (Z_lt_ge_dec k (tidx n 0 d)) as [L|L]; [apply IH; auto; lia|].
      exists (k - tidx n 0 d), (d + (k - tidx n 0 d)).
      unfold tidx in *. rewrite !Z.sub_0_r, !Z.add_0_r in *.
      pose proof (half_eq d). pose proof (half_eq (d + 1)).
      replace (d + (k - (d * n - d * (d - 1) / 2)) - (k - (d * n - d * (d - 1) / 2))) with d by lia.
      repeat split; lia. }
  apply (G n); [lia|]. unfold tidx. rewrite !Z.sub_0_r, Z.add_0_r. pose proof (half_eq n). nia.
Qed.

(** ** Representation of a matrix by a function of (i,j). *)
Definition fupd2 {X : Type} (f : Z -> Z -> X) (i j : Z) (x : X) : Z -> Z -> X :=
  fun a b => if (a =? i) && (b =? j) then x else f a b.

Lemma fupd2_same : forall X (f : Z -> Z -> X) i j x, fupd2 f i j x i j = x.
Proof. intros; unfold fupd2; rewrite !Z.eqb_refl; reflexivity. Qed.
Lemma fupd2_other : forall X (f : Z -> Z -> X) i j x a b, ~ (a = i /\ b = j) -> fupd2 f i j x a b = f a b.
Proof. intros; unfold fupd2; destruct (Z.eqb_spec a i), (Z.eqb_spec b j); simpl; auto; tauto. Qed.

Definition urepr {X : Type} (m : utm X) (n : Z) (f : Z -> Z -> X) : Prop :=
  0 <= n <= 65535 /\ u_size m = n /\ u_elements m = tri n /\ vlen (u_data m) = tri n /\
  forall i j, 0 <= i <= j -> j < n -> u_get m i j = Ok (f i j).

Lemma tri_nonneg : forall n, 0 <= n -> 0 <= tri n.
Proof. intros n H. pose proof (tri_eq n). nia. Qed.

Lemma urepr_new : forall X n (x : X), 0 <= n <= 65535 -> urepr (u_new n x) n (fun _ _ => x).
Proof.
  intros X n x H. unfold urepr, u_new; simpl. rewrite u_count_ok by lia.
  pose proof (tri_nonneg n ltac:(lia)).
  repeat split; try lia. { apply vlen_vrep; lia. }
  intros i j Hi Hj. unfold u_get; simpl. rewrite u_index_ok by lia. apply vget_vrep. apply tidx_bound; lia.
Qed.

Lemma urepr_get : forall X (m : utm X) n f i j, urepr m n f -> 0 <= i <= j -> j < n -> u_get m i j = Ok (f i j).
Proof. intros X m n f i j (_ & _ & _ & _ & H); auto. Qed.

Lemma urepr_set : forall X (m : utm X) n f i j x, urepr m n f -> 0 <= i <= j -> j < n ->
  exists m', u_set m i j x = Ok m' /\ urepr m' n (fupd2 f i j x).
Proof.
  intros X m n f i j x (Hn & Hs & He & Hl & H) Hi Hj.
  pose proof (tidx_bound n i j Hi Hj) as B.
  unfold u_set. rewrite Hs, u_index_ok by lia. rewrite vset_ok by lia. simpl.
  eexists; split; [reflexivity|]. unfold urepr; simpl. repeat split; try lia.
  { unfold vlen in *; rewrite upd_length; auto. }
  intros a b Ha Hb. unfold u_get; simpl. rewrite ?Hs, u_index_ok by lia.
  rewrite vget_upd by lia. unfold fupd2.
  destruct (Z.eqb_spec (tidx n a b) (tidx n i j)) as [E|N].
  - apply tidx_inj in E; try lia. destruct E as [-> ->]. rewrite !Z.eqb_refl. reflexivity.
  - specialize (H a b Ha Hb). unfold u_get in H. rewrite Hs, u_index_ok in H by lia.
    destruct (Z.eqb_spec a i), (Z.eqb_spec b j); simpl; auto. subst; congruence.
Qed.

Lemma urepr_ext : forall X (m : utm X) n f g, urepr m n f ->
  (forall i j, 0 <= i <= j -> j < n -> f i j = g i j) -> urepr m n g.
Proof.
  intros X m n f g (Hn & Hs & He & Hl & H) E. unfold urepr; repeat split; auto; try lia.
  intros i j Hi Hj. rewrite H, E; auto.
Qed.

(** Cell access by position. *)
Lemma urepr_at : forall X (m : utm X) n f i j, urepr m n f -> 0 <= i <= j -> j < n ->
  vget (u_data m) (tidx n i j) = Ok (f i j).
Proof.
  intros X m n f i j (Hn & Hs & He & Hl & H) Hi Hj. specialize (H i j Hi Hj).
  unfold u_get in H. rewrite Hs, u_index_ok in H by lia. exact H.
Qed.

Lemma tri_bound : forall n, 0 <= n <= 65535 -> tri n < two32.
Proof. intros n H. pose proof (tri_eq n). unfold two32. nia. Qed.

(** ** Vectors of matrices. *)
Definition mrepr {X : Type} (ms : list (utm X)) (H n : Z) (f : Z -> Z -> Z -> X) : Prop :=
  vlen ms = H /\ forall h, 0 <= h < H -> exists m, vget ms h = Ok m /\ urepr m n (f h).

Definition fupd3 {X : Type} (f : Z -> Z -> Z -> X) (h i j : Z) (x : X) : Z -> Z -> Z -> X :=
  fun c a b => if (c =? h) && ((a =? i) && (b =? j)) then x else f c a b.

Lemma fupd3_same : forall X (f : Z -> Z -> Z -> X) h i j x, fupd3 f h i j x h i j = x.
Proof. intros; unfold fupd3; rewrite !Z.eqb_refl; reflexivity. Qed.
Lemma fupd3_other : forall X (f : Z -> Z -> Z -> X) h i j x c a b, ~ (c = h /\ a = i /\ b = j) ->
  fupd3 f h i j x c a b = f c a b.
Proof.
  intros; unfold fupd3; destruct (Z.eqb_spec c h), (Z.eqb_spec a i), (Z.eqb_spec b j); simpl; auto; tauto.
Qed.

Lemma mrepr_get : forall X (ms : list (utm X)) H n f h i j, mrepr ms H n f ->
  0 <= h < H -> 0 <= i <= j -> j < n -> mm_get ms h i j = Ok (f h i j).
Proof.
  intros X ms H n f h i j [L R] Hh Hi Hj. destruct (R h Hh) as [m [E U]].
  unfold mm_get. rewrite E; simpl. eapply urepr_get; eauto.
Qed.

Lemma mrepr_set : forall X (ms : list (utm X)) H n f h i j x, mrepr ms H n f ->
  0 <= h < H -> 0 <= i <= j -> j < n ->
  exists ms', mm_set ms h i j x = Ok ms' /\ mrepr ms' H n (fupd3 f h i j x).
Proof.
  intros X ms H n f h i j x [L R] Hh Hi Hj. destruct (R h Hh) as [m [E U]].
  destruct (urepr_set _ _ _ _ i j x U Hi Hj) as [m' [E' U']].
  unfold mm_set. rewrite E; simpl. rewrite E'; simpl. rewrite vset_ok by lia.
  eexists; split; [reflexivity|]. split. { unfold vlen in *; rewrite upd_length; auto. }
  intros c Hc. rewrite vget_upd by lia. destruct (Z.eqb_spec c h) as [->|N].
  - exists m'; split; auto. eapply urepr_ext; eauto. intros a b _ _. unfold fupd2, fupd3.
    rewrite Z.eqb_refl. reflexivity.
  - destruct (R c Hc) as [mc [Ec Uc]]. exists mc; split; auto. eapply urepr_ext; eauto.
    intros a b _ _. rewrite fupd3_other; auto. tauto.
Qed.

Lemma mrepr_new : forall X H n (x : X), 0 <= H -> 0 <= n <= 65535 ->
  mrepr (vrep H (u_new n x)) H n (fun _ _ _ => x).
Proof.
  intros X H n x HH Hn. split; [apply vlen_vrep; auto|]. intros h Hh.
  exists (u_new n x). split; [apply vget_vrep; auto|]. apply urepr_new; auto.
Qed.

Lemma mrepr_ext : forall X (ms : list (utm X)) H n f g, mrepr ms H n f ->
  (forall h i j, 0 <= h < H -> 0 <= i <= j -> j < n -> f h i j = g h i j) -> mrepr ms H n g.
Proof.
  intros X ms H n f g [L R] E. split; auto. intros h Hh. destruct (R h Hh) as [m [Em U]].
  exists m; split; auto. eapply urepr_ext; eauto.
Qed.
