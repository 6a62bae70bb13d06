(** * Lemmas about checked vectors and loops. *)
From Coq Require Import Lia FinFun.
From Verif Require Import Base.

Lemma bind_ok : forall X Y (e : res X) (k : X -> res Y) y,
  bind e k = Ok y -> exists x, e = Ok x /\ k x = Ok y.
Proof. intros X Y [x| |] k y H; simpl in H; try discriminate; eauto. Qed.

Lemma upd_length : forall X n (x : X) v, length (upd n x v) = length v.
Proof. induction n as [|n IH]; intros x [|y v]; simpl; auto. Qed.

Lemma upd_same : forall X n (x : X) v, (n < length v)%nat -> nth_error (upd n x v) n = Some x.
Proof. induction n as [|n IH]; intros x [|y v] H; simpl in *; try lia; auto. apply IH; lia. Qed.

Lemma upd_other : forall X n k (x : X) v, n <> k -> nth_error (upd n x v) k = nth_error v k.
Proof.
  induction n as [|n IH]; intros [|k] x [|y v] H; simpl; try lia; auto.
Qed.

Lemma vlen_nonneg : forall X (v : list X), 0 <= vlen v.
Proof. unfold vlen; intros; lia. Qed.

Lemma vget_ok : forall X (v : list X) i, 0 <= i < vlen v -> exists x, vget v i = Ok x.
Proof.
  unfold vget, vlen; intros X v i H. destruct (Z.ltb_spec i 0); [lia|].
  destruct (nth_error v (Z.to_nat i)) eqn:E; eauto.
  apply nth_error_None in E; lia.
Qed.

Lemma vget_inv : forall X (v : list X) i x, vget v i = Ok x -> 0 <= i < vlen v.
Proof.
  unfold vget, vlen; intros X v i x H. destruct (Z.ltb_spec i 0); [discriminate|].
  destruct (nth_error v (Z.to_nat i)) eqn:E; [|discriminate].
  assert (Z.to_nat i < length v)%nat by (apply nth_error_Some; congruence). lia.
Qed.

Lemma vget_out : forall X (v : list X) i, ~ (0 <= i < vlen v) -> vget v i = UB.
Proof.
  unfold vget, vlen; intros X v i H. destruct (Z.ltb_spec i 0); [reflexivity|].
  destruct (nth_error v (Z.to_nat i)) eqn:E; [|reflexivity].
  assert (Z.to_nat i < length v)%nat by (apply nth_error_Some; congruence). lia.
Qed.

Lemma vget_not_fuel : forall X (v : list X) i, vget v i <> OutOfFuel.
Proof.
  unfold vget; intros. destruct (i <? 0); [discriminate|]. destruct (nth_error v (Z.to_nat i)); discriminate.
Qed.

Lemma vget_nth : forall X (v : list X) i x, vget v i = Ok x <-> (0 <= i /\ nth_error v (Z.to_nat i) = Some x).
Proof.
  unfold vget; intros X v i x. destruct (Z.ltb_spec i 0).
  - split; [discriminate|lia].
  - destruct (nth_error v (Z.to_nat i)) eqn:E; split.
    + intro K; inversion K; auto.
    + intros [_ K]; congruence.
    + discriminate.
    + intros [_ K]; congruence.
Qed.

Lemma vget_In : forall X (v : list X) i x, vget v i = Ok x -> In x v.
Proof. intros X v i x H; apply vget_nth in H; destruct H as [_ H]; eapply nth_error_In; eauto. Qed.

Lemma In_vget : forall X (v : list X) x, In x v -> exists i, vget v i = Ok x /\ 0 <= i < vlen v.
Proof.
  intros X v x H. apply In_nth_error in H; destruct H as [n H]. exists (Z.of_nat n).
  assert (E : vget v (Z.of_nat n) = Ok x) by (apply vget_nth; rewrite Nat2Z.id; split; [lia|auto]).
  split; auto. eapply vget_inv; eauto.
Qed.

Lemma vset_ok : forall X (v : list X) i x, 0 <= i < vlen v -> vset v i x = Ok (upd (Z.to_nat i) x v).
Proof.
  unfold vset, vlen; intros X v i x H. destruct (Z.ltb_spec i 0); [lia|].
  destruct (Z.leb_spec (Z.of_nat (length v)) i); [lia|]. reflexivity.
Qed.

Lemma vset_inv : forall X (v : list X) i x v', vset v i x = Ok v' -> 0 <= i < vlen v /\ v' = upd (Z.to_nat i) x v.
Proof.
  unfold vset, vlen; intros X v i x v' H. destruct (Z.ltb_spec i 0); [discriminate|].
  destruct (Z.leb_spec (Z.of_nat (length v)) i); [discriminate|]. inversion H; split; [lia|reflexivity].
Qed.

Lemma vset_out : forall X (v : list X) i x, ~ (0 <= i < vlen v) -> vset v i x = UB.
Proof.
  unfold vset, vlen; intros X v i x H. destruct (Z.ltb_spec i 0); [reflexivity|].
  destruct (Z.leb_spec (Z.of_nat (length v)) i); [reflexivity|lia].
Qed.

Lemma vset_not_fuel : forall X (v : list X) i x, vset v i x <> OutOfFuel.
Proof. unfold vset; intros. destruct ((i <? 0) || (Z.of_nat (length v) <=? i)); discriminate. Qed.

Lemma vset_len : forall X (v : list X) i x v', vset v i x = Ok v' -> vlen v' = vlen v.
Proof. intros X v i x v' H; apply vset_inv in H; destruct H as [_ ->]. unfold vlen; rewrite upd_length; reflexivity. Qed.

Lemma vget_upd : forall X (v : list X) i x k, 0 <= i < vlen v ->
  vget (upd (Z.to_nat i) x v) k = if k =? i then Ok x else vget v k.
Proof.
  intros X v i x k H. unfold vget, vlen in *. destruct (Z.ltb_spec k 0).
  - destruct (Z.eqb_spec k i); [lia|reflexivity].
  - destruct (Z.eqb_spec k i) as [->|N].
    + rewrite upd_same by lia. reflexivity.
    + rewrite upd_other by lia. reflexivity.
Qed.

Lemma vget_vset : forall X (v : list X) i x v' k, vset v i x = Ok v' ->
  vget v' k = if k =? i then Ok x else vget v k.
Proof. intros X v i x v' k H; apply vset_inv in H; destruct H as [H ->]. apply vget_upd; auto. Qed.

Lemma vlen_vrep : forall X n (x : X), 0 <= n -> vlen (vrep n x) = n.
Proof. intros; unfold vlen, vrep; rewrite repeat_length; lia. Qed.

Lemma nth_error_repeat' : forall X (x : X) m n, (m < n)%nat -> nth_error (repeat x n) m = Some x.
Proof. intros X x; induction m as [|m IH]; intros [|n] H; simpl; try lia; auto. apply IH; lia. Qed.

Lemma vget_vrep : forall X n (x : X) i, 0 <= i < n -> vget (vrep n x) i = Ok x.
Proof.
  intros X n x i H. apply vget_nth. split; [lia|]. unfold vrep. apply nth_error_repeat'; lia.
Qed.

Lemma vlen_app : forall X (u v : list X), vlen (u ++ v) = vlen u + vlen v.
Proof. intros; unfold vlen; rewrite app_length; lia. Qed.

Lemma vget_app_l : forall X (u v : list X) i, i < vlen u -> vget (u ++ v) i = vget u i.
Proof.
  intros X u v i H. unfold vget, vlen in *. destruct (Z.ltb_spec i 0); auto.
  rewrite nth_error_app1 by lia. reflexivity.
Qed.

Lemma vget_app_r : forall X (u v : list X) i, vlen u <= i -> vget (u ++ v) i = vget v (i - vlen u).
Proof.
  intros X u v i H. unfold vget, vlen in *. destruct (Z.ltb_spec i 0); [lia|].
  destruct (Z.ltb_spec (i - Z.of_nat (length u)) 0); [lia|].
  rewrite nth_error_app2 by lia.
  replace (Z.to_nat i - length u)%nat with (Z.to_nat (i - Z.of_nat (length u))) by lia. reflexivity.
Qed.

Lemma vget_map : forall X Y (f : X -> Y) v i x, vget v i = Ok x -> vget (map f v) i = Ok (f x).
Proof.
  intros X Y f v i x H; apply vget_nth in H; destruct H as [H1 H2]. apply vget_nth; split; auto.
  rewrite nth_error_map, H2; reflexivity.
Qed.

Lemma vget_ext : forall X (u v : list X), vlen u = vlen v ->
  (forall i, 0 <= i < vlen u -> vget u i = vget v i) -> u = v.
Proof.
  intros X u; induction u as [|a u IH]; intros [|b v] L H; unfold vlen in *; simpl length in *; try lia; auto.
  f_equal.
  - assert (E := H 0 ltac:(lia)). cbv [vget] in E; simpl in E. congruence.
  - apply IH; [unfold vlen; lia|]. intros i Hi. unfold vlen in Hi.
    assert (E := H (i + 1) ltac:(lia)).
    unfold vget in *. destruct (Z.ltb_spec (i + 1) 0); [lia|]. destruct (Z.ltb_spec i 0); [lia|].
    replace (Z.to_nat (i + 1)) with (S (Z.to_nat i)) in E by lia. exact E.
Qed.

(** ** zrange *)
Lemma zrange_empty : forall a b, b <= a -> zrange a b = [].
Proof. intros; unfold zrange. replace (Z.to_nat (b - a)) with O by lia. reflexivity. Qed.

Lemma zrange_cons : forall a b, a < b -> zrange a b = a :: zrange (a + 1) b.
Proof.
  intros a b H; unfold zrange.
  replace (Z.to_nat (b - a)) with (S (Z.to_nat (b - (a + 1)))) by lia.
  cbn [seq map]. f_equal; [lia|]. rewrite <- seq_shift, map_map. apply map_ext; intros; lia.
Qed.

Lemma zrange_snoc : forall a b, a <= b -> zrange a (b + 1) = zrange a b ++ [b].
Proof.
  intros a b H; unfold zrange.
  replace (Z.to_nat (b + 1 - a)) with (S (Z.to_nat (b - a))) by lia.
  rewrite seq_S, map_app. cbn [map]. f_equal. f_equal. lia.
Qed.

Lemma zrange_app : forall a b c, a <= b <= c -> zrange a c = zrange a b ++ zrange b c.
Proof.
  intros a b c H. unfold zrange.
  replace (Z.to_nat (c - a)) with (Z.to_nat (b - a) + Z.to_nat (c - b))%nat by lia.
  rewrite seq_app, map_app. f_equal.
  replace (0 + Z.to_nat (b - a))%nat with (Z.to_nat (b - a)) by lia.
  assert (G : forall n k, map (fun x => a + Z.of_nat x) (seq (Z.to_nat (b - a) + k) n)
                   = map (fun x => b + Z.of_nat x) (seq k n)).
  { induction n as [|n IH]; intro k; simpl; [reflexivity|]. f_equal; [lia|].
    replace (S (Z.to_nat (b - a) + k)) with (Z.to_nat (b - a) + S k)%nat by lia. apply IH. }
  specialize (G (Z.to_nat (c - b)) O). rewrite Nat.add_0_r in G. exact G.
Qed.

Lemma In_zrange : forall a b x, In x (zrange a b) <-> a <= x < b.
Proof.
  intros a b x; unfold zrange; rewrite in_map_iff; split.
  - intros [k [<- Hk]]. apply in_seq in Hk. lia.
  - intros H. exists (Z.to_nat (x - a)). split; [lia|]. apply in_seq; lia.
Qed.

Lemma zrange_length : forall a b, length (zrange a b) = Z.to_nat (b - a).
Proof. intros; unfold zrange; rewrite map_length, seq_length; reflexivity. Qed.

Lemma vlen_zrange : forall a b, a <= b -> vlen (zrange a b) = b - a.
Proof. intros; unfold vlen; rewrite zrange_length; lia. Qed.

Lemma vget_zrange : forall a b i, 0 <= i < b - a -> vget (zrange a b) i = Ok (a + i).
Proof.
  intros a b i H. apply vget_nth; split; [lia|]. unfold zrange.
  rewrite nth_error_map.
  assert (E : nth_error (seq 0 (Z.to_nat (b - a))) (Z.to_nat i) = Some (Z.to_nat i)).
  { rewrite nth_error_nth' with (d := O); [|rewrite seq_length; lia]. rewrite seq_nth by lia. reflexivity. }
  rewrite E. simpl. f_equal. lia.
Qed.

Lemma NoDup_zrange : forall a b, NoDup (zrange a b).
Proof.
  intros; unfold zrange. apply FinFun.Injective_map_NoDup; [|apply seq_NoDup].
  intros x y H; lia.
Qed.

(** ** Loops *)
Lemma mfold_app : forall I S (f : I -> S -> res S) l1 l2 s,
  mfold f (l1 ++ l2) s = let* s' := mfold f l1 s in mfold f l2 s'.
Proof.
  intros I S f l1; induction l1 as [|x l1 IH]; intros l2 s; simpl; [reflexivity|].
  destruct (f x s); simpl; auto.
Qed.

Lemma mfold_inv : forall I S (f : I -> S -> res S) (Inv : list I -> S -> Prop) l s,
  (forall x r s, Inv (x :: r) s -> exists s', f x s = Ok s' /\ Inv r s') ->
  Inv l s -> exists s', mfold f l s = Ok s' /\ Inv [] s'.
Proof.
  intros I S f Inv l; induction l as [|x l IH]; intros s Hstep H; simpl.
  - eauto.
  - destruct (Hstep _ _ _ H) as [s' [E H']]. rewrite E; simpl. apply IH; auto.
Qed.

Lemma for_up_inv : forall S (body : Z -> S -> res S) (Inv : Z -> S -> Prop) a b s,
  a <= b ->
  (forall i s, a <= i < b -> Inv i s -> exists s', body i s = Ok s' /\ Inv (i + 1) s') ->
  Inv a s -> exists s', for_up a b body s = Ok s' /\ Inv b s'.
Proof.
  intros S body Inv a b s Hab Hstep H. unfold for_up.
  remember (Z.to_nat (b - a)) as n eqn:En. revert a s Hab Hstep H En.
  induction n as [|n IH]; intros a s Hab Hstep H En.
  - replace a with b in * by lia. rewrite zrange_empty by lia. simpl; eauto.
  - rewrite zrange_cons by lia. simpl.
    destruct (Hstep a s ltac:(lia) H) as [s' [E H']]. rewrite E; simpl.
    apply IH; auto; try lia. intros; apply Hstep; auto; lia.
Qed.

(** Variant for possibly empty ranges with b < a. *)
Lemma for_up_empty : forall S (body : Z -> S -> res S) a b s, b <= a -> for_up a b body s = Ok s.
Proof. intros; unfold for_up; rewrite zrange_empty by lia; reflexivity. Qed.

Lemma for_up_cons : forall S (body : Z -> S -> res S) a b s, a < b ->
  for_up a b body s = let* s' := body a s in for_up (a + 1) b body s'.
Proof. intros; unfold for_up; rewrite zrange_cons by lia; reflexivity. Qed.

Lemma for_up_snoc : forall S (body : Z -> S -> res S) a b s, a <= b ->
  for_up a (b + 1) body s = let* s' := for_up a b body s in body b s'.
Proof.
  intros; unfold for_up; rewrite zrange_snoc by lia; rewrite mfold_app.
  destruct (mfold body (zrange a b) s) as [x| |]; simpl; auto. destruct (body b x); reflexivity.
Qed.

Lemma for_down_inv : forall S (body : Z -> S -> res S) (Inv : Z -> S -> Prop) a b s,
  b <= a ->
  (forall i s, b <= i < a -> Inv (i + 1) s -> exists s', body i s = Ok s' /\ Inv i s') ->
  Inv a s -> exists s', for_down a b body s = Ok s' /\ Inv b s'.
Proof.
  intros S body Inv a b s Hab Hstep H. unfold for_down.
  remember (Z.to_nat (a - b)) as n eqn:En. revert a s Hab Hstep H En.
  induction n as [|n IH]; intros a s Hab Hstep H En.
  - replace a with b in * by lia. rewrite zrange_empty by lia. simpl; eauto.
  - replace a with ((a - 1) + 1) by lia. rewrite zrange_snoc by lia. rewrite rev_app_distr. simpl.
    destruct (Hstep (a - 1) s ltac:(lia)) as [s' [E H']].
    { replace (a - 1 + 1) with a by lia; auto. }
    rewrite E; simpl. apply IH; auto; try lia. intros; apply Hstep; auto; lia.
Qed.

Lemma for_down_empty : forall S (body : Z -> S -> res S) a b s, a <= b -> for_down a b body s = Ok s.
Proof. intros; unfold for_down; rewrite zrange_empty by lia; reflexivity. Qed.

Lemma for_down_step : forall S (body : Z -> S -> res S) a b s, b < a ->
  for_down a b body s = let* s' := body (a - 1) s in for_down (a - 1) b body s'.
Proof.
  intros; unfold for_down. replace a with ((a - 1) + 1) at 1 by lia.
  rewrite zrange_snoc by lia. rewrite rev_app_distr. reflexivity.
Qed.

Lemma mfold_ext : forall I S (f g : I -> S -> res S) l s,
  (forall x s, In x l -> f x s = g x s) -> mfold f l s = mfold g l s.
Proof.
  intros I S f g l; induction l as [|x l IH]; intros s H; simpl; auto.
  rewrite H by (left; auto). destruct (g x s); simpl; auto. apply IH; intros; apply H; right; auto.
Qed.

(** ** mmap *)
Lemma mmap_Forall2 : forall I Y (f : I -> res Y) l ys,
  mmap f l = Ok ys <-> Forall2 (fun x y => f x = Ok y) l ys.
Proof.
  intros I Y f l; induction l as [|x l IH]; intros ys; simpl.
  - split; intro H; [inversion H; constructor|inversion H; reflexivity].
  - split; intro H.
    + apply bind_ok in H; destruct H as [y [E H]]. apply bind_ok in H; destruct H as [zs [E2 H]].
      inversion H; subst. constructor; auto. apply IH; auto.
    + inversion H as [|x' y l' zs E H2]; subst. rewrite E; simpl. apply IH in H2. rewrite H2; reflexivity.
Qed.

Lemma mmap_total : forall I Y (f : I -> res Y) l,
  (forall x, In x l -> exists y, f x = Ok y) -> exists ys, mmap f l = Ok ys.
Proof.
  intros I Y f l; induction l as [|x l IH]; intros H; simpl; eauto.
  destruct (H x ltac:(left; auto)) as [y E]; rewrite E; simpl.
  destruct IH as [ys E2]; [intros; apply H; right; auto|]. rewrite E2; simpl; eauto.
Qed.

Lemma mmap_map : forall I Y (f : I -> res Y) g l,
  (forall x, In x l -> f x = Ok (g x)) -> mmap f l = Ok (map g l).
Proof.
  intros I Y f g l; induction l as [|x l IH]; intros H; simpl; auto.
  rewrite H by (left; auto). simpl. rewrite IH by (intros; apply H; right; auto). reflexivity.
Qed.

(** ** Representation of a vector by a function. *)
Definition vrepr {X : Type} (v : list X) (n : Z) (f : Z -> X) : Prop :=
  vlen v = n /\ forall i, 0 <= i < n -> vget v i = Ok (f i).

Definition fupd {X : Type} (f : Z -> X) (i : Z) (x : X) : Z -> X := fun k => if k =? i then x else f k.

Lemma fupd_same : forall X (f : Z -> X) i x, fupd f i x i = x.
Proof. intros; unfold fupd; rewrite Z.eqb_refl; reflexivity. Qed.
Lemma fupd_other : forall X (f : Z -> X) i x k, k <> i -> fupd f i x k = f k.
Proof. intros; unfold fupd; destruct (Z.eqb_spec k i); congruence. Qed.

Lemma vrepr_get : forall X (v : list X) n f i, vrepr v n f -> 0 <= i < n -> vget v i = Ok (f i).
Proof. intros X v n f i [_ H]; auto. Qed.

Lemma vrepr_set : forall X (v : list X) n f i x, vrepr v n f -> 0 <= i < n ->
  exists v', vset v i x = Ok v' /\ vrepr v' n (fupd f i x).
Proof.
  intros X v n f i x [L H] Hi. exists (upd (Z.to_nat i) x v). split; [apply vset_ok; lia|].
  split. { unfold vlen; rewrite upd_length; exact L. }
  intros k Hk. rewrite vget_upd by lia. unfold fupd. destruct (Z.eqb_spec k i); auto.
Qed.

Lemma vrepr_vrep : forall X n (x : X), 0 <= n -> vrepr (vrep n x) n (fun _ => x).
Proof. intros; split; [apply vlen_vrep; auto|]. intros; apply vget_vrep; auto. Qed.

Lemma vrepr_ext : forall X (v : list X) n f g, vrepr v n f -> (forall i, 0 <= i < n -> f i = g i) -> vrepr v n g.
Proof. intros X v n f g [L H] E; split; auto. intros i Hi; rewrite H, E; auto. Qed.

Lemma vrepr_unique : forall X (v v' : list X) n f, vrepr v n f -> vrepr v' n f -> v = v'.
Proof.
  intros X v v' n f [L H] [L' H']. apply vget_ext; [lia|]. intros i Hi. rewrite H, H' by lia. reflexivity.
Qed.
