(** * Facts about the slicer functions. *)
From Coq Require Import Lia Permutation Reals Lra.
From Verif Require Import Base BaseFacts Arith SpecParts InfoFacts RHelpers MacroFacts HMacroFacts Slicer SpecSlicer.

Lemma filter_key_one : forall X K (dec : forall a b : K, {a = b} + {a <> b}) (key : X -> K) l y, NoDup (map key l) -> In y l ->
  filter (fun x => if dec (key x) (key y) then true else false) l = [y].
Proof.
  intros X K dec key l y. induction l as [|x l IH]; intros N I; [destruct I|]. cbn [map] in N. inversion N as [|? ? Hx N']; subst. cbn [filter].
  destruct I as [->|I].
  - destruct (dec (key y) (key y)); [|congruence]. f_equal.
    clear IH N N'. induction l as [|z l IH]; cbn; auto. destruct (dec (key z) (key y)) as [E|E].
    + exfalso. apply Hx. cbn. auto.
    + apply IH. intro K0. apply Hx. cbn. auto.
  - destruct (dec (key x) (key y)) as [E|E]; [|auto]. exfalso. apply Hx. rewrite E. apply in_map. auto.
Qed.

Lemma filter_key_none : forall X K (dec : forall a b : K, {a = b} + {a <> b}) (key : X -> K) l k, ~ In k (map key l) ->
  filter (fun x => if dec (key x) k then true else false) l = [].
Proof.
  intros X K dec key l k H. induction l as [|x l IH]; cbn; auto. destruct (dec (key x) k) as [E|E]; [exfalso; apply H; cbn; auto|].
  apply IH. intro K0. apply H. cbn. auto.
Qed.

Lemma fold_max_ge : forall l a, a <= fold_left Z.max l a /\ forall x, In x l -> x <= fold_left Z.max l a.
Proof.
  induction l as [|y l IH]; intro a; cbn; [split; [lia|tauto]|]. destruct (IH (Z.max a y)) as [H1 H2]. split; [lia|].
  intros x [->|I]; [lia|auto].
Qed.

Lemma fold_max_in : forall l a, fold_left Z.max l a = a \/ In (fold_left Z.max l a) l.
Proof.
  induction l as [|y l IH]; intro a; cbn; auto. destruct (IH (Z.max a y)) as [E|I]; [|auto].
  rewrite E. destruct (Z.max_spec a y) as [[_ ->]|[_ ->]]; auto.
Qed.

Definition last_slice (m : list srow) : Z := fold_left Z.max (map sr_slice m) 1.

Lemma last_slice_in : forall m, m <> [] -> (forall y, In y m -> 1 <= sr_slice y) -> In (last_slice m) (map sr_slice m).
Proof.
  intros m H P. unfold last_slice. destruct (fold_max_in (map sr_slice m) 1) as [E|I]; auto. rewrite E.
  destruct m as [|y m]; [congruence|]. pose proof (proj2 (fold_max_ge (map sr_slice (y :: m)) 1) (sr_slice y) ltac:(left; auto)) as Q. rewrite E in Q.
  specialize (P y (or_introl eq_refl)). left. lia.
Qed.

Lemma last_slice_ge : forall m y, In y m -> sr_slice y <= last_slice m.
Proof. intros m y I. apply fold_max_ge. apply in_map. auto. Qed.

Definition grid (m : list srow) : list (Z * Z * Z) :=
  list_prod (list_prod (nodup Z.eq_dec (map sr_res m)) (zrange 1 (last_slice m + 1))) (nodup Z.eq_dec (map sr_type m)).

Lemma In_grid : forall m r k t, In (r, k, t) (grid m) <-> In r (map sr_res m) /\ 1 <= k <= last_slice m /\ In t (map sr_type m).
Proof. intros. unfold grid. rewrite !in_prod_iff, !nodup_In, In_zrange. split; intros; intuition lia. Qed.

Lemma NoDup_grid : forall m, NoDup (grid m).
Proof. intro m. apply NoDup_list_prod; [apply NoDup_list_prod|]; try apply NoDup_nodup. apply NoDup_zrange. Qed.

Definition zrow (key : Z * Z * Z) : srow := let '(r, k, t) := key in mkSR r k t 0 0 0 0.

Lemma zrow_key : forall key, sr_key (zrow key) = key.
Proof. intros [[r k] t]. reflexivity. Qed.

(** The row that the groups of [p] and [m] give. *)
Definition filled (m : list srow) (x : srow) : Prop :=
  (exists y, In y m /\ sr_key y = sr_key x /\ sr_lo x = Rmax 0 (sr_lo y) /\ sr_hi x = Rmax 0 (sr_hi y) /\ sr_sum x = Rmax 0 (sr_sum y) /\ sr_norm x = Rmax 0 (sr_norm y)) \/
  (~ In (sr_key x) (map sr_key m) /\ sr_lo x = 0%R /\ sr_hi x = 0%R /\ sr_sum x = 0%R /\ sr_norm x = 0%R).

Lemma fill_prf : forall m, m <> [] -> NoDup (map sr_key m) -> (forall y, In y m -> 1 <= sr_slice y) ->
  exists o, sl_fill m = Ok o /\ NoDup (map sr_key o) /\ forall x, In x o <-> In (sr_key x) (grid m) /\ filled m x.
Proof.
  intros m Hm N P. unfold sl_fill. destruct m as [|y0 m0] eqn:Em; [congruence|]. rewrite <- Em in *. clear Em y0 m0.
  change (fold_left Z.max (map sr_slice m) 1) with (last_slice m).
  change (list_prod (list_prod (nodup Z.eq_dec (map sr_res m)) (zrange 1 (last_slice m + 1))) (nodup Z.eq_dec (map sr_type m))) with (grid m).
  rewrite (map_ext (fun '(r, k, t) => mkSR r k t 0 0 0 0) zrow) by (intros [[? ?] ?]; reflexivity).
  set (n := map zrow (grid m) ++ m).
  assert (Sub : forall y, In y m -> In (sr_key y) (grid m)).
  { intros y I. apply In_grid. repeat split; try (apply in_map; auto). - apply P; auto. - apply last_slice_ge; auto. }
  assert (Kn : forall key, In key (map sr_key n) <-> In key (grid m)).
  { intro key. unfold n. rewrite map_app, in_app_iff, map_map. rewrite (map_ext _ (fun x => x)) by apply zrow_key. rewrite map_id. split; auto.
    intros [I|I]; auto. apply in_map_iff in I. destruct I as (y & <- & I). auto. }
  assert (Kz : forall key, In key (grid m) -> filter (fun x => if dec3 (sr_key x) key then true else false) (map zrow (grid m)) = [zrow key]).
  { intros key I. pose proof (filter_key_one _ _ dec3 sr_key (map zrow (grid m)) (zrow key)) as Q. rewrite zrow_key in Q. apply Q.
    - rewrite map_map. rewrite (map_ext _ (fun x => x)) by apply zrow_key. rewrite map_id. apply NoDup_grid.
    - apply in_map. auto. }
  set (row := fun key => let g := filter (fun x => if dec3 (sr_key x) key then true else false) n in
     let '(r, k, t) := key in mkSR r k t (col_max sr_lo g) (col_max sr_hi g) (col_max sr_sum g) (col_max sr_norm g)).
  assert (Rk : forall key, sr_key (row key) = key) by (intros [[r k] t]; reflexivity).
  assert (RF : forall key, In key (grid m) -> filled m (row key)).
  { intros key I. unfold filled. rewrite Rk. destruct (in_dec dec3 key (map sr_key m)) as [J|J].
    - left. apply in_map_iff in J. destruct J as (y & Ey & J). exists y. split; auto. split; auto.
      assert (Eg : filter (fun x => if dec3 (sr_key x) key then true else false) n = [zrow key; y]).
      { unfold n. rewrite filter_app, Kz by auto. rewrite <- Ey. rewrite filter_key_one by auto. reflexivity. }
      unfold row. destruct key as [[r k] t]. rewrite Eg. cbn. auto.
    - right. split; auto.
      assert (Eg : filter (fun x => if dec3 (sr_key x) key then true else false) n = [zrow key]).
      { unfold n. rewrite filter_app, Kz by auto. rewrite filter_key_none by auto. reflexivity. }
      unfold row. destruct key as [[r k] t]. rewrite Eg. cbn. auto. }
  exists (map row (nodup dec3 (map sr_key n))). split; [reflexivity|]. split.
  - rewrite map_map. rewrite (map_ext _ (fun x => x)) by apply Rk. rewrite map_id. apply NoDup_nodup.
  - intro x. rewrite in_map_iff. split.
    + intros (key & <- & I). rewrite nodup_In in I. apply Kn in I. rewrite Rk. auto.
    + intros (I & F). exists (sr_key x). split; [|rewrite nodup_In; apply Kn; auto].
      pose proof (RF _ I) as F'. pose proof (Rk (sr_key x)) as Ek. remember (row (sr_key x)) as x' eqn:Ex'. clear Ex'.
      assert (U : forall y y', In y m -> In y' m -> sr_key y = sr_key y' -> y = y').
      { intros y y' Iy Iy' E. pose proof (filter_key_one _ _ dec3 sr_key m y N Iy) as A1. pose proof (filter_key_one _ _ dec3 sr_key m y' N Iy') as A2. rewrite E in A1. congruence. }
      destruct x as [r k t a b c d], x' as [r' k' t' a' b' c' d']. cbn in Ek. injection Ek as -> -> ->. unfold filled in *. cbn [sr_lo sr_hi sr_sum sr_norm] in *.
      destruct F as [(y & Iy & Ey & -> & -> & -> & ->)|(H & -> & -> & -> & ->)], F' as [(y' & Iy' & Ey' & -> & -> & -> & ->)|(H' & -> & -> & -> & ->)]; auto.
      * assert (y = y') as -> by (apply U; auto; rewrite Ey, Ey'; reflexivity). reflexivity.
      * exfalso. apply H'. change (sr_key (mkSR r k t 0 0 0 0)) with (sr_key (mkSR r k t (Rmax 0 (sr_lo y)) (Rmax 0 (sr_hi y)) (Rmax 0 (sr_sum y)) (Rmax 0 (sr_norm y)))). rewrite <- Ey. apply in_map; auto.
      * exfalso. apply H. change (sr_key (mkSR r k t 0 0 0 0)) with (sr_key (mkSR r k t (Rmax 0 (sr_lo y')) (Rmax 0 (sr_hi y')) (Rmax 0 (sr_sum y')) (Rmax 0 (sr_norm y')))). rewrite <- Ey'. apply in_map; auto.
Qed.

(** ** min and max *)
Lemma fold_Rmin_le : forall l a, (fold_left Rmin l a <= a)%R /\ forall x, In x l -> (fold_left Rmin l a <= x)%R.
Proof.
  induction l as [|y l IH]; intro a; cbn; [split; [lra|tauto]|]. destruct (IH (Rmin a y)) as [H1 H2]. pose proof (Rmin_l a y). pose proof (Rmin_r a y). split; [lra|].
  intros x [->|I]; [lra|auto].
Qed.
Lemma fold_Rmin_in : forall l a, fold_left Rmin l a = a \/ In (fold_left Rmin l a) l.
Proof.
  induction l as [|y l IH]; intro a; cbn; auto. destruct (IH (Rmin a y)) as [E|I]; [|auto]. rewrite E. unfold Rmin. destruct (Rle_dec a y); auto.
Qed.
Lemma fold_Rmax_ge : forall l a, (a <= fold_left Rmax l a)%R /\ forall x, In x l -> (x <= fold_left Rmax l a)%R.
Proof.
  induction l as [|y l IH]; intro a; cbn; [split; [lra|tauto]|]. destruct (IH (Rmax a y)) as [H1 H2]. pose proof (Rmax_l a y). pose proof (Rmax_r a y). split; [lra|].
  intros x [->|I]; [lra|auto].
Qed.
Lemma fold_Rmax_in : forall l a, fold_left Rmax l a = a \/ In (fold_left Rmax l a) l.
Proof.
  induction l as [|y l IH]; intro a; cbn; auto. destruct (IH (Rmax a y)) as [E|I]; [|auto]. rewrite E. unfold Rmax. destruct (Rle_dec a y); auto.
Qed.

Lemma r_min_is : forall l v, In v l -> (forall x, In x l -> (v <= x)%R) -> r_min l = Ok v.
Proof.
  intros [|a l] v I H; [destruct I|]. cbn. f_equal. destruct (fold_Rmin_le l a) as [H1 H2].
  assert ((fold_left Rmin l a <= v)%R) by (destruct I as [->|I]; auto).
  assert ((v <= fold_left Rmin l a)%R) by (apply H; destruct (fold_Rmin_in l a) as [->|J]; [left; auto|right; auto]). lra.
Qed.
Lemma r_max_is : forall l v, In v l -> (forall x, In x l -> (x <= v)%R) -> r_max l = Ok v.
Proof.
  intros [|a l] v I H; [destruct I|]. cbn. f_equal. destruct (fold_Rmax_ge l a) as [H1 H2].
  assert ((v <= fold_left Rmax l a)%R) by (destruct I as [->|I]; auto).
  assert ((fold_left Rmax l a <= v)%R) by (apply H; destruct (fold_Rmax_in l a) as [->|J]; [left; auto|right; auto]). lra.
Qed.

(** ** overlap *)
Lemma overlap_nonneg : forall a b c d, (0 <= overlap a b c d)%R.
Proof. intros. apply Rmax_l. Qed.
Lemma overlap_shift : forall a b c d x, overlap (a - x) (b - x) (c - x) (d - x) = overlap a b c d.
Proof. intros. unfold overlap, Rmax, Rmin. repeat (destruct (Rle_dec _ _)); lra. Qed.
Lemma overlap_split : forall a b c d e, (a <= b -> c <= d -> d <= e -> overlap a b c d + overlap a b d e = overlap a b c e)%R.
Proof. intros. unfold overlap, Rmax, Rmin. repeat (destruct (Rle_dec _ _)); lra. Qed.
Lemma overlap_out : forall a b c d, (b <= c \/ d <= a -> overlap a b c d = 0)%R.
Proof. intros a b c d H. unfold overlap, Rmax, Rmin. repeat (destruct (Rle_dec _ _)); destruct H; lra. Qed.
Lemma overlap_in : forall a b c d, (c < b -> a < d -> a <= b -> c <= d -> overlap a b c d = Rmin b d - Rmax a c)%R.
Proof. intros. unfold overlap, Rmax, Rmin. repeat (destruct (Rle_dec _ _)); lra. Qed.
Lemma overlap_all : forall a b c d, (c <= a -> a <= b -> b <= d -> overlap a b c d = b - a)%R.
Proof. intros. unfold overlap, Rmax, Rmin. repeat (destruct (Rle_dec _ _)); lra. Qed.
Lemma overlap_le : forall a b c d, (c <= d -> overlap a b c d <= d - c)%R.
Proof. intros. unfold overlap, Rmax, Rmin. repeat (destruct (Rle_dec _ _)); lra. Qed.

(** The parts of an interval in consecutive intervals add up. *)
Lemma overlap_tiles : forall (g : Z -> R) a b lo n, (a <= b)%R -> lo <= n -> (forall k, lo <= k < n -> (g k <= g (k + 1)%Z)%R) ->
  Rsum (fun k => overlap a b (g k) (g (k + 1))) (zrange lo n) = overlap a b (g lo) (g n).
Proof.
  intros g a b lo n Hab H. pattern n. apply Zlt_lower_bound_ind with (z := lo); auto. clear n H. intros n IH H M.
  destruct (Z.eq_dec lo n) as [->|Hn].
  - rewrite zrange_empty by lia. rewrite Rsum_nil. symmetry. unfold overlap, Rmax, Rmin. repeat (destruct (Rle_dec _ _)); lra.
  - replace n with (n - 1 + 1) at 1 by lia. rewrite (zrange_app lo (n - 1) (n - 1 + 1)) by lia. rewrite Rsum_app, IH by (try lia; intros; apply M; lia).
    rewrite (zrange_cons (n - 1)) by lia. rewrite zrange_empty by lia. rewrite Rsum_cons, Rsum_nil. replace (n - 1 + 1) with n by lia.
    rewrite Rplus_0_r. apply overlap_split; auto.
    + assert (MM : forall k, lo <= k -> k <= n -> (g lo <= g k)%R).
      { intros k Hk. pattern k. apply Zlt_lower_bound_ind with (z := lo); auto. clear k Hk. intros k IHk Hk Hk2. destruct (Z.eq_dec lo k) as [->|]; [lra|].
        pose proof (IHk (k - 1) ltac:(lia) ltac:(lia)). pose proof (M (k - 1) ltac:(lia)) as Q. replace (k - 1 + 1) with k in Q by lia. lra. }
      apply MM; lia.
    + pose proof (M (n - 1) ltac:(lia)) as Q. replace (n - 1 + 1) with n in Q by lia. exact Q.
Qed.

(** Disjoint intervals fill at most the whole interval. *)
Lemma overlap_disjoint : forall X (s e : X -> R) l c d, (c <= d)%R -> (forall x, In x l -> (s x <= e x)%R) ->
  ForallOrdPairs (fun x y => (e x <= s y)%R \/ (e y <= s x)%R) l -> (Rsum (fun x => overlap (s x) (e x) c d) l <= d - c)%R.
Proof.
  intros X s e l. induction l as [|x l IH]; intros c d Hcd Hse Hd; [rewrite Rsum_nil; lra|].
  inversion Hd as [|? ? Hx Hd']; subst. rewrite Rsum_cons. pose proof (Hse x (or_introl eq_refl)) as Hx0.
  assert (Hse' : forall y, In y l -> (s y <= e y)%R) by (intros; apply Hse; right; auto).
  destruct (Rle_dec (e x) c) as [B1|B1]; [rewrite (overlap_out (s x)) by auto; specialize (IH c d Hcd Hse' Hd'); lra|].
  destruct (Rle_dec d (s x)) as [B2|B2]; [rewrite (overlap_out (s x)) by auto; specialize (IH c d Hcd Hse' Hd'); lra|].
  set (u := Rmax c (s x)). set (v := Rmin d (e x)).
  assert (Hu : (c <= u /\ s x <= u)%R) by (unfold u; split; [apply Rmax_l|apply Rmax_r]).
  assert (Hv : (v <= d /\ v <= e x)%R) by (unfold v; split; [apply Rmin_l|apply Rmin_r]).
  assert (Huv : (u <= v)%R) by (unfold u, v, Rmax, Rmin; repeat (destruct (Rle_dec _ _)); lra).
  assert (Ex : overlap (s x) (e x) c d = (v - u)%R) by (unfold overlap, u, v, Rmax, Rmin in *; repeat (destruct (Rle_dec _ _)); lra).
  rewrite Ex.
  assert (Ey : Rsum (fun y => overlap (s y) (e y) c d) l = (Rsum (fun y => overlap (s y) (e y) c u) l + Rsum (fun y => overlap (s y) (e y) v d) l)%R).
  { rewrite <- Rsum_plus. apply Rsum_ext. intros y Iy. pose proof (Hse' y Iy) as Hy. rewrite Forall_forall in Hx. specialize (Hx y Iy).
    rewrite <- (overlap_split (s y) (e y) c u d) by lra. rewrite <- (overlap_split (s y) (e y) u v d) by lra.
    rewrite (overlap_out (s y) (e y) u v) by (destruct Hx; [right|left]; lra). lra. }
  rewrite Ey. pose proof (IH c u ltac:(lra) Hse' Hd'). pose proof (IH v d ltac:(lra) Hse' Hd'). lra.
Qed.

(** ** The join *)
Definition meets (st : R) (w : drow) (k : Z) : Prop := (ts_start st k < dr_end w /\ dr_start w < ts_end st k)%R.

Definition joined (st : R) (w : drow) (k : Z) : bool :=
  Rltb (ts_start st k) (dr_start w + dr_dur w) && Rltb (dr_end w - dr_dur w) (ts_end st k).

Lemma joined_meets : forall st w k, row_ok w -> (joined st w k = true <-> meets st w k).
Proof.
  intros st w k (H & E). unfold joined, meets, Rltb. rewrite E.
  destruct (Rlt_dec _ _), (Rlt_dec _ _); cbn; split; intros; try discriminate; try (split; lra); auto; exfalso; lra.
Qed.

Lemma In_join : forall st n rows w k, In (w, k) (sl_join st n rows) <-> In w rows /\ 1 <= k <= n /\ joined st w k = true.
Proof.
  intros st n rows w k. unfold sl_join. rewrite in_flat_map. split.
  - intros (w0 & I & J). apply in_map_iff in J. destruct J as (k0 & E & J). injection E as -> ->. apply filter_In in J. rewrite In_zrange in J. split; auto. split; [lia|apply J].
  - intros (I & B & J). exists w. split; auto. apply in_map_iff. exists k. split; auto. apply filter_In. rewrite In_zrange. split; [lia|exact J].
Qed.

Lemma Rsum_pick : forall (f : Z -> R) k l, NoDup l -> Rsum (fun x => if x =? k then f x else 0%R) l = (if existsb (Z.eqb k) l then f k else 0%R).
Proof.
  intros f k l N. induction N as [|x l Hx N IH]; [reflexivity|]. rewrite Rsum_cons, IH. cbn [existsb]. destruct (Z.eqb_spec x k) as [->|E].
  - rewrite Z.eqb_refl. cbn [orb]. destruct (existsb (Z.eqb k) l) eqn:Ex; [|lra]. exfalso. apply existsb_exists in Ex. destruct Ex as (y & Iy & Ey). apply Z.eqb_eq in Ey. subst. auto.
  - destruct (Z.eqb_spec k x); [congruence|]. cbn [orb]. lra.
Qed.

Definition jkey (x : drow * Z) : Z * Z * Z := (dr_res (fst x), snd x, dr_type (fst x)).

Lemma join_sum : forall st n rows (f : drow * Z -> R) r k t, 1 <= k <= n ->
  Rsum f (filter (fun x => if dec3 (jkey x) (r, k, t) then true else false) (sl_join st n rows)) =
  Rsum (fun w => if joined st w k then f (w, k) else 0%R) (filter (fun w => (dr_res w =? r) && (dr_type w =? t)) rows).
Proof.
  intros st n rows f r k t Hk. rewrite Rsum_filter. unfold sl_join. rewrite Rsum_flat, Rsum_filter. apply Rsum_ext. intros w _. rewrite Rsum_map.
  rewrite (Rsum_ext _ _ (fun k' => if k' =? k then (if (dr_res w =? r) && (dr_type w =? t) then f (w, k') else 0%R) else 0%R)).
  - rewrite (Rsum_pick (fun k' => if (dr_res w =? r) && (dr_type w =? t) then f (w, k') else 0%R)) by (apply NoDup_filter, NoDup_zrange).
    match goal with |- context [existsb ?p ?l] => assert (E : existsb p l = joined st w k) end.
    { destruct (joined st w k) eqn:J.
      - apply existsb_exists. exists k. split; [|apply Z.eqb_refl]. apply filter_In. rewrite In_zrange. split; [lia|exact J].
      - apply Bool.not_true_is_false. intro Ex. apply existsb_exists in Ex. destruct Ex as (y & Iy & Ey). apply Z.eqb_eq in Ey. subst y. apply filter_In in Iy. unfold joined in J. destruct Iy as [_ Iy]. congruence. }
    rewrite E. destruct (joined st w k), ((dr_res w =? r) && (dr_type w =? t)); reflexivity.
  - intros k' _. unfold jkey. cbn [fst snd]. destruct (dec3 (dr_res w, k', dr_type w) (r, k, t)) as [E|E].
    + injection E as -> -> ->. rewrite !Z.eqb_refl. reflexivity.
    + destruct (Z.eqb_spec k' k); auto. destruct (Z.eqb_spec (dr_res w) r); auto. destruct (Z.eqb_spec (dr_type w) t); auto. congruence.
Qed.

Lemma tints_overlap : forall st w k, row_ok w -> (0 <= st)%R -> (if joined st w k then t_in_ts st w k else 0%R) = overlap (dr_start w) (dr_end w) (ts_start st k) (ts_end st k).
Proof.
  intros st w k Hw Hst. destruct (joined st w k) eqn:J.
  - apply joined_meets in J; auto. destruct J as [J1 J2], Hw as [Hw _]. unfold t_in_ts. symmetry. apply overlap_in; auto.
    unfold ts_start, ts_end. rewrite minus_IZR. lra.
  - assert (~ meets st w k) by (intro M; apply joined_meets in M; auto; congruence). symmetry. apply overlap_out. unfold meets in *.
    destruct (Rlt_dec (ts_start st k) (dr_end w)); [right|left]; lra.
Qed.

(** ** Slices *)
Lemma slice_shift : forall t0 t1 n k, (ts_start ((t1 - t0) / IZR n) k = slice_lo t0 t1 n k - t0 /\ ts_end ((t1 - t0) / IZR n) k = slice_hi t0 t1 n k - t0)%R.
Proof. intros. unfold ts_start, ts_end, slice_lo, slice_hi. split; unfold Rdiv; lra. Qed.

Lemma meets_inside : forall t0 t1 n w k (f : drow -> drow), (t0 < t1)%R -> 1 <= k <= n -> row_ok w -> dr_start (f w) = (dr_start w - t0)%R -> dr_end (f w) = (dr_end w - t0)%R ->
  (meets ((t1 - t0) / IZR n) (f w) k <-> inside t0 t1 n w k).
Proof.
  intros t0 t1 n w k f Ht Hk (Hw & _) Es Ee. unfold meets, inside. destruct (slice_shift t0 t1 n k) as [-> ->]. rewrite Es, Ee.
  assert (Hlh : (slice_lo t0 t1 n k < slice_hi t0 t1 n k)%R).
  { unfold slice_lo, slice_hi. rewrite minus_IZR. assert (0 < IZR n)%R by (apply IZR_lt; lia). assert (0 < (t1 - t0) / IZR n)%R by (apply Rdiv_lt_0_compat; lra). unfold Rdiv in *. lra. }
  set (lo := slice_lo t0 t1 n k) in *. set (hi := slice_hi t0 t1 n k) in *. split.
  - intros (H1 & H2). split; auto. destruct (Rlt_dec lo (dr_start w)); [exists (dr_start w); lra|]. destruct (Rlt_dec (dr_end w) hi); [exists (dr_end w); lra|].
    exists ((lo + hi) / 2)%R. lra.
  - intros (_ & t & H1 & H2). lra.
Qed.
