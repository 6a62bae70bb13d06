(** * Property C91: the spatiotemporal partition is at least as good as any partition built from one-dimensional ones - and can be strictly better than all of them.

    [stacked c l] (SpecProduct): nodes of c, each over its own intervals; l constant is a grid (space x time), l h = [(0, n-1)] a purely
    spatial partition, c = [root] a purely temporal one. *)
From Coq Require Import Reals Lra Lia Permutation.
From Verif Require Import Base BaseFacts Arith Quality Utm UtmFacts UtmProofs Hierarchy HierarchyFacts SpecTree SpecParts SpecInfo SpecData SpecShape SpecProduct SpecR SpecMacro SpecBest Values Qualities Partitions Partitioners RApi
  TreeFacts TreePath HierarchyProofs CoverFacts InfoFacts OReal OInfo OProofs HProofs DProofs DQual HQual DataFacts DataCons DDataProofs MacroFacts SearchReal P_Ordered P_Hier P_Spatio P_SpatioData P_Shape P_RCurve P_RBest P_Nested.

Lemma stacked_In : forall c l h a b, In (h, a, b) (stacked c l) <-> In h c /\ In (a, b) (l h).
Proof.
  intros c l h a b. unfold stacked. rewrite in_flat_map. split.
  - intros (h' & Hc & Hi). apply in_map_iff in Hi. destruct Hi as ([a' b'] & E & Hi). injection E as <- <- <-. auto.
  - intros [Hc Hi]. exists h. split; [exact Hc|]. apply in_map_iff. exists (a, b). auto.
Qed.

Lemma NoDup_app2 : forall X (a b : list X), NoDup a -> NoDup b -> (forall x, In x a -> ~ In x b) -> NoDup (a ++ b).
Proof.
  intros X a b Na Nb D. induction Na as [|x a Nx Na IH]; [exact Nb|]. cbn. constructor.
  - intro K. apply in_app_or in K. destruct K as [K|K]; [auto|]. apply (D x); [left; reflexivity|exact K].
  - apply IH. intros y Hy. apply D. right. exact Hy.
Qed.
Lemma NoDup_map2 : forall X Y (f : X -> Y) l, (forall x y, f x = f y -> x = y) -> NoDup l -> NoDup (map f l).
Proof.
  intros X Y f l J N. induction N as [|x l Nx N IH]; [constructor|]. cbn. constructor; [|exact IH]. intro K. apply in_map_iff in K. destruct K as (y & E & Hy). apply J in E. subst y. auto.
Qed.
Lemma mmap_app2 : forall X Y (f : X -> res Y) a b x y, mmap f a = Ok x -> mmap f b = Ok y -> mmap f (a ++ b) = Ok (x ++ y).
Proof.
  intros X Y f a. induction a as [|u a IH]; intros b x y Ha Hb; [injection Ha as <-; exact Hb|]. cbn [mmap app] in *. destruct (f u) as [v| |]; try discriminate. cbn [bind] in *.
  apply bind_ok in Ha. destruct Ha as (w & Ea & E). injection E as <-. rewrite (IH b w y Ea Hb). reflexivity.
Qed.
Lemma stacked_NoDup : forall n l c, NoDup c -> (forall h, In h c -> tiles 0 n (l h)) -> NoDup (stacked c l).
Proof.
  intros n l c N T. induction N as [|h c Nh N IH]; [constructor|]. change (stacked (h :: c) l) with (map (fun ab => (h, fst ab, snd ab)) (l h) ++ stacked c l). apply NoDup_app2.
  - apply NoDup_map2; [intros [a b] [a' b'] E; cbn in E; congruence|]. apply (tiles_NoDup 0 n). apply T. left. reflexivity.
  - apply IH. intros y Hy. apply T. right. exact Hy.
  - intros [[y a] b] K K'. apply in_map_iff in K. destruct K as (ab & E & _). injection E as <- _ _. apply stacked_In in K'. tauto.
Qed.

Lemma stacked_cover : forall L ps n c l, node_cover L ps c -> (forall h, In h c -> tiles 0 n (l h)) -> rect_cover L ps n (stacked c l) /\ never_up L ps (stacked c l).
Proof.
  intros L ps n c l (N & Nd & Cv) T. split; [split; [|split]|].
  - apply (stacked_NoDup n); assumption.
  - intros h a b K. apply stacked_In in K. destruct K as [Hc Hi]. destruct (tiles_bounds 0 n (l h) a b (T h Hc) Hi). split; [apply Nd; exact Hc|lia].
  - intros x o Hx Ho. destruct (Cv x Hx) as (h & Hc & B & U). destruct (tiles_find 0 n (l h) o (T h Hc) Ho) as (a & b & Hi & Hab).
    exists h, a, b. split; [apply stacked_In; auto|]. split; [exact B|]. split; [exact Hab|]. intros h' a' b' K B' Hab'. apply stacked_In in K. destruct K as [Hc' Hi'].
    rewrite (U h' Hc' B') in *. pose proof (tiles_unique 0 n (l h) o a' b' a b (T h Hc) Hi' Hi Hab' Hab) as E. injection E as -> ->. reflexivity.
  - intros x h a b h' a' b' Hx K K' B B' _. apply stacked_In in K. apply stacked_In in K'. destruct K as [Hc _]. destruct K' as [Hc' _]. destruct (Cv x Hx) as (h0 & _ & _ & U). rewrite (U h Hc B), (U h' Hc' B'). apply below_refl.
Qed.

Theorem C91_stacked : forall P m, well_built m ->
  forall (t : list (utm (quality (RP P)))) n p x c l ql, 1 <= n <= 65535 -> vlen t = m_hsize m -> Forall (fun u => utm_shape u n) t -> d_best (RP P) t m p = Ok x ->
  node_cover (m_leaves m) (m_parents m) c -> (forall h, In h c -> tiles 0 n (l h)) -> mmap (fun '(h, a, b) => mm_get t h a b) (stacked c l) = Ok ql ->
  no_better (pp_num P p) (pp_num P (pp_compl P p)) (gain (dn_quality x)) (loss (dn_quality x)) (Rsum (@gain (RP P)) ql) (Rsum (@loss (RP P)) ql).
Proof.
  intros P m W t n p x c l ql Hn Lt Ft E Hc Hl Q. destruct (stacked_cover _ _ n c l Hc Hl) as [C N]. exact (C26_spatio_optimal m W P t n p x _ ql Hn Lt Ft E C N Q).
Qed.
Print Assumptions C91_stacked.


(** Against ordered partitions: a cover of the leaves by nodes, each node with the best ordered partition of its own row of the table.
    With c = [root]: the best purely temporal aggregation. *)
Theorem C91_temporal : forall P m, well_built m ->
  forall (t : list (utm (quality (RP P)))) n p x c (y : Z -> opartition (RP P)), 1 <= n <= 65535 -> vlen t = m_hsize m -> Forall (fun u => utm_shape u n) t -> d_best (RP P) t m p = Ok x ->
  node_cover (m_leaves m) (m_parents m) c -> (forall h, In h c -> exists u, vget t h = Ok u /\ o_best (RP P) u p = Ok (y h)) ->
  no_better (pp_num P p) (pp_num P (pp_compl P p)) (gain (dn_quality x)) (loss (dn_quality x)) (Rsum (fun h => gain (on_quality (y h))) c) (Rsum (fun h => loss (on_quality (y h))) c).
Proof.
  intros P m W t n p x c y Hn Lt Ft E Hc Hy. set (l := fun h => map (fun q => (op_start q, op_end q)) (on_parts (y h))). set (qs := fun h => map (@op_quality (RP P)) (on_parts (y h))).
  assert (Sh : forall h u, vget t h = Ok u -> utm_shape u n). { intros h u Hu. rewrite Forall_forall in Ft. apply Ft. apply (vget_In _ t h u). exact Hu. }
  assert (Hl : forall h, In h c -> tiles 0 n (l h)).
  { intros h Ih. destruct (Hy h Ih) as (u & Hu & Hb). destruct (C19_ordered_tiles (RP P) u n p ltac:(lia) (Sh h u Hu)) as (z & Ez & _ & Tz). rewrite Hb in Ez. injection Ez as <-. exact Tz. }
  assert (Q1 : forall h, In h c -> mmap (fun '(h, a, b) => mm_get t h a b) (map (fun ab => (h, fst ab, snd ab)) (l h)) = Ok (qs h)).
  { intros h Ih. destruct (Hy h Ih) as (u & Hu & Hb). destruct (C22_ordered (RP P) u n p _ ltac:(lia) (Sh h u Hu) Hb) as (K & _). unfold l, qs. rewrite map_map. cbn [fst snd]. rewrite mmap_comp. apply mmap_map.
    intros q Iq. unfold mm_get. rewrite Hu. cbn [bind]. apply K. exact Iq. }
  assert (Q : mmap (fun '(h, a, b) => mm_get t h a b) (stacked c l) = Ok (flat_map qs c)).
  { clear Hc Hy Hl. induction c as [|h c IH]; [reflexivity|]. change (stacked (h :: c) l) with (map (fun ab => (h, fst ab, snd ab)) (l h) ++ stacked c l). cbn [flat_map]. apply mmap_app2; [apply Q1; left; reflexivity|apply IH; intros y' Hy'; apply Q1; right; exact Hy']. }
  pose proof (C91_stacked P m W t n p x c l _ Hn Lt Ft E Hc Hl Q) as K.
  assert (S1 : forall f : quality (RP P) -> R, Rsum f (flat_map qs c) = Rsum (fun h => Rsum (fun q => f (op_quality q)) (on_parts (y h))) c).
  { intro f. clear - f. induction c as [|h c IH]; [reflexivity|]. cbn [flat_map]. rewrite Rsum_app, Rsum_cons, IH. f_equal. unfold qs. apply Rsum_map. }
  rewrite !S1 in K. 
  assert (Sg : Rsum (fun h => gain (on_quality (y h))) c = Rsum (fun h => Rsum (fun q : opart (RP P) => gain (op_quality q)) (on_parts (y h))) c).
  { apply Rsum_ext. intros h Ih. destruct (Hy h Ih) as (u & Hu & Hb). destruct (C22_ordered (RP P) u n p _ ltac:(lia) (Sh h u Hu) Hb) as (_ & Kg & Kl). rewrite Kg. apply fold_Rsum. }
  assert (Sl : Rsum (fun h => loss (on_quality (y h))) c = Rsum (fun h => Rsum (fun q : opart (RP P) => loss (op_quality q)) (on_parts (y h))) c).
  { apply Rsum_ext. intros h Ih. destruct (Hy h Ih) as (u & Hu & Hb). destruct (C22_ordered (RP P) u n p _ ltac:(lia) (Sh h u Hu) Hb) as (_ & Kg & Kl). rewrite Kl. apply fold_Rsum. }
  change (num (RP P)) with Rdefinitions.R in *. rewrite Sg, Sl. exact K.
Qed.
Print Assumptions C91_temporal.

(** Against hierarchical partitions of the whole time axis: w is the column (., first slice, last slice) of the table. *)
Theorem C91_spatial : forall P m, well_built m -> 2 <= m_hsize m ->
  forall (t : list (utm (quality (RP P)))) n p x (w : list (quality (RP P))) y, 1 <= n <= 65535 -> vlen t = m_hsize m -> Forall (fun u => utm_shape u n) t -> d_best (RP P) t m p = Ok x ->
  vlen w = m_hsize m -> (forall h, 0 <= h < m_hsize m -> vget w h = mm_get t h 0 (n - 1)) -> h_best (RP P) w m p = Ok y ->
  no_better (pp_num P p) (pp_num P (pp_compl P p)) (gain (dn_quality x)) (loss (dn_quality x)) (gain (hn_quality y)) (loss (hn_quality y)).
Proof.
  intros P m W H2 t n p x w y Hn Lt Ft E Lw Ew Ey.
  destruct (C20_hier_cover m W H2 (RP P) w p Lw) as (y' & Ey' & _ & Hc & _). rewrite Ey in Ey'. injection Ey' as <-.
  destruct (C22_hier m W H2 (RP P) w p y Lw Ey) as (Q & Gy & Ly).
  assert (Hl : forall h, In h (map hp_h (hn_parts y)) -> tiles 0 n ((fun _ => [(0, n - 1)]) h)).
  { intros h _. apply tiles_cons; [lia|]. replace (n - 1 + 1) with n by lia. constructor. }
  assert (Qm : mmap (fun '(h, a, b) => mm_get t h a b) (stacked (map hp_h (hn_parts y)) (fun _ => [(0, n - 1)])) = Ok (map (@hp_quality (RP P)) (hn_parts y))).
  { assert (Es : stacked (map hp_h (hn_parts y)) (fun _ => [(0, n - 1)]) = map (fun q => (hp_h q, 0, n - 1)) (hn_parts y)).
    { generalize (hn_parts y). intro l. induction l as [|q l IH]; [reflexivity|]. cbn [map]. unfold stacked in *. cbn [flat_map]. rewrite IH. reflexivity. }
    rewrite Es, mmap_comp. apply mmap_map. intros q Iq. rewrite <- Ew; [apply Q; exact Iq|]. destruct Hc as (_ & Nd & _). pose proof (Nd _ (in_map hp_h _ _ Iq)) as B. unfold node in B. rewrite (wb_hsize m W). exact B. }
  pose proof (C91_stacked P m W t n p x _ _ _ Hn Lt Ft E Hc Hl Qm) as K. rewrite !Rsum_map in K. rewrite Gy, Ly. rewrite !fold_Rsum. exact K.
Qed.
Print Assumptions C91_spatial.
