(** * What the normalisation loops do, over any arithmetic. *)
From Coq Require Import Lia.
From Verif Require Import Base BaseFacts Arith Quality Utm UtmFacts UtmProofs Hierarchy Values Qualities.

Lemma u_at_ok : forall X (m : utm X) n f i j, urepr m n f -> 0 <= i <= j -> j < n -> u_at m (tidx n i j) = Ok (f i j).
Proof.
  intros X m n f i j R Hi Hj. unfold u_at. pose proof (tidx_bound n i j Hi Hj). pose proof (tri_bound n (proj1 R)).
  rewrite wrap_small by lia. eapply urepr_at; eauto.
Qed.
Lemma u_put_ok : forall X (m : utm X) n f i j x, urepr m n f -> 0 <= i <= j -> j < n ->
  exists m', u_put m (tidx n i j) x = Ok m' /\ urepr m' n (fupd2 f i j x).
Proof.
  intros X m n f i j x R Hi Hj. destruct (urepr_set _ _ _ _ i j x R Hi Hj) as [m' [E R']]. exists m'. split; auto.
  rewrite <- E. unfold u_put, u_set. pose proof (tidx_bound n i j Hi Hj). pose proof (tri_bound n (proj1 R)).
  rewrite wrap_small by lia. destruct R as (Hn & Hs & _). rewrite Hs, u_index_ok by lia. auto.
Qed.

Section M.
Context (A : arith).
Notation quality := (quality A).

(** The divisor of an entry, depending on whether it comes before or after the reference entry: the reference is
    replaced by reference/reference when the loop passes it. *)
Definition ndiv (mx : quality) (upto : bool) : quality := if upto then mx else q_div A mx mx.

Lemma h_normalize_ok : forall t n f root, vrepr t n f -> 0 <= root < n ->
  exists t', h_normalize A t root = Ok t' /\ vrepr t' n (fun i => q_div A (f i) (ndiv (f root) (i <=? root))).
Proof.
  intros t n f root R Hr. unfold h_normalize. rewrite (proj1 R).
  destruct (for_up_inv _ (fun i t => let* q := vget t i in let* mx := vget t root in vset t i (q_div A q mx))
    (fun k t => vrepr t n (fun i => if i <? k then q_div A (f i) (ndiv (f root) (i <=? root)) else f i)) 0 n t) as [t' [E R']].
  - lia.
  - intros k s Hk R'. rewrite (vrepr_get _ _ _ _ k R') by lia. cbn [bind].
    rewrite (vrepr_get _ _ _ _ root R') by lia. cbn [bind]. rewrite Z.ltb_irrefl. rewrite Z.leb_refl.
    match goal with |- context [vset s k ?w] => destruct (vrepr_set _ _ _ _ k w R' Hk) as [s' [E' R2]] end.
    exists s'. split; auto. eapply vrepr_ext; [exact R2|]. intros i Hi. unfold fupd.
    destruct (Z.eqb_spec i k) as [->|D].
    + replace (k <? k + 1) with true by (symmetry; apply Z.ltb_lt; lia). f_equal.
      destruct (Z.ltb_spec root k), (Z.leb_spec k root); try lia; auto.
    + destruct (Z.ltb_spec i k), (Z.ltb_spec i (k + 1)); try lia; auto.
  - eapply vrepr_ext; [exact R|]. intros i Hi. destruct (Z.ltb_spec i 0); auto; lia.
  - exists t'. split; auto. eapply vrepr_ext; [exact R'|]. intros i Hi. cbv beta.
    replace (i <? n) with true by (symmetry; apply Z.ltb_lt; lia). auto.
Qed.

Lemma u_normalize_ok : forall t n f, urepr t n f -> 0 < n ->
  exists t', u_normalize A t (u_index (u_size t) 0 (n - 1)) = Ok t' /\ urepr t' n (fun i j => q_div A (f i j) (f 0 (n - 1))).
Proof.
  intros t n f R Hn. unfold u_normalize. pose proof (proj1 R) as Hb. destruct R as (Hb' & Hs & He & Hl & Hg).
  assert (R : urepr t n f) by (repeat split; auto; lia). rewrite Hs, He, u_index_ok by lia. clear Hb' Hl Hg.
  destruct (for_up_inv _ (fun i t => let* q := u_at t i in let* mx := vget (u_data t) (tidx n 0 (n - 1)) in u_put t i (q_div A q mx))
    (fun k t => urepr t n (fun i j => if tidx n i j <? k then q_div A (f i j) (f 0 (n - 1)) else f i j)) 0 (tri n) t) as [t' [E R']].
  - apply tri_nonneg; lia.
  - intros k s Hk R'. destruct (tidx_surj n k ltac:(lia) Hk) as (i & j & Hi & Hj & <-).
    rewrite (u_at_ok _ _ _ _ i j R') by lia. cbn [bind].
    rewrite (urepr_at _ _ _ _ 0 (n - 1) R') by lia. cbn [bind]. rewrite Z.ltb_irrefl.
    pose proof (tidx_last n Hn). replace (tidx n 0 (n - 1) <? tidx n i j) with false by (symmetry; apply Z.ltb_ge; lia).
    match goal with |- context [u_put s _ ?w] => destruct (u_put_ok _ _ _ _ i j w R' Hi Hj) as [s' [E' R2]] end.
    exists s'. split; auto. eapply urepr_ext; [exact R2|]. intros a b Ha Hb2. unfold fupd2.
    destruct (Z.eqb_spec (tidx n a b) (tidx n i j)) as [Et|D].
    + destruct (tidx_inj n a b i j) as [-> ->]; try lia. rewrite !Z.eqb_refl. cbn [andb].
      replace (tidx n i j <? tidx n i j + 1) with true by (symmetry; apply Z.ltb_lt; lia). auto.
    + replace ((a =? i) && (b =? j)) with false.
      * destruct (Z.ltb_spec (tidx n a b) (tidx n i j)), (Z.ltb_spec (tidx n a b) (tidx n i j + 1)); try lia; auto.
      * destruct (Z.eqb_spec a i) as [->|], (Z.eqb_spec b j) as [->|]; auto; congruence.
  - eapply urepr_ext; [exact R|]. intros a b Ha Hb2. pose proof (tidx_bound n a b Ha Hb2).
    destruct (Z.ltb_spec (tidx n a b) 0); auto; lia.
  - exists t'. split; auto. eapply urepr_ext; [exact R'|]. intros a b Ha Hb2. cbv beta. pose proof (tidx_bound n a b Ha Hb2).
    replace (tidx n a b <? tri n) with true by (symmetry; apply Z.ltb_lt; lia). auto.
Qed.

Lemma mrepr_vset : forall X (t : list (utm X)) H n f h u g, mrepr t H n f -> 0 <= h < H -> urepr u n g ->
  exists t', vset t h u = Ok t' /\ mrepr t' H n (fun c => if c =? h then g else f c).
Proof.
  intros X t H n f h u g [L R] Hh U. exists (upd (Z.to_nat h) u t). split; [apply vset_ok; lia|].
  split. { unfold vlen in *; rewrite upd_length; auto. }
  intros c Hc. rewrite vget_upd by lia. destruct (Z.eqb_spec c h) as [->|D]; eauto.
Qed.

Lemma d_normalize_ok : forall t H n f root, mrepr t H n f -> 0 < n <= 65535 -> 0 <= root < H ->
  exists t', d_normalize A t H root (u_index n 0 (n - 1)) = Ok t' /\
    mrepr t' H n (fun h i j => q_div A (f h i j) (ndiv (f root 0 (n - 1)) (h <=? root))).
Proof.
  intros t H n f root R Hn Hr. unfold d_normalize. rewrite u_index_ok by lia.
  set (g := fun h i j => q_div A (f h i j) (ndiv (f root 0 (n - 1)) (h <=? root))).
  match goal with |- exists x, for_up 0 H ?b t = _ /\ _ => destruct (for_up_inv _ b
    (fun k t => mrepr t H n (fun h i j => if h <? k then g h i j else f h i j)) 0 H t) as [t' [E R']] end.
  - lia.
  - intros h s Hh R'. destruct (proj2 R' h Hh) as [u [Eu Ru]]. rewrite Eu. cbn [bind].
    replace (u_elements u) with (tri n) by (symmetry; apply Ru).
    match goal with |- exists x, for_up 0 _ ?b s = _ /\ _ => destruct (for_up_inv _ b
      (fun k t => mrepr t H n (fun c i j => if (c <? h) || ((c =? h) && (tidx n i j <? k)) then g c i j else f c i j)) 0 (tri n) s) as [t' [E2 R2]] end.
    + apply tri_nonneg; lia.
    + intros k s2 Hk R2. destruct (tidx_surj n k ltac:(lia) Hk) as (i & j & Hi & Hj & <-).
      destruct (proj2 R2 h Hh) as [u2 [Eu2 Ru2]]. rewrite Eu2. cbn [bind].
      rewrite (u_at_ok _ _ _ _ i j Ru2) by lia. cbn [bind].
      destruct (proj2 R2 root Hr) as [ur [Eur Rur]]. rewrite Eur. cbn [bind].
      rewrite (urepr_at _ _ _ _ 0 (n - 1) Rur) by lia. cbn [bind].
      pose proof (tidx_last n ltac:(lia)). pose proof (tidx_bound n i j Hi Hj).
      rewrite !Z.ltb_irrefl, Z.eqb_refl. cbn [orb andb].
      match goal with |- context [u_put u2 _ ?w] => destruct (u_put_ok _ _ _ _ i j w Ru2 Hi Hj) as [u3 [E3 R3]] end.
      rewrite E3. cbn [bind]. destruct (mrepr_vset _ _ _ _ _ h _ _ R2 Hh R3) as [s3 [E4 R4]]. exists s3. split; auto.
      eapply mrepr_ext; [exact R4|]. intros c a b Hc Ha Hb. cbv beta. destruct (Z.eqb_spec c h) as [->|D].
      * rewrite Z.ltb_irrefl. cbn [orb andb]. unfold fupd2.
        destruct (Z.eqb_spec (tidx n a b) (tidx n i j)) as [Et|Dt].
        -- destruct (tidx_inj n a b i j) as [-> ->]; try lia. rewrite !Z.eqb_refl. cbn [andb].
           replace (tidx n i j <? tidx n i j + 1) with true by (symmetry; apply Z.ltb_lt; lia). unfold g. f_equal.
           destruct (Z.ltb_spec root h); cbn [orb].
           ++ unfold g. rewrite Z.leb_refl. cbn [ndiv]. replace (h <=? root) with false by (symmetry; apply Z.leb_gt; lia). auto.
           ++ replace (h <=? root) with true by (symmetry; apply Z.leb_le; lia).
              replace (tidx n 0 (n - 1) <? tidx n i j) with false by (symmetry; apply Z.ltb_ge; lia). rewrite andb_false_r. auto.
        -- replace ((a =? i) && (b =? j)) with false.
           ++ rewrite ?Z.eqb_refl, ?Z.ltb_irrefl. cbn [orb andb].
              destruct (Z.ltb_spec (tidx n a b) (tidx n i j)), (Z.ltb_spec (tidx n a b) (tidx n i j + 1)); try lia; auto.
           ++ destruct (Z.eqb_spec a i) as [->|], (Z.eqb_spec b j) as [->|]; auto; congruence.
      * replace (c =? h) with false by (symmetry; apply Z.eqb_neq; auto). cbn [andb]. auto.
    + eapply mrepr_ext; [exact R'|]. intros c a b Hc Ha Hb. cbv beta. pose proof (tidx_bound n a b Ha Hb).
      replace (tidx n a b <? 0) with false by (symmetry; apply Z.ltb_ge; lia). rewrite andb_false_r, orb_false_r. auto.
    + exists t'. split; auto. eapply mrepr_ext; [exact R2|]. intros c a b Hc Ha Hb. cbv beta. pose proof (tidx_bound n a b Ha Hb).
      replace (tidx n a b <? tri n) with true by (symmetry; apply Z.ltb_lt; lia). rewrite andb_true_r.
      destruct (Z.ltb_spec c h), (Z.eqb_spec c h), (Z.ltb_spec c (h + 1)); cbn [orb]; try lia; auto.
  - eapply mrepr_ext; [exact R|]. intros c a b Hc Ha Hb. destruct (Z.ltb_spec c 0); auto; lia.
  - exists t'. split; auto. eapply mrepr_ext; [exact R'|]. intros c a b Hc Ha Hb. cbv beta.
    replace (c <? H) with true by (symmetry; apply Z.ltb_lt; lia). auto.
Qed.
End M.
