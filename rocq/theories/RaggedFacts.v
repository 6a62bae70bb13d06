(** * Facts for property C92: reads of nested vectors, loops that read everything, no fuel is ever needed. *)
From Coq Require Import Lia.
From Verif Require Import Base BaseFacts Arith Quality Utm Hierarchy SpecTree SpecData SpecShape Values Qualities DataFacts P_Shape SpecRagged.

(** ** Cropping *)
Lemma crop_get : forall X n (l : list X) i, i < n -> vget (crop n l) i = vget l i.
Proof.
  intros X n l i Hi. unfold vget, crop. destruct (Z.ltb_spec i 0) as [K|K]; [reflexivity|]. assert (Hn : (Z.to_nat i < Z.to_nat n)%nat) by lia. revert Hn. generalize (Z.to_nat i), (Z.to_nat n). intros j k. revert j l.
  induction k as [|k IH]; intros j l Hj; [lia|]. destruct l as [|x l]; [destruct j; reflexivity|]. destruct j as [|j]; [reflexivity|]. cbn. apply IH. lia.
Qed.
Lemma crop_len : forall X n (l : list X), 0 <= n -> vlen (crop n l) = Z.min n (vlen l).
Proof. intros X n l H. unfold vlen, crop. rewrite firstn_length. lia. Qed.
Lemma crop_all : forall X (l : list X), crop (vlen l) l = l.
Proof. intros X l. unfold crop, vlen. rewrite Nat2Z.id. apply firstn_all. Qed.
Lemma vlen_map : forall X Y (f : X -> Y) l, vlen (map f l) = vlen l.
Proof. intros. unfold vlen. rewrite map_length. reflexivity. Qed.
Lemma vlen_nn : forall X (l : list X), 0 <= vlen l. Proof. intros. unfold vlen. lia. Qed.
Lemma size2_nn : forall X (d : list (list X)), 0 <= size2 d. Proof. intros X [|r d]; cbn; [lia|apply vlen_nn]. Qed.
Lemma size3_nn : forall X (d : list (list (list X))), 0 <= size3 d. Proof. intros X [|r d]; cbn; [lia|apply size2_nn]. Qed.
Lemma size4_nn : forall X (d : list (list (list (list X)))), 0 <= size4 d. Proof. intros X [|r d]; cbn; [lia|apply size3_nn]. Qed.

Lemma cropped2_sizes : forall X (d : list (list X)), vlen (cropped2 d) = vlen d /\ size2 (cropped2 d) = size2 d.
Proof. intros X d. split; [apply vlen_map|]. destruct d as [|r d]; [reflexivity|]. cbn [cropped2 map size2]. unfold cropped2. cbn [map size2]. rewrite crop_all. reflexivity. Qed.
Lemma cropped3_sizes : forall X (d : list (list (list X))), vlen (cropped3 d) = vlen d /\ size2 (cropped3 d) = size2 d /\ size3 (cropped3 d) = size3 d.
Proof.
  intros X d. split; [apply vlen_map|]. destruct d as [|r d]; [split; reflexivity|]. unfold cropped3. cbn [map size2 size3]. rewrite crop_all. split; [apply vlen_map|].
  destruct r as [|x r]; [reflexivity|]. cbn [map size2]. rewrite crop_all. reflexivity.
Qed.
Lemma cropped4_sizes : forall X (d : list (list (list (list X)))), vlen (cropped4 d) = vlen d /\ size2 (cropped4 d) = size2 d /\ size3 (cropped4 d) = size3 d /\ size4 (cropped4 d) = size4 d.
Proof.
  intros X d. split; [apply vlen_map|]. destruct d as [|r d]; [repeat split; reflexivity|]. unfold cropped4. cbn [map size2 size3 size4]. rewrite crop_all. split; [apply vlen_map|].
  destruct r as [|x r]; [split; reflexivity|]. cbn [map size2 size3]. rewrite crop_all. split; [apply vlen_map|]. destruct x as [|y x]; [reflexivity|]. cbn [map size2]. rewrite crop_all. reflexivity.
Qed.

Lemma bind_assoc : forall X Y Z (e : res X) (f : X -> res Y) (g : Y -> res Z), (let* y := (let* x := e in f x) in g y) = (let* x := e in let* y := f x in g y).
Proof. intros. destruct e; reflexivity. Qed.
Lemma bind_ext : forall X Y (e : res X) (f g : X -> res Y), (forall x, e = Ok x -> f x = g x) -> bind e f = bind e g.
Proof. intros X Y e f g H. destruct e; [apply H; reflexivity|reflexivity|reflexivity]. Qed.

Lemma cropped2_get : forall X (d : list (list X)) a b, b < size2 d -> vget2 (cropped2 d) a b = vget2 d a b.
Proof. intros X d a b Hb. unfold vget2, cropped2. rewrite vget_mapped, bind_assoc. apply bind_ext. intros x _. apply crop_get. exact Hb. Qed.
Lemma cropped3_get : forall X (d : list (list (list X))) a b c, b < size2 d -> c < size3 d -> vget3 (cropped3 d) a b c = vget3 d a b c.
Proof.
  intros X d a b c Hb Hc. unfold vget3, vget2, cropped3. rewrite vget_mapped, bind_assoc. apply bind_ext. intros x _. cbn [bind]. rewrite vget_mapped, crop_get, bind_assoc by exact Hb. apply bind_ext. intros y _. apply crop_get. exact Hc.
Qed.
Lemma cropped4_get : forall X (d : list (list (list (list X)))) a b c e, b < size2 d -> c < size3 d -> e < size4 d -> vget4 (cropped4 d) a b c e = vget4 d a b c e.
Proof.
  intros X d a b c e Hb Hc He. unfold vget4, vget3, vget2, cropped4. rewrite vget_mapped, bind_assoc. apply bind_ext. intros x _. cbn [bind]. rewrite vget_mapped, crop_get, bind_assoc by exact Hb. apply bind_ext. intros y _. cbn [bind].
  rewrite vget_mapped, crop_get, bind_assoc by exact Hc. apply bind_ext. intros z _. apply crop_get. exact He.
Qed.

(** ** The reads imply that the cropped data are rectangular. *)
Lemma Forall_vget : forall X (P : X -> Prop) l, (forall a x, vget l a = Ok x -> P x) -> Forall P l.
Proof.
  intros X P l H. apply Forall_forall. intros x Hx. apply In_nth_error in Hx. destruct Hx as (n & E). apply (H (Z.of_nat n)). unfold vget. destruct (Z.ltb_spec (Z.of_nat n) 0); [lia|]. rewrite Nat2Z.id, E. reflexivity.
Qed.
Lemma vget_crop_inv : forall X n (l : list X) a x, vget (crop n l) a = Ok x -> 0 <= a < n /\ vget l a = Ok x.
Proof.
  intros X n l a x E. pose proof (vget_inv _ _ _ _ E) as B. assert (0 <= n) by (destruct (Z_lt_le_dec n 0); [unfold crop in B; replace (Z.to_nat n) with 0%nat in B by lia; cbn in B; lia|lia]). rewrite crop_len in B by lia. split; [lia|]. rewrite crop_get in E by lia. exact E.
Qed.
Lemma vget_map_inv : forall X Y (f : X -> Y) l a y, vget (map f l) a = Ok y -> exists x, vget l a = Ok x /\ y = f x.
Proof. intros X Y f l a y E. rewrite vget_mapped in E. apply bind_ok in E. destruct E as (x & Ex & E). injection E as <-. eauto. Qed.

Lemma reads2 : forall X n (d : list (list X)), 0 <= n -> (forall a x, vget d a = Ok x -> n <= vlen x) -> rect2 (map (crop n) d) n.
Proof. intros X n d Hn H. apply Forall_vget. intros a x E. apply vget_map_inv in E. destruct E as (y & Ey & ->). rewrite crop_len by exact Hn. specialize (H a y Ey). lia. Qed.
Lemma full2 : forall X n (x : list X), 1 <= n -> (exists y, vget x (n - 1) = Ok y) -> vlen (crop n x) = n.
Proof. intros X n x Hn (y & E). apply vget_inv in E. rewrite crop_len by lia. lia. Qed.
Lemma reads3 : forall X n2 n3 (d : list (list (list X))), 1 <= n2 -> 0 <= n3 -> (forall a b, 0 <= a < vlen d -> 0 <= b < n2 -> exists x, vget2 d a b = Ok x /\ n3 <= vlen x) ->
  rect3 (map (fun x => map (crop n3) (crop n2 x)) d) n2 n3.
Proof.
  intros X n2 n3 d H2 H3 H. apply Forall_vget. intros a x E. apply vget_map_inv in E. destruct E as (y & Ey & ->). pose proof (vget_inv _ _ _ _ Ey) as Ha. split.
  - rewrite vlen_map. apply full2; [exact H2|]. destruct (H a (n2 - 1) Ha ltac:(lia)) as (x & Ex & _). unfold vget2 in Ex. rewrite Ey in Ex. exists x. exact Ex.
  - apply reads2; [exact H3|]. intros b z Ez. apply vget_crop_inv in Ez. destruct Ez as [Hb Ez]. destruct (H a b Ha Hb) as (x & Ex & L). unfold vget2 in Ex. rewrite Ey in Ex. cbn [bind] in Ex. rewrite Ez in Ex. injection Ex as <-. exact L.
Qed.
Lemma reads4 : forall X n2 n3 n4 (d : list (list (list (list X)))), 1 <= n2 -> 1 <= n3 -> 0 <= n4 ->
  (forall a b c, 0 <= a < vlen d -> 0 <= b < n2 -> 0 <= c < n3 -> exists x, vget3 d a b c = Ok x /\ n4 <= vlen x) ->
  rect4 (map (fun y => map (fun x => map (crop n4) (crop n3 x)) (crop n2 y)) d) n2 n3 n4.
Proof.
  intros X n2 n3 n4 d H2 H3 H4 H. apply Forall_vget. intros a x E. apply vget_map_inv in E. destruct E as (y & Ey & ->). pose proof (vget_inv _ _ _ _ Ey) as Ha. split.
  - rewrite vlen_map. apply full2; [exact H2|]. destruct (H a (n2 - 1) 0 Ha ltac:(lia) ltac:(lia)) as (x & Ex & _). unfold vget3, vget2 in Ex. rewrite Ey in Ex. cbn [bind] in Ex. apply bind_ok in Ex. destruct Ex as (z & Ez & _). eauto.
  - apply reads3; [exact H3|exact H4|]. intros b c Hb Hc. assert (Hb2 : b < n2). { pose proof (crop_len _ n2 y ltac:(lia)). lia. } destruct (H a b c Ha ltac:(lia) Hc) as (x & Ex & L). unfold vget3 in Ex. rewrite Ey in Ex. cbn [bind] in Ex. exists x. split; [|exact L].
    unfold vget2 in *. rewrite crop_get by exact Hb2. exact Ex.
Qed.

(** ** Loops *)
Lemma mfold_each : forall I S (f : I -> S -> res S) l s s', mfold f l s = Ok s' -> forall x, In x l -> exists s1 s2, f x s1 = Ok s2.
Proof.
  intros I S f l. induction l as [|y l IH]; intros s s' E x Hx; [destruct Hx|]. cbn [mfold] in E. apply bind_ok in E. destruct E as (s1 & E1 & E). destruct Hx as [<-|Hx]; [eauto|eapply IH; eauto].
Qed.
Lemma path_loop_each : forall S path n (body : Z -> S -> res S) s s', path_loop path 0 n body s = Ok s' -> forall i h, 0 <= i < n -> vget path i = Ok h -> exists s1 s2, body h s1 = Ok s2.
Proof.
  intros S path n body s s' E i h Hi Ei. unfold path_loop in E. apply bind_ok in E. destruct E as (h0 & E0 & E). unfold for_up in E.
  assert (G : forall l a, l = zrange a n -> forall s h0, vget path a = Ok h0 -> mfold (fun i sh => let '(s, h) := sh in let* s' := body h s in let* h' := vget path (i + 1) in Ok (s', h')) l (s, h0) = Ok s' -> a <= i -> exists s1 s2, body h s1 = Ok s2).
  { intro l. induction l as [|x l IH]; intros a El u g Eg Em Ha; [assert (In i (zrange a n)) as K by (apply In_zrange; lia); rewrite <- El in K; destruct K|].
    assert (Han : a < n) by lia. rewrite zrange_cons in El by exact Han. injection El as -> El. cbn [mfold] in Em. apply bind_ok in Em. destruct Em as ((u' & g') & Em1 & Em2). apply bind_ok in Em1. destruct Em1 as (u1 & Eb & Em1). apply bind_ok in Em1. destruct Em1 as (g1 & Eg1 & Em1). injection Em1 as <- <-.
    destruct (Z.eq_dec a i) as [->|Ne]; [rewrite Eg in Ei; injection Ei as <-; eauto|]. apply (IH (a + 1) El u1 g1 Eg1 Em2). lia. }
  apply (G _ 0 eq_refl s h0 E0 E). lia.
Qed.

(** ** No fuel *)
Definition nf {X : Type} (r : res X) : Prop := r <> OutOfFuel.
Lemma nf_bind : forall X Y (e : res X) (f : X -> res Y), nf e -> (forall x, nf (f x)) -> nf (bind e f).
Proof. intros X Y e f He Hf. destruct e; cbn; [apply Hf|discriminate|contradiction]. Qed.
Lemma nf_ok : forall X (x : X), nf (Ok x). Proof. discriminate. Qed.
Lemma nf_get : forall X (l : list X) i, nf (vget l i). Proof. exact vget_fuel. Qed.
Lemma nf_set : forall X (l : list X) i x, nf (vset l i x). Proof. intros X l i x. unfold nf, vset. destruct (_ || _); discriminate. Qed.
Lemma nf_uget : forall X (u : utm X) i j, nf (u_get u i j). Proof. intros. apply nf_get. Qed.
Lemma nf_uset : forall X (u : utm X) i j x, nf (u_set u i j x). Proof. intros. unfold u_set. apply nf_bind; [apply nf_set|intro; apply nf_ok]. Qed.
Lemma nf_fold : forall I S (f : I -> S -> res S) l s, (forall x s, nf (f x s)) -> nf (mfold f l s).
Proof. intros I S f l. induction l as [|x l IH]; intros s H; [apply nf_ok|]. cbn. apply nf_bind; [apply H|intro; apply IH; exact H]. Qed.
Lemma nf_mget : forall X (m : list (utm X)) h i j, nf (mm_get m h i j). Proof. intros. unfold mm_get. apply nf_bind; [apply nf_get|intro; apply nf_uget]. Qed.
Lemma nf_mset : forall X (m : list (utm X)) h i j x, nf (mm_set m h i j x). Proof. intros. unfold mm_set. apply nf_bind; [apply nf_get|intro; apply nf_bind; [apply nf_uset|intro; apply nf_set]]. Qed.
Lemma nf_path : forall S path a n (f : Z -> S -> res S) s, (forall x s, nf (f x s)) -> nf (path_loop path a n f s).
Proof. intros. unfold path_loop. apply nf_bind; [apply nf_get|]. intro h. apply nf_fold. intros x [u g]. apply nf_bind; [apply H|]. intro. apply nf_bind; [apply nf_get|intro; apply nf_ok]. Qed.
#[export] Hint Resolve nf_ok nf_get nf_set nf_uget nf_uset nf_mget nf_mset : nf.
Ltac nf := repeat first [solve [auto with nf] | apply nf_bind; [|intro] | apply nf_fold; intros ? ? | apply nf_path; intros ? ? | match goal with |- nf (let '(_, _) := ?x in _) => destruct x end].

Section M.
Context (A : arith).
Lemma ov_row_nf : forall (v : ovalues A) k, nf (ov_row v k).
Proof. intros v k. unfold ov_row, udiv, umod, vget3, vget2. destruct (ov_data v); repeat match goal with |- context [?x =? 0] => destruct (x =? 0) end; nf; discriminate. Qed.
Lemma hv_value_nf : forall (v : hvalues A) h k, nf (hv_value v h k).
Proof. intros v h k. unfold hv_value, udiv, umod, vget4, vget3, vget2. destruct (hv_data v); repeat match goal with |- context [?x =? 0] => destruct (x =? 0) end; nf; discriminate. Qed.
Lemma dv_row_nf : forall (v : dvalues A) h k, nf (dv_row v h k).
Proof. intros v h k. unfold dv_row, udiv, umod, vget3, vget2. destruct (dv_data v); repeat match goal with |- context [?x =? 0] => destruct (x =? 0) end; nf; discriminate. Qed.

Lemma o_table_nf : forall v : ovalues A, nf (o_table A v).
Proof. intro v. pose proof (ov_row_nf v). unfold o_table, oq_compute, oq_ofValues, oq_computeTable, oq_line, oq_cell, for_up, for_down. cbn [oq_values]. nf. Qed.
Lemma h_table_nf : forall v : hvalues A, nf (h_table A (Ok v)).
Proof. intro v. pose proof (hv_value_nf v). unfold h_table, hq_compute, hq_ofValues, hq_computeTable, hq_component, hq_leaf, hq_node, hq_update, for_up, for_down. cbn [hq_values bind]. nf. Qed.
Lemma d_table_nf : forall v : dvalues A, nf (d_table A (Ok v)).
Proof. intro v. pose proof (dv_row_nf v). unfold d_table, dq_compute, dq_ofValues, dq_computeTable, dq_component, dq_leaf, dq_leafLine, dq_leafCell, dq_node, dq_nodeCell, dq_root, dq_update, dq_toParent, mm_addto, for_up, for_down. cbn [dq_values bind]. nf. Qed.
End M.
