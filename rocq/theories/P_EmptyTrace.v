(** * Property C69 from R: containers without resources. *)
From Coq Require Import Lia Sorting.Sorted Reals Lra.
From Verif Require Import Base BaseFacts Arith Quality Utm Hierarchy Values Qualities SpecTree SpecData TreeFacts HierarchyFacts P_EmptyBranch
  RApi SpecR RFacts SpecParts SpecMacro RHelpers MacroFacts HMacroFacts Slicer SpecSlicer SlicerFacts P_Slicer CounterFacts P_Counter SpecPj PjFacts GetPath PjTree P_RApi P_Pj.

(** haggregate and daggregate cannot answer for a vector of parents with a node above no element of Space. *)
Theorem C69_haggregate : forall A (rd : num A -> num A) strict fuel th micro d0 d1 d2 h nd, r_cube micro d0 d1 d2 -> d0 <= vlen h ->
  1 <= nd <= vlen h -> (forall x, 1 <= x <= d0 -> ~ below (from0 h) (x - 1) (nd - 1)) -> forall r, r_haggregate A rd strict fuel micro h th <> Ok r.
Proof.
  intros A rd strict fuel th micro d0 d1 d2 h nd C Hd Hn Hno r E. destruct (micro_prf A micro d0 d1 d2 C) as (m & Em & Lm & R3 & _). destruct C as (_ & H0 & H1 & H2 & _).
  destruct (size3_rect _ m d0 d1 d2 Lm H0 H1 R3) as (S1 & S2 & S3). unfold r_haggregate in E. rewrite Em in E. cbn [bind] in E. apply bind_ok in E. destruct E as (v & Ev & E). apply bind_ok in E. destruct E as (o & Eo & _).
  unfold hv3_of in Ev. apply bind_ok in Ev. destruct Ev as (me & Eme & Ev). injection Ev as <-. rewrite S1 in Eme. unfold convertToHierarchy in Eme. change (map (fun x => x - 1) h) with (from0 h) in Eme.
  assert (Lf : vlen (from0 h) = vlen h) by (unfold from0; rewrite vlen_map; auto).
  refine (C69_hier A d0 (from0 h) me _ (nd - 1) _ _ _ Eme _ _ o Eo).
  - lia. - unfold node. lia. - intros x Lx. unfold leaf in Lx. specialize (Hno (x + 1) ltac:(lia)). replace (x + 1 - 1) with x in Hno by lia. auto.
  - reflexivity. - cbn. rewrite S2, S3. nia.
Qed.
Print Assumptions C69_haggregate.

Theorem C69_daggregate : forall A (rd : num A -> num A) strict fuel th micro d0 d1 d2 h nd, r_cube micro d0 d1 d2 -> d0 <= vlen h ->
  1 <= nd <= vlen h -> (forall x, 1 <= x <= d0 -> ~ below (from0 h) (x - 1) (nd - 1)) -> forall r, r_daggregate A rd strict fuel micro h th <> Ok r.
Proof.
  intros A rd strict fuel th micro d0 d1 d2 h nd C Hd Hn Hno r E. destruct (micro_prf A micro d0 d1 d2 C) as (m & Em & Lm & R3 & _). destruct C as (_ & H0 & H1 & H2 & _).
  destruct (size3_rect _ m d0 d1 d2 Lm H0 H1 R3) as (S1 & S2 & S3). unfold r_daggregate in E. rewrite Em in E. cbn [bind] in E. apply bind_ok in E. destruct E as (v & Ev & E). apply bind_ok in E. destruct E as (o & Eo & _).
  unfold dv3_of in Ev. apply bind_ok in Ev. destruct Ev as (me & Eme & Ev). injection Ev as <-. rewrite S1 in Eme. unfold convertToHierarchy in Eme. change (map (fun x => x - 1) h) with (from0 h) in Eme.
  assert (Lf : vlen (from0 h) = vlen h) by (unfold from0; rewrite vlen_map; auto).
  refine (C69_spatio A d0 (from0 h) me _ (nd - 1) _ _ _ Eme _ _ o Eo).
  - lia. - unfold node. lia. - intros x Lx. unfold leaf in Lx. specialize (Hno (x + 1) ltac:(lia)). replace (x + 1 - 1) with x in Hno by lia. auto.
  - reflexivity. - cbn. rewrite S2. lia.
Qed.
Print Assumptions C69_daggregate.

(** What is above in the vector is above in the containers. *)
Lemma below_above : forall cs root (P : Z -> Prop) nodes vh, tree_of cs P root -> vlen vh = vlen nodes ->
  (forall i x, vget nodes (i - 1) = Ok x -> (x = root /\ vget vh (i - 1) = Ok 0) \/ (x <> root /\ exists q j, In (x, q) cs /\ vget nodes (j - 1) = Ok q /\ vget vh (i - 1) = Ok j)) ->
  forall i k, below (from0 vh) i k -> forall x y, vget nodes i = Ok x -> vget nodes k = Ok y -> exists d, above (tl cs) d x y.
Proof.
  intros cs root P nodes vh (q0 & rest & Ec & _) Lv Hn i k B. induction B as [k|i k D B IH]; intros x y Gx Gy.
  - rewrite Gx in Gy. injection Gy as ->. exists 0%nat. constructor.
  - specialize (Hn (i + 1) x). replace (i + 1 - 1) with i in Hn by lia. destruct (Hn Gx) as [(-> & G)|(Dx & q & j & Iq & Gq & G)].
    + exfalso. apply D. unfold parent, from0. rewrite (vget_map _ _ (fun x => x - 1) _ _ _ G). reflexivity.
    + assert (E : parent (from0 vh) i = j - 1) by (unfold parent, from0; rewrite (vget_map _ _ (fun x => x - 1) _ _ _ G); reflexivity). rewrite E in IH.
      destruct (IH q y Gq Gy) as (d & A). exists (S d). apply above_S with q; auto. rewrite Ec in Iq |- *. cbn [tl]. destruct Iq as [Iq|Iq]; auto. congruence.
Qed.

Lemma pj_empty : forall data cs n state df Rr Tt K root q, slicer_of data n state = Ok df -> full_frame df Rr Tt K ->
  let P := fun r => Rr r /\ ~ is_parent cs r in (exists r, P r) -> tree_of cs P root -> is_parent cs q -> (forall x d, P x -> ~ above (tl cs) d x q) ->
  exists mm, r_pjdump2micro (data, cs) n state true = Ok mm /\ forall rd strict fuel th r, r_haggregate RA rd strict fuel (mm_data mm) (mm_hierarchy mm) th <> Ok r.
Proof.
  intros data cs n state df Rr Tt K root q E F P HP T Hq Hno. destruct (pj_tree data cs n state df Rr Tt K root E F HP T) as (mm & Em & L1 & L2 & L3 & C & G & (ps & Lp & En) & Nd & ro & Gro & _ & Lv & Hn & _).
  exists mm. split; auto. intros rd strict fuel th r. assert (Iq : In q (mm_nodes mm)) by (rewrite En; apply in_or_app; right; apply in_rev; rewrite rev_involutive; apply (proj2 Lp); auto).
  destruct (In_vget _ _ _ Iq) as (i & Gi & Bi).
  assert (Ls : vlen (mm_space mm) <= vlen (mm_nodes mm)) by (rewrite En, vlen_app; pose proof (vlen_nonneg _ (rev ps)); lia).
  apply (C69_haggregate RA rd strict fuel th (mm_data mm) _ _ _ (mm_hierarchy mm) (i + 1) C); [lia|lia|].
  intros x Bx B. replace (i + 1 - 1) with i in B by lia. destruct (vget_ok _ (mm_space mm) (x - 1) ltac:(lia)) as (y & Gy).
  assert (Gy' : vget (mm_nodes mm) (x - 1) = Ok y) by (rewrite En, vget_app_l by lia; auto).
  destruct (below_above cs root P (mm_nodes mm) (mm_hierarchy mm) T Lv Hn _ _ B y q Gy' Gi) as (d & A).
  apply (Hno y d); auto. apply (proj2 L1). apply (vget_In _ _ _ _ Gy).
Qed.

Lemma pj_empty_d : forall data cs n state df Rr Tt K root q, slicer_of data n state = Ok df -> full_frame df Rr Tt K ->
  let P := fun r => Rr r /\ ~ is_parent cs r in (exists r, P r) -> tree_of cs P root -> is_parent cs q -> (forall x d, P x -> ~ above (tl cs) d x q) ->
  exists mm, r_pjdump2micro (data, cs) n state true = Ok mm /\ forall rd strict fuel th r, r_daggregate RA rd strict fuel (mm_data mm) (mm_hierarchy mm) th <> Ok r.
Proof.
  intros data cs n state df Rr Tt K root q E F P HP T Hq Hno. destruct (pj_tree data cs n state df Rr Tt K root E F HP T) as (mm & Em & L1 & L2 & L3 & C & G & (ps & Lp & En) & Nd & ro & Gro & _ & Lv & Hn & _).
  exists mm. split; auto. intros rd strict fuel th r. assert (Iq : In q (mm_nodes mm)) by (rewrite En; apply in_or_app; right; apply in_rev; rewrite rev_involutive; apply (proj2 Lp); auto).
  destruct (In_vget _ _ _ Iq) as (i & Gi & Bi).
  assert (Ls : vlen (mm_space mm) <= vlen (mm_nodes mm)) by (rewrite En, vlen_app; pose proof (vlen_nonneg _ (rev ps)); lia).
  apply (C69_daggregate RA rd strict fuel th (mm_data mm) _ _ _ (mm_hierarchy mm) (i + 1) C); [lia|lia|].
  intros x Bx B. replace (i + 1 - 1) with i in B by lia. destruct (vget_ok _ (mm_space mm) (x - 1) ltac:(lia)) as (y & Gy).
  assert (Gy' : vget (mm_nodes mm) (x - 1) = Ok y) by (rewrite En, vget_app_l by lia; auto).
  destruct (below_above cs root P (mm_nodes mm) (mm_hierarchy mm) T Lv Hn _ _ B y q Gy' Gi) as (d & A).
  apply (Hno y d); auto. apply (proj2 L1). apply (vget_In _ _ _ _ Gy).
Qed.

(** One container without a resource seen in a slice below it (say, an idle process) is enough: pjdump2micro answers, but what it returns is out of the reach of
    haggregate and daggregate. *)
Theorem C69_trace : forall data containers n t0 t1 root q, trace_span (states data) t0 t1 -> (forall w, In w (states data) -> row_ok w) -> (t0 < t1)%R ->
  let P := fun r => seen (states data) t0 t1 n r /\ ~ is_parent containers r in (exists r, P r) -> tree_of containers P root ->
  is_parent containers q -> (forall x d, P x -> ~ above (tl containers) d x q) ->
  exists mm, r_pjdump2micro (data, containers) n true true = Ok mm /\
    (forall rd strict fuel th r, r_haggregate RA rd strict fuel (mm_data mm) (mm_hierarchy mm) th <> Ok r) /\
    (forall rd strict fuel th r, r_daggregate RA rd strict fuel (mm_data mm) (mm_hierarchy mm) th <> Ok r).
Proof.
  intros data cs n t0 t1 root q Hs Hr Ht P HP T Hq Hno. destruct (state_frame (states data) n t0 t1 Hs Hr Ht) as (df & K & E & F & _). { destruct HP as (r & Q & _). exists r; auto. }
  destruct (pj_empty data cs n true df _ _ K root q E F HP T Hq Hno) as (mm & Em & H1). destruct (pj_empty_d data cs n true df _ _ K root q E F HP T Hq Hno) as (mm' & Em' & H2).
  rewrite Em in Em'. injection Em' as <-. exists mm. auto.
Qed.
Print Assumptions C69_trace.

Theorem C69_trace_counters : forall data containers n t0 t1 df root q, trace_span (variables data) t0 t1 -> r_slicercounter (variables data) n = Ok df ->
  let P := fun r => counted (variables data) t0 t1 n r /\ ~ is_parent containers r in (exists r, P r) -> tree_of containers P root ->
  is_parent containers q -> (forall x d, P x -> ~ above (tl containers) d x q) ->
  exists mm, r_pjdump2micro (data, containers) n false true = Ok mm /\
    (forall rd strict fuel th r, r_haggregate RA rd strict fuel (mm_data mm) (mm_hierarchy mm) th <> Ok r) /\
    (forall rd strict fuel th r, r_daggregate RA rd strict fuel (mm_data mm) (mm_hierarchy mm) th <> Ok r).
Proof.
  intros data cs n t0 t1 df root q Hs E P HP T Hq Hno. destruct (counter_frame (variables data) n t0 t1 df Hs E) as (K & F & _).
  destruct (pj_empty data cs n false df _ _ K root q E F HP T Hq Hno) as (mm & Em & H1). destruct (pj_empty_d data cs n false df _ _ K root q E F HP T Hq Hno) as (mm' & Em' & H2).
  rewrite Em in Em'. injection Em' as <-. exists mm. auto.
Qed.
Print Assumptions C69_trace_counters.
