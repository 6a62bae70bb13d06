(** * Facts about slicerprvcounter. *)
From Coq Require Import Lia Permutation Reals Lra.
From Verif Require Import Base BaseFacts Arith SpecParts InfoFacts RHelpers MacroFacts HMacroFacts Slicer SpecSlicer SlicerFacts.

Definition lead1 (p : drow * drow) : drow :=
  mkDR (dr_nature (fst p)) (dr_res (fst p)) (dr_type (fst p)) (dr_start (fst p)) (dr_end (fst p)) (dr_dur (fst p)) (dr_state (fst p)) (dr_num (snd p)).

Definition of_rt (r t : Z) (w : drow) : bool := (dr_res w =? r) && (dr_type w =? t).

Lemma find_filter : forall X (P : X -> bool) l, find P l = hd_error (filter P l).
Proof. intros X P l. induction l as [|x l IH]; cbn; auto. destruct (P x); cbn; auto. Qed.

Lemma lead_filter : forall r t rows, filter (of_rt r t) (sl_lead rows) = map lead1 (combine (filter (of_rt r t) rows) (tl (filter (of_rt r t) rows))).
Proof.
  intros r t rows. induction rows as [|w rows IH]; [reflexivity|]. cbn [sl_lead].
  change (fun x => (dr_res x =? dr_res w) && (dr_type x =? dr_type w)) with (of_rt (dr_res w) (dr_type w)). rewrite find_filter. cbn [filter].
  destruct (of_rt r t w) eqn:Ew.
  - assert (Er : dr_res w = r /\ dr_type w = t) by (unfold of_rt in Ew; apply andb_true_iff in Ew; rewrite !Z.eqb_eq in Ew; tauto). destruct Er as [-> ->]. cbn [tl].
    destruct (filter (of_rt r t) rows) as [|x l] eqn:El; cbn [hd_error].
    + rewrite IH. reflexivity.
    + cbn [filter]. change (of_rt r t (mkDR (dr_nature w) r t (dr_start w) (dr_end w) (dr_dur w) (dr_state w) (dr_num x))) with ((r =? r) && (t =? t)). rewrite !Z.eqb_refl. cbn [andb combine map].
      rewrite IH. cbn [tl]. f_equal. unfold lead1. cbn [fst snd]. unfold of_rt in Ew. apply andb_true_iff in Ew. rewrite !Z.eqb_eq in Ew. destruct Ew as [-> ->]. reflexivity.
  - destruct (hd_error _) as [x|]; auto. cbn [filter].
    change (of_rt r t (mkDR (dr_nature w) (dr_res w) (dr_type w) (dr_start w) (dr_end w) (dr_dur w) (dr_state w) (dr_num x))) with (of_rt r t w). rewrite Ew. exact IH.
Qed.

(** A row of the trace that is joined with the slices, for a step of the trace. *)
Definition crow_of (t0 : R) (p : drow * drow) : drow := dr_rate (lead1 (dr_shift t0 (fst p), dr_shift t0 (snd p))).

Lemma combine_map2 : forall X Y (f : X -> Y) (l l' : list X), combine (map f l) (map f l') = map (fun p => (f (fst p), f (snd p))) (combine l l').
Proof. intros X Y f l. induction l as [|x l IH]; intros [|y l']; cbn; auto. rewrite IH. reflexivity. Qed.

Lemma tl_map : forall X Y (f : X -> Y) l, tl (map f l) = map f (tl l).
Proof. intros X Y f [|x l]; reflexivity. Qed.

Lemma rows_filter : forall r t t0 trace, filter (of_rt r t) (map dr_rate (sl_lead (map (dr_shift t0) trace))) = map (crow_of t0) (steps trace r t).
Proof.
  intros. rewrite filter_map_swap. change (fun x => of_rt r t (dr_rate x)) with (of_rt r t). rewrite lead_filter, filter_map_swap.
  change (fun x => of_rt r t (dr_shift t0 x)) with (of_rt r t). rewrite tl_map, combine_map2, !map_map. reflexivity.
Qed.

Lemma steps_rt : forall trace r t p, In p (steps trace r t) -> dr_res (fst p) = r /\ dr_type (fst p) = t.
Proof.
  intros trace r t [w x] I. unfold steps in I. apply in_combine_l in I. apply filter_In in I. destruct I as [_ I]. apply andb_true_iff in I. rewrite !Z.eqb_eq in I. exact I.
Qed.

Lemma In_rows : forall t0 trace w, In w (map dr_rate (sl_lead (map (dr_shift t0) trace))) <-> exists p, In p (steps trace (dr_res w) (dr_type w)) /\ w = crow_of t0 p.
Proof.
  intros t0 trace w. transitivity (In w (filter (of_rt (dr_res w) (dr_type w)) (map dr_rate (sl_lead (map (dr_shift t0) trace))))).
  - rewrite filter_In. unfold of_rt. rewrite !Z.eqb_refl. tauto.
  - rewrite rows_filter, in_map_iff. split; intros (p & A & B); exists p; auto.
Qed.
