(** * Specification vocabulary for the traces and time slices of R/lpaggreg_pjdump.R (no proofs). *)
From Coq Require Import Reals.
From Verif Require Import Base SpecParts Slicer.

(** The length of the intersection of the intervals [a,b] and [c,d]. *)
Definition overlap (a b c d : R) : R := Rmax 0 (Rmin b d - Rmax a c).

(** [t0] and [t1] are the beginning and the end of the trace: the smallest Start and the largest End. *)
Definition trace_span (trace : list drow) (t0 t1 : R) : Prop :=
  (exists w, In w trace /\ dr_start w = t0) /\ (exists w, In w trace /\ dr_end w = t1) /\
  forall w, In w trace -> (t0 <= dr_start w)%R /\ (dr_end w <= t1)%R.

(** The trace is cut into [n] slices of equal length; these are the bounds of slice [k] = 1, ..., n. *)
Definition slice_lo (t0 t1 : R) (n k : Z) : R := (t0 + (t1 - t0) * IZR (k - 1) / IZR n)%R.
Definition slice_hi (t0 t1 : R) (n k : Z) : R := (t0 + (t1 - t0) * IZR k / IZR n)%R.

(** A row has consistent columns. *)
Definition row_ok (w : drow) : Prop := (dr_start w <= dr_end w)%R /\ dr_dur w = (dr_end w - dr_start w)%R.

(** The row is active inside slice [k] (between its bounds, at least for an instant). *)
Definition inside (t0 t1 : R) (n : Z) (w : drow) (k : Z) : Prop :=
  1 <= k <= n /\ exists t, (dr_start w <= t <= dr_end w)%R /\ (slice_lo t0 t1 n k < t < slice_hi t0 t1 n k)%R.

(** The time that the resource [r] spends in the state [v] between [lo] and [hi]. *)
Definition time_in (trace : list drow) (r v : Z) (lo hi : R) : R :=
  Rsum (fun w => overlap (dr_start w) (dr_end w) lo hi) (filter (fun w => (dr_res w =? r) && (dr_state w =? v)) trace).

(** A resource is in one state at a time: two different rows of it do not overlap. *)
Definition one_at_a_time (trace : list drow) (r : Z) : Prop :=
  ForallOrdPairs (fun w w' => dr_res w = r -> dr_res w' = r -> (dr_end w <= dr_start w')%R \/ (dr_end w' <= dr_start w)%R) trace.

(** ** Counters *)

(** The rows of the resource [r] and the type [t], each with the next one of them: the value measured over a row is that of the next one. *)
Definition steps (trace : list drow) (r t : Z) : list (drow * drow) :=
  let g := filter (fun w => (dr_res w =? r) && (dr_type w =? t)) trace in combine g (tl g).

(** The measured value per unit of time. *)
Definition rate (p : drow * drow) : R := (dr_num (snd p) / dr_dur (fst p))%R.

(** The mean rate between [lo] and [hi], weighted by time. *)
Definition mean_rate (trace : list drow) (r t : Z) (lo hi : R) : R :=
  (Rsum (fun p => rate p * overlap (dr_start (fst p)) (dr_end (fst p)) lo hi) (steps trace r t) /
   Rsum (fun p => overlap (dr_start (fst p)) (dr_end (fst p)) lo hi) (steps trace r t))%R.

(** A measure of [r] and [t] is active inside slice [k]. *)
Definition measured (trace : list drow) (t0 t1 : R) (n r t k : Z) : Prop := exists p, In p (steps trace r t) /\ inside t0 t1 n (fst p) k.
