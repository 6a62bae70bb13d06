(** * Specification vocabulary: what a pjdump file says, line by line (no proofs). *)
From Coq Require Import Reals.
From Verif Require Import Base SpecParts Slicer SpecSlicer.

(** The state lines have consistent columns. *)
Definition file_ok (file : list pjline) : Prop :=
  forall r t s e d v, In (LState r t s e d v) file -> (s <= e)%R /\ d = (e - s)%R.

(** The states of the file begin at [t0] and end at [t1]. *)
Definition file_span (file : list pjline) (t0 t1 : R) : Prop :=
  (exists r t e d v, In (LState r t t0 e d v) file) /\ (exists r t s d v, In (LState r t s t1 d v) file) /\
  forall r t s e d v, In (LState r t s e d v) file -> (t0 <= s)%R /\ (e <= t1)%R.

(** The state line of [r], in the state [v], is active inside slice [k] (between its bounds, at least for an instant). *)
Definition line_inside (file : list pjline) (t0 t1 : R) (n r v k : Z) : Prop :=
  1 <= k <= n /\ exists t s e d x, In (LState r t s e d v) file /\ (s <= x <= e)%R /\ (slice_lo t0 t1 n k < x < slice_hi t0 t1 n k)%R.

(** The time that [r] spends in the state [v] between [lo] and [hi], according to the file. *)
Definition file_time (file : list pjline) (r v : Z) (lo hi : R) : R :=
  Rsum (fun l => match l with
                 | LState r' _ s e _ v' => if (r' =? r) && (v' =? v) then overlap s e lo hi else 0%R
                 | _ => 0%R
                 end) file.

(** [q] is the parent of [x]: the file has a Container line that says so. *)
Definition says_parent (file : list pjline) (x q : Z) : Prop := In (LContainer q x) file.

(** [y] is [d] levels above [x]. *)
Inductive file_above (file : list pjline) : nat -> Z -> Z -> Prop :=
| fabove_0 : forall x, file_above file 0 x x
| fabove_S : forall d x q y, says_parent file x q -> file_above file d q y -> file_above file (S d) x y.

(** The Container lines form a tree above the resources that satisfy [P]. The first one names the root and [rest] are the lines after it. Two Container lines never
    name the same container; all parents and all the resources of [P] are containers; the root is above all of them. *)
Definition file_tree (file rest : list pjline) (P : Z -> Prop) (root : Z) : Prop :=
  (exists before q0, file = before ++ LContainer q0 root :: rest /\ (forall q x, ~ In (LContainer q x) before)) /\
  ForallOrdPairs (fun l l' => forall q x q' x', l = LContainer q x -> l' = LContainer q' x' -> x <> x') file /\
  (forall x q, says_parent file x q -> exists q', says_parent file q q') /\
  (forall x, P x -> exists q, says_parent file x q) /\
  (forall x, P x \/ (exists c, says_parent file c x) -> exists d, file_above rest d x root).

(** ** Counters *)

(** The variables of the file begin at [t0] and end at [t1]. *)
Definition file_span_v (file : list pjline) (t0 t1 : R) : Prop :=
  (exists r t e d v, In (LVariable r t t0 e d v) file) /\ (exists r t s d v, In (LVariable r t s t1 d v) file) /\
  forall r t s e d v, In (LVariable r t s e d v) file -> (t0 <= s)%R /\ (e <= t1)%R.

(** The Variable lines of the resource [r] and the counter [t], in the order of the file: (start, end, duration, value). *)
Definition measures (file : list pjline) (r t : Z) : list (R * R * R * R) :=
  flat_map (fun l => match l with LVariable r' t' s e d v => if (r' =? r) && (t' =? t) then [(s, e, d, v)] else [] | _ => [] end) file.

(** The value measured from [s] to [e] is that of the next line, so that the rate between them is this value divided by the duration: (start, end, rate). *)
Definition rates (file : list pjline) (r t : Z) : list (R * R * R) :=
  map (fun '((s, e, d, _), (_, _, _, v)) => (s, e, (v / d)%R)) (combine (measures file r t) (tl (measures file r t))).

(** A measure of [r] and [t] is active inside slice [k]. *)
Definition file_measured (file : list pjline) (t0 t1 : R) (n r t k : Z) : Prop :=
  1 <= k <= n /\ exists s e y x, In (s, e, y) (rates file r t) /\ (s <= x <= e)%R /\ (slice_lo t0 t1 n k < x < slice_hi t0 t1 n k)%R.

(** The mean rate between [lo] and [hi], weighted by time. *)
Definition file_mean (file : list pjline) (r t : Z) (lo hi : R) : R :=
  (Rsum (fun '(s, e, y) => y * overlap s e lo hi) (rates file r t) / Rsum (fun '(s, e, _) => overlap s e lo hi) (rates file r t))%R.

(** [y] is the value of the counter in the slice: its mean rate; 0 where nothing is measured, and instead of a negative mean. *)
Definition file_counter (file : list pjline) (t0 t1 : R) (n r t k : Z) (y : R) : Prop :=
  (file_measured file t0 t1 n r t k /\ y = Rmax 0 (file_mean file r t (slice_lo t0 t1 n k) (slice_hi t0 t1 n k))) \/
  (~ file_measured file t0 t1 n r t k /\ y = 0%R).
