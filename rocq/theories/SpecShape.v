(** * Specification vocabulary: the tables a qualities object holds, without and with normalisation (no proofs). *)
From Verif Require Import Base Arith Quality Utm Hierarchy Values Qualities.

Section M.
Context (A : arith).

(** computeQualities() on a fresh object; the table it holds then (and the hierarchy). *)
Definition o_table (v : ovalues A) : res (option (utm (quality A))) := let* o := oq_compute A (oq_ofValues A v) in Ok (oq_table o).
Definition h_table (r : res (hvalues A)) : res (option (list (quality A)) * meta) := let* v := r in let* o := hq_compute A (hq_ofValues A v) in Ok (hq_table o, hq_meta o).
Definition d_table (r : res (dvalues A)) : res (option (list (utm (quality A))) * meta) := let* v := r in let* o := dq_compute A (dq_ofValues A v) in Ok (dq_table o, dq_meta o).

(** computeQualities() and normalize(). *)
Definition o_ntable (v : ovalues A) : res (option (utm (quality A))) :=
  let* o := oq_compute A (oq_ofValues A v) in let* o := oq_normalize A o in Ok (oq_table o).
Definition h_ntable (r : res (hvalues A)) : res (option (list (quality A)) * meta) :=
  let* v := r in let* o := hq_compute A (hq_ofValues A v) in let* o := hq_normalize A o in Ok (hq_table o, hq_meta o).
Definition d_ntable (r : res (dvalues A)) : res (option (list (utm (quality A))) * meta) :=
  let* v := r in let* o := dq_compute A (dq_ofValues A v) in let* o := dq_normalize A o in Ok (dq_table o, dq_meta o).
End M.
