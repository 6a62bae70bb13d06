(** * The R functions of R/lpaggreg_pjdump.R that post-process the results: getpath, omacro, hmacro and the data of the plots.

    Numbers are exact (reals). A data frame is the list of its rows. The elements of the dimensions Space, Type and Time of the
    array, which R names by strings, are numbered 1, 2, ... here (the names are assumed distinct); the nodes of the hierarchy are
    numbered likewise, the first ones being the elements of Space, as pjdump2micro returns them.
    [UB] stands for an R error, or for a subscript outside 1..length, whatever R does then. *)
From Coq Require Import Reals.
From Verif Require Import Base Arith RApi SpecR SpecParts.

(** ** getpath *)

(** R/lpaggreg_pjdump.R:216-224: the while loop; [i] and [h] are the R variables, 1-based. *)
Fixpoint gp_loop (fuel : nat) (vh : list Z) (i h : Z) (path : list Z) : res (list Z) :=
  match fuel with
  | O => OutOfFuel
  | S fuel' =>
      if vlen vh <? i then Ok path
      else
        let* x := vget path (h - 1) in
        let* q := vget vh (x - 1) in
        if existsb (Z.eqb q) path then gp_loop fuel' vh i (h + 1) path
        else
          let* path' := vset path (i - 1) q in
          gp_loop fuel' vh (i + 1) (h + 1) path'
  end.

(** R/lpaggreg_pjdump.R:211-226 [getpath]; [leavesize] is at least 1. The path starts as 1..leavesize followed by -1s. *)
Definition r_getpath (vh : list Z) (leavesize : Z) : res (list Z) :=
  gp_loop (S (S (length vh))) vh (leavesize + 1) 1 (zrange 1 (leavesize + 1) ++ vrep (vlen vh - leavesize) (-1)).

(** ** Data frames *)

(** [aggregate(value ~ key, data = rows, FUN = f)]: one row per key that occurs. R orders the rows by key; here they are in order
    of appearance. Without rows, aggregate stops with an error. *)
Definition aggregate {X K : Type} (dec : forall a b : K, {a = b} + {a <> b}) (key : X -> K) (value : X -> R) (f : list R -> R) (rows : list X) : res (list (K * R)) :=
  match rows with
  | [] => UB
  | _ => Ok (map (fun k => (k, f (map value (filter (fun x => if dec (key x) k then true else false) rows)))) (nodup dec (map key rows)))
  end.

Definition dec3 (a b : Z * Z * Z) : {a = b} + {a <> b}.
Proof. repeat decide equality. Defined.
Definition dec4 (a b : Z * Z * Z * Z) : {a = b} + {a <> b}.
Proof. repeat decide equality. Defined.

(** R's [sum] and [mean] of a numeric vector. *)
Definition r_sum (l : list R) : R := Rsum (fun v => v) l.
Definition r_mean (l : list R) : R := (r_sum l / IZR (vlen l))%R.

(** reshape2's [melt] of a 3-dimensional array (R/lpaggreg_pjdump.R:230, 243): one row (Space, Type, Time, value) per element, in
    memory order, Space fastest. *)
Definition r_melt (micro : rarray RA) : res (list (Z * Z * Z * R)) :=
  match ra_dim micro with
  | [d0; d1; d2] => mmap (fun '(k, j, i) => let* v := r_at micro i j k in Ok (i, j, k, v)) (list_prod (list_prod (upto d2) (upto d1)) (upto d0))
  | _ => UB
  end.

(** ** omacro *)

(** A row of dfdata in omacro. *)
Record orow : Type := mkOW { ow_space : Z; ow_type : Z; ow_time : Z; ow_value : R; ow_start : Z; ow_end : Z }.

(** R/lpaggreg_pjdump.R:234-235: the two assignments for one row (Start, End) of df, seen from one row of dfdata. *)
Definition om_mark (se : Z * Z) (w : orow) : orow :=
  if (fst se <=? ow_time w) && (ow_time w <=? snd se)
  then mkOW (ow_space w) (ow_type w) (ow_time w) (ow_value w) (fst se) (snd se) else w.

(** R/lpaggreg_pjdump.R:228-239 [omacro]. The first argument is the data frame Partitions of oaggregate. When no row has the parameter
    [p], the loop over 1:nrow(df) runs with i=1 and i=0 and stops with an error. *)
Definition r_omacro (df : list (R * (Z * Z * R * R))) (micro : rarray RA) (p : R) : res (list (Z * Z * Z * Z * R)) :=
  let df := rows_at RA p df in
  let* m := r_melt micro in
  let dfdata := map (fun '(i, j, k, v) => mkOW i j k v (-1) (-1)) m in
  match df with
  | [] => UB
  | _ =>
      let dfdata := fold_left (fun d '(s, e, _, _) => map (om_mark (s, e)) d) df dfdata in
      aggregate dec4 (fun w => (ow_space w, ow_type w, ow_start w, ow_end w)) ow_value r_mean dfdata
  end.

(** R/lpaggreg_pjdump.R:281-282: the data of oplot_stacked_state: one bar per (Type, Start, End), with its height and its width
    (column Duration). *)
Definition r_ostacked (agg : list (Z * Z * Z * Z * R)) : res (list (Z * Z * Z * R * Z)) :=
  let* a := aggregate dec3 (fun '(_, t, s, e, _) => (t, s, e)) (fun '(_, _, _, _, v) => v) r_mean agg in
  Ok (map (fun '(t, s, e, v) => (t, s, e, v, e - s + 1)) a).

(** ** hmacro *)

(** A row of dfdata in hmacro. *)
Record hrow : Type := mkHW { hw_space : Z; hw_type : Z; hw_time : Z; hw_value : R; hw_parent : Z }.

(** R/lpaggreg_pjdump.R:252-255: the rows of Space [x] get the Parent [q], and are copied to the end with Space [q]. *)
Definition hm_copy (x q : Z) (d : list hrow) : list hrow :=
  let d := map (fun w => if hw_space w =? x then mkHW (hw_space w) (hw_type w) (hw_time w) (hw_value w) q else w) d in
  let d2 := map (fun w => mkHW q (hw_type w) (hw_time w) (hw_value w) (hw_parent w)) (filter (fun w => hw_space w =? x) d) in
  d ++ d2.

(** R/lpaggreg_pjdump.R:251-256: the loop over 1:(length(path)-1). The name of node 0 (the root's parent) is character(0), and
    assigning it is an error. *)
Definition hm_spread (vh path : list Z) (d : list hrow) : res (list hrow) :=
  if vlen path <? 2 then UB
  else mfold (fun h d =>
    let* x := vget path (h - 1) in
    let* q := vget vh (x - 1) in
    let* _ := vget vh (q - 1) in
    Ok (hm_copy x q d)) (zrange 1 (vlen path)) d.

(** R/lpaggreg_pjdump.R:241-263 [hmacro]. The first argument is the data frame Partitions of haggregate; the rows of the result are
    (Space, Type, Time, Parent, value, Size). *)
Definition r_hmacro (df : list (R * (Z * Z * R * R))) (micro : rarray RA) (vh : list Z) (p : R) : res (list (Z * Z * Z * Z * R * Z)) :=
  let df := rows_at RA p df in
  let* m := r_melt micro in
  let leavesize := vlen (nodup Z.eq_dec (map (fun '(i, _, _, _) => i) m)) in
  let dfdata := map (fun '(i, j, k, v) => mkHW i j k v 0) m in
  match df with
  | [] => UB
  | _ =>
      let* path := r_getpath vh leavesize in
      let* dfdata := hm_spread vh path dfdata in
      let agg := filter (fun w => existsb (Z.eqb (hw_space w)) (map (fun '(nd, _, _, _) => nd) df)) dfdata in
      let* agg := aggregate dec4 (fun w => (hw_space w, hw_type w, hw_time w, hw_parent w)) hw_value r_sum agg in
      Ok (flat_map (fun '(sp, ty, ti, pa, v) => map (fun '(_, sz, _, _) => (sp, ty, ti, pa, v, sz)) (filter (fun '(nd, _, _, _) => nd =? sp) df)) agg)
  end.

(** R/lpaggreg_pjdump.R:293: the data of hplot_treemap_state: one area per (Space, Type, Parent). *)
Definition r_htree_state (agg : list (Z * Z * Z * Z * R * Z)) : res (list (Z * Z * Z * R)) :=
  aggregate dec3 (fun '(sp, ty, _, pa, _, _) => (sp, ty, pa)) (fun '(_, _, _, _, v, _) => v) r_mean agg.

(** R/lpaggreg_pjdump.R:300-301: the data of hplot_treemap_perfcounter: (Space, Type, Size, Parent) and the value per leaf. *)
Definition r_htree_counter (agg : list (Z * Z * Z * Z * R * Z)) : res (list (Z * Z * Z * Z * R)) :=
  let* a := aggregate dec4 (fun '(sp, ty, _, pa, _, sz) => (sp, ty, sz, pa)) (fun '(_, _, _, _, v, _) => v) r_mean agg in
  Ok (map (fun '(sp, ty, sz, pa, v) => (sp, ty, sz, pa, (v / IZR sz)%R)) a).
