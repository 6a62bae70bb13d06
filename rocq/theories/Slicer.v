(** * R/lpaggreg_pjdump.R: from a trace to the array of oaggregate, haggregate and daggregate (slicerstate, slicerprvcounter,
    parsepjdump, pjdump2micro).

    Numbers are exact (reals). A data frame is the list of its rows. The names of resources, types and state values, which are strings
    (factors) in R, are integers here, numbered in the order in which R sorts them. The columns of a data frame that no later step reads
    (Depth, N) are left out. [UB] stands for an R error, or for a NaN or an infinity in the result. *)
From Coq Require Import Reals.
From Verif Require Import Base Arith RApi SpecR SpecParts RHelpers.

(** ** Trace rows *)

Inductive nature : Type := NState | NVariable.

(** A row of the data frame [data] of parsepjdump (the column Value holds a name for a State, a number for a Variable). *)
Record drow : Type := mkDR { dr_nature : nature; dr_res : Z; dr_type : Z; dr_start : R; dr_end : R; dr_dur : R; dr_state : Z; dr_num : R }.

(** A line of the pjdump file: a State (ResourceId, Type, Start, End, Duration, Value), a Variable (ResourceId, Type, Start, End, Duration,
    value in the seventh column), a Container (parent, name), or anything else (its Nature is none of the three). *)
Inductive pjline : Type :=
| LState (res type : Z) (s e d : R) (value : Z)
| LVariable (res type : Z) (s e d : R) (value : R)
| LContainer (parent name : Z)
| LOther.

(** R/lpaggreg_pjdump.R:117-145 [parsepjdump], after read.table: the data rows and the rows (ResourceId, ParentId) of [resources]. The
    lines of other natures stay in [data], where pjdump2micro never selects them; they are dropped here. *)
Definition r_parse (file : list pjline) : list drow * list (Z * Z) :=
  (flat_map (fun l => match l with
                      | LState r t s e d v => [mkDR NState r t s e d v 0]
                      | LVariable r t s e d v => [mkDR NVariable r t s e d 0 v]
                      | _ => []
                      end) file,
   flat_map (fun l => match l with LContainer q x => [(x, q)] | _ => [] end) file).

(** ** Minimum and maximum of a vector; of an empty one they are infinite in R *)
Definition r_min (l : list R) : res R := match l with [] => UB | x :: l => Ok (fold_left Rmin l x) end.
Definition r_max (l : list R) : res R := match l with [] => UB | x :: l => Ok (fold_left Rmax l x) end.

(** ** slicerstate *)

(** R/lpaggreg_pjdump.R:61: the columns TsStart and TsEnd of [slices]. *)
Definition ts_start (slicets : R) (k : Z) : R := (IZR (k - 1) * slicets)%R.
Definition ts_end (slicets : R) (k : Z) : R := (IZR k * slicets)%R.

(** R/lpaggreg_pjdump.R:62-65 and 95-98: the join of the trace with the slices. *)
Definition sl_join (slicets : R) (n : Z) (rows : list drow) : list (drow * Z) :=
  flat_map (fun w => map (fun k => (w, k))
    (filter (fun k => Rltb (ts_start slicets k) (dr_start w + dr_dur w) && Rltb (dr_end w - dr_dur w) (ts_end slicets k)) (zrange 1 (n + 1)))) rows.

(** R/lpaggreg_pjdump.R:68 and 101: TinTS; the groups are those of equal Start, End and SliceId. *)
Definition t_in_ts (slicets : R) (w : drow) (k : Z) : R := (Rmin (dr_end w) (ts_end slicets k) - Rmax (dr_start w) (ts_start slicets k))%R.

(** R/lpaggreg_pjdump.R:57-58 and 87-88. *)
Definition dr_shift (start : R) (w : drow) : drow :=
  mkDR (dr_nature w) (dr_res w) (dr_type w) (dr_start w - start) (dr_end w - start) (dr_dur w) (dr_state w) (dr_num w).

(** R/lpaggreg_pjdump.R:55: the type of a state is its value. *)
Definition dr_typed (w : drow) : drow :=
  mkDR (dr_nature w) (dr_res w) (dr_state w) (dr_start w) (dr_end w) (dr_dur w) (dr_state w) (dr_num w).

(** A row of the data frames [m], [p], [n] and [o]: ResourceId, SliceId, Type, TsStart, TsEnd, Sum (or Mean), Normalized. *)
Record srow : Type := mkSR { sr_res : Z; sr_slice : Z; sr_type : Z; sr_lo : R; sr_hi : R; sr_sum : R; sr_norm : R }.
Definition sr_key (x : srow) : Z * Z * Z := (sr_res x, sr_slice x, sr_type x).

(** The maximum of a column of a group (which is never empty). *)
Definition col_max (f : srow -> R) (rows : list srow) : R := match map f rows with [] => 0%R | x :: l => fold_left Rmax l x end.

(** R/lpaggreg_pjdump.R:72-79 and 105-112: the rows missing in [m] are added with zeros, then the maximum of each group is taken. When [m] is
    empty, 1:max(m$SliceId) is an error. *)
Definition sl_fill (m : list srow) : res (list srow) :=
  match m with
  | [] => UB
  | _ =>
      let last := fold_left Z.max (map sr_slice m) 1 in
      let grid := list_prod (list_prod (nodup Z.eq_dec (map sr_res m)) (zrange 1 (last + 1))) (nodup Z.eq_dec (map sr_type m)) in
      let p := map (fun '(r, k, t) => mkSR r k t 0 0 0 0) grid in
      let n := p ++ m in
      Ok (map (fun key => let g := filter (fun x => if dec3 (sr_key x) key then true else false) n in
                          let '(r, k, t) := key in mkSR r k t (col_max sr_lo g) (col_max sr_hi g) (col_max sr_sum g) (col_max sr_norm g))
              (nodup dec3 (map sr_key n)))
  end.

(** R/lpaggreg_pjdump.R:53-81 [slicerstate]; [n] is timeSliceNumber, at least 1. *)
Definition r_slicerstate (trace : list drow) (n : Z) : res (list srow) :=
  let trace := map dr_typed trace in
  let* start := r_min (map dr_start trace) in
  let trace := map (dr_shift start) trace in
  let* maxts := r_max (map dr_end trace) in
  let slicets := (maxts / IZR n)%R in
  let h := sl_join slicets n trace in
  match h with
  | [] => UB
  | _ =>
      let* m := aggregate dec3 (fun x => (dr_res (fst x), snd x, dr_type (fst x))) (fun x => t_in_ts slicets (fst x) (snd x)) r_sum h in
      sl_fill (map (fun '(r, k, t, s) => mkSR r k t (ts_start slicets k) (ts_end slicets k) s (s / maxts)) m)
  end.

(** ** slicerprvcounter *)

(** R/lpaggreg_pjdump.R:90: every row takes the value of the next row of the same ResourceId and Type; the last one of each is dropped. *)
Fixpoint sl_lead (rows : list drow) : list drow :=
  match rows with
  | [] => []
  | w :: rows' =>
      match find (fun x => (dr_res x =? dr_res w) && (dr_type x =? dr_type w)) rows' with
      | Some x => mkDR (dr_nature w) (dr_res w) (dr_type w) (dr_start w) (dr_end w) (dr_dur w) (dr_state w) (dr_num x) :: sl_lead rows'
      | None => sl_lead rows'
      end
  end.

(** R/lpaggreg_pjdump.R:92. *)
Definition dr_rate (w : drow) : drow :=
  mkDR (dr_nature w) (dr_res w) (dr_type w) (dr_start w) (dr_end w) (dr_dur w) (dr_state w) (dr_num w / dr_dur w).

(** R's [weighted.mean(Value, TinTS)] of the rows of a group. *)
Definition w_mean (slicets : R) (g : list (drow * Z)) : R :=
  (Rsum (fun x => dr_num (fst x) * t_in_ts slicets (fst x) (snd x)) g / Rsum (fun x => t_in_ts slicets (fst x) (snd x)) g)%R.

(** R/lpaggreg_pjdump.R:84-115 [slicerprvcounter]. Only traces whose durations (of the rows not dropped) are positive and equal to End-Start are modelled, and a Type whose
    means add up to 0 gives NaN. *)
Definition r_slicercounter (trace : list drow) (n : Z) : res (list srow) :=
  let* start := r_min (map dr_start trace) in
  let trace := map (dr_shift start) trace in
  let* maxts := r_max (map dr_end trace) in
  let trace := sl_lead trace in
  if forallb (fun w => Rltb 0 (dr_dur w) && Reqb (dr_dur w) (dr_end w - dr_start w)) trace then
    let trace := map dr_rate trace in
    let slicets := (maxts / IZR n)%R in
    let h := sl_join slicets n trace in
    let key := fun x : drow * Z => (dr_res (fst x), snd x, dr_type (fst x)) in
    let m := map (fun kk => let g := filter (fun x => if dec3 (key x) kk then true else false) h in
                            let '(r, k, t) := kk in mkSR r k t (ts_start slicets k) (ts_end slicets k) (w_mean slicets g) (w_mean slicets g))
                 (nodup dec3 (map key h)) in
    let* o := sl_fill m in
    let total := fun t => Rsum sr_norm (filter (fun x => sr_type x =? t) o) in
    if existsb (fun x => Reqb (total (sr_type x)) 0) o then UB
    else Ok (map (fun x => mkSR (sr_res x) (sr_slice x) (sr_type x) (sr_lo x) (sr_hi x) (sr_sum x) (sr_norm x / total (sr_type x))) o)
  else UB.

(** ** pjdump2micro *)

(** R's sort of distinct names. *)
Fixpoint z_insert (x : Z) (l : list Z) : list Z :=
  match l with
  | [] => [x]
  | y :: l' => if x <=? y then x :: l else y :: z_insert x l'
  end.
Definition z_sort (l : list Z) : list Z := fold_right z_insert [] l.

(** R's [match]: the first position, counted from 1. *)
Fixpoint r_match (x : Z) (l : list Z) : res Z :=
  match l with
  | [] => UB
  | y :: l' => if x =? y then Ok 1 else let* i := r_match x l' in Ok (i + 1)
  end.

(** What pjdump2micro returns, with the names of the dimensions of the array and of the elements of the vector. *)
Record micro_model : Type := mkMM { mm_space : list Z; mm_type : list Z; mm_time : list Z; mm_data : rarray RA; mm_nodes : list Z; mm_hierarchy : list Z }.

(** A row of [resources]: ResourceId, ParentId, ParentIndex. *)
Record crow : Type := mkCR { cr_res : Z; cr_parent : Z; cr_index : Z }.

(** R/lpaggreg_pjdump.R:186-188: the loop that sets ParentIndex, for the names in [hierarchy]. *)
Definition pm_index (hierarchy : list Z) (resources : list crow) : res (list crow) :=
  mfold (fun x rs =>
    match find (fun c => cr_res c =? x) rs with
    | None => Ok rs
    | Some c0 =>
        let* i := r_match (cr_parent c0) hierarchy in
        Ok (map (fun c => if cr_res c =? x then mkCR (cr_res c) (cr_parent c) i else c) rs)
    end) hierarchy resources.

(** R/lpaggreg_pjdump.R:182-192: the vector of parents. The first resource becomes the root; a name without a row in [resources] is an error. *)
Definition pm_hierarchy (hierarchy : list Z) (resources : list (Z * Z)) : res (list Z) :=
  let* rs := pm_index hierarchy (map (fun '(x, q) => mkCR x q (-1)) resources) in
  match rs with
  | [] => UB
  | c :: rs' =>
      let rs := mkCR (cr_res c) (cr_parent c) 0 :: rs' in
      mmap (fun x => match find (fun c => cr_res c =? x) rs with None => UB | Some c => Ok (cr_index c) end) hierarchy
  end.

(** R/lpaggreg_pjdump.R:197-205: the array. *)
Definition pm_cube (space type time : list Z) (df : list srow) : res (rarray RA) :=
  let d0 := vlen space in let d1 := vlen type in let d2 := vlen time in
  match df with
  | [] => UB
  | _ =>
      let* data := mfold (fun x data =>
        let* i := r_match (sr_res x) space in
        let* j := r_match (sr_type x) type in
        let* k := r_match (sr_slice x) time in
        vset data ((i - 1) + (j - 1) * d0 + (k - 1) * (d0 * d1)) (sr_norm x)) df (vrep (d0 * d1 * d2) 0%R) in
      Ok (@mkRArr RA data [d0; d1; d2])
  end.

(** R/lpaggreg_pjdump.R:147-209 [pjdump2micro]; [state] is type="State" (otherwise "Counter"), [enable] is enable_hierarchy. *)
Definition r_pjdump2micro (trace : list drow * list (Z * Z)) (n : Z) (state enable : bool) : res micro_model :=
  let* df := if state
             then r_slicerstate (filter (fun w => match dr_nature w with NState => true | _ => false end) (fst trace)) n
             else r_slicercounter (filter (fun w => match dr_nature w with NVariable => true | _ => false end) (fst trace)) n in
  let time := z_sort (nodup Z.eq_dec (map sr_slice df)) in
  let type := z_sort (nodup Z.eq_dec (map sr_type df)) in
  let resources := snd trace in
  let parents := rev (z_sort (nodup Z.eq_dec (map snd resources))) in
  let df := if enable then filter (fun x => negb (existsb (Z.eqb (sr_res x)) parents)) df else df in
  let space := z_sort (nodup Z.eq_dec (map sr_res df)) in
  let nodes := if enable then nodup Z.eq_dec (space ++ parents) else [] in
  let* vh := if enable then pm_hierarchy nodes resources else Ok [0] in
  let* cube := pm_cube space type time df in
  Ok (mkMM space type time cube nodes vh).
