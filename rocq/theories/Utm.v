(** * UpperTriangularMatrix with 32-bit unsigned index arithmetic. *)
From Verif Require Import Base.

(** [unsigned int] wrap-around. *)
Definition two32 : Z := 4294967296.
Definition wrap (x : Z) : Z := x mod two32.

(** src/lpaggreg/headers/uppertriangularmatrix.h:13-29. [getSize()] is [u_size], [getElements()] is [u_elements]
    (src/lpaggreg/sources/uppertriangularmatrix.cpp:3-13). *)
Record utm (X : Type) : Type := mkU { u_size : Z; u_elements : Z; u_data : list X }.
Arguments u_size {X} u.
Arguments u_elements {X} u.
Arguments u_data {X} u.
Arguments mkU {X} u_size u_elements u_data.

(** [((size+1)*size/2)] with unsigned [size] (src/lpaggreg/sources/uppertriangularmatrix.cpp:16-44). *)
Definition u_count (size : Z) : Z := wrap (wrap (size + 1) * size) / 2.

(** src/lpaggreg/sources/uppertriangularmatrix.cpp:15-44, all constructors: every cell gets the initial value
    (0, a fresh Quality(0,0), a fresh Tradeoff(0) or the given value). *)
Definition u_new {X : Type} (size : Z) (x : X) : utm X :=
  mkU size (u_count size) (vrep (u_count size) x).

(** [(j-i)*size-(j-i)*((j-i)-1)/2+i], all operations on 32-bit unsigned
    (src/lpaggreg/sources/uppertriangularmatrix.cpp:49 and 56). *)
Definition u_index (size i j : Z) : Z :=
  let d := wrap (wrap j - wrap i) in
  wrap (wrap (wrap (d * wrap size) - wrap (d * wrap (d - 1)) / 2) + wrap i).

(** src/lpaggreg/sources/uppertriangularmatrix.cpp:47-50 [operator()(i,j)]. *)
Definition u_get {X : Type} (u : utm X) (i j : Z) : res X := vget (u_data u) (u_index (u_size u) i j).

(** src/lpaggreg/sources/uppertriangularmatrix.cpp:53-57 [operator()(i,j,value)]. *)
Definition u_set {X : Type} (u : utm X) (i j : Z) (x : X) : res (utm X) :=
  let* d := vset (u_data u) (u_index (u_size u) i j) x in
  Ok (mkU (u_size u) (u_elements u) d).

(** src/lpaggreg/sources/uppertriangularmatrix.cpp:59-60 [operator[](i)]; the argument is unsigned. *)
Definition u_at {X : Type} (u : utm X) (i : Z) : res X := vget (u_data u) (wrap i).
Definition u_put {X : Type} (u : utm X) (i : Z) (x : X) : res (utm X) :=
  let* d := vset (u_data u) (wrap i) x in
  Ok (mkU (u_size u) (u_elements u) d).

(** [ms[h]->operator()(i,j)] and [ms[h]->operator()(i,j,x)] on a vector of matrices. *)
Definition mm_get {X : Type} (ms : list (utm X)) (h i j : Z) : res X :=
  let* m := vget ms h in u_get m i j.
Definition mm_set {X : Type} (ms : list (utm X)) (h i j : Z) (x : X) : res (list (utm X)) :=
  let* m := vget ms h in
  let* m' := u_set m i j x in
  vset ms h m'.
