(** * Properties C01, C02: the triangular matrix. *)
From Coq Require Import Lia.
From Verif Require Import Base Utm UtmProofs.

(** C01: a new matrix has n(n+1)/2 cells, all readable and equal to the initial value. *)
Theorem C01_new : forall X n (x0 : X), 0 <= n <= 65535 ->
  utm_shape (u_new n x0) n /\ forall i j, 0 <= i <= j -> j < n -> u_get (u_new n x0) i j = Ok x0.
Proof. exact utm_new_prf. Qed.
Print Assumptions C01_new.

(** C01: a write changes exactly its own cell and stays inside the storage. *)
Theorem C01_write : forall X (u : utm X) n i j x, 0 <= n <= 65535 -> utm_shape u n -> 0 <= i <= j -> j < n ->
  exists u', u_set u i j x = Ok u' /\ utm_shape u' n /\ u_elements u' = u_elements u /\
    u_get u' i j = Ok x /\
    forall a b, 0 <= a <= b -> b < n -> (a, b) <> (i, j) ->
      u_get u' a b = u_get u a b /\ exists y, u_get u a b = Ok y.
Proof. exact utm_write_prf. Qed.
Print Assumptions C01_write.

(** C01: after any history of writes a read returns the last value written to that cell. *)
Theorem C01_history : forall X n (x0 : X) ws, 0 <= n <= 65535 ->
  (forall i j x, In (i, j, x) ws -> 0 <= i <= j /\ j < n) ->
  exists u, mfold (fun w u => let '(i, j, x) := w in u_set u i j x) ws (u_new n x0) = Ok u /\
    utm_shape u n /\ forall a b, 0 <= a <= b -> b < n -> u_get u a b = Ok (last_write ws a b x0).
Proof. exact utm_history_prf. Qed.
Print Assumptions C01_history.

(** C01: the cell (0,n-1) is the last one in storage. *)
Theorem C01_last : forall X (u : utm X) n, 0 < n <= 65535 -> utm_shape u n ->
  vget (u_data u) (u_elements u - 1) = u_get u 0 (n - 1).
Proof. exact utm_last_prf. Qed.
Print Assumptions C01_last.

(** C02: from size 65536 on the cells are not independent: some write goes outside the storage or changes
    another cell. *)
Theorem C02_large : forall X (n : Z) (x0 x : X), 65536 <= n -> x <> x0 ->
  ~ (forall i j, 0 <= i <= j -> j < n ->
      exists u', u_set (u_new n x0) i j x = Ok u' /\ u_get u' i j = Ok x /\
        forall a b, 0 <= a <= b -> b < n -> (a, b) <> (i, j) -> u_get u' a b = Ok x0).
Proof. exact utm_large_prf. Qed.
Print Assumptions C02_large.

(** C02: at 65536 exactly, only 32768 cells are allocated and reading (0,1) is undefined behaviour. *)
Theorem C02_65536_refuted : forall X (x0 : X),
  u_elements (u_new 65536 x0) = 32768 /\ u_get (u_new 65536 x0) 0 1 = UB.
Proof. exact utm_65536_prf. Qed.
Print Assumptions C02_65536_refuted.

(** The hypotheses are met by a 3x3 matrix with one cell written. *)
Example C01_nonvacuous : exists u, u_set (u_new 3 0) 0 2 7 = Ok u /\ utm_shape u 3 /\
  u_get u 0 2 = Ok 7 /\ u_get u 1 2 = Ok 0 /\ u_elements u = 6.
Proof.
  destruct (C01_write Z (u_new 3 0) 3 0 2 7 ltac:(lia) (proj1 (C01_new Z 3 0 ltac:(lia))) ltac:(lia) ltac:(lia))
    as (u & E & S & L & G & O). exists u. repeat split; auto; try apply S; reflexivity || auto.
  apply (O 1 2); try lia. intro K; inversion K.
Qed.
