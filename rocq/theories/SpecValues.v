(** * Specification vocabulary: shapes of the data containers (no proofs). *)
From Coq Require Import Reals.
From Verif Require Import Base Arith Hierarchy Values SpecTree SpecParts SpecData.

(** [v] holds I x J x K rows (a dimension the class does not have is 1) of [ov_osize v] values. *)
Definition ov_shaped {A} (v : ovalues A) (I J K : Z) : Prop :=
  0 <= I /\ 0 <= J /\ 0 <= K /\ 0 <= ov_osize v /\ ov_vsize v = I * J * K /\
  match ov_data v with
  | ON1 _ d => I = 1 /\ J = 1 /\ K = 1 /\ vlen d = ov_osize v
  | ON2 _ d => J = 1 /\ K = 1 /\ vlen d = I /\ rect2 d (ov_osize v)
  | ON3 _ i j d => i = I /\ j = J /\ K = 1 /\ vlen d = I /\ rect3 d J (ov_osize v)
  | ON4 _ i j k d => i = I /\ j = J /\ k = K /\ vlen d = I /\ rect4 d J K (ov_osize v)
  end.

(** Number of dimensions of the class: OValuesN1 .. OValuesN4. *)
Definition ov_dim {A} (v : ovalues A) : Z := match ov_data v with ON1 _ _ => 1 | ON2 _ _ => 2 | ON3 _ _ _ _ => 3 | ON4 _ _ _ _ _ => 4 end.

(** [v] holds, for each of its leaves, I x J x K values. *)
Definition hv_shaped {A} (v : hvalues A) (I J K : Z) : Prop :=
  0 <= I /\ 0 <= J /\ 0 <= K /\ 0 <= m_leaves (hv_meta v) /\ hv_vsize v = I * J * K /\
  match hv_data v with
  | HN1 _ d => I = 1 /\ J = 1 /\ K = 1 /\ vlen d = m_leaves (hv_meta v)
  | HN2 _ d => J = 1 /\ K = 1 /\ vlen d = m_leaves (hv_meta v) /\ rect2 d I
  | HN3 _ i j d => i = I /\ j = J /\ K = 1 /\ vlen d = m_leaves (hv_meta v) /\ rect3 d I J
  | HN4 _ i j k d => i = I /\ j = J /\ k = K /\ vlen d = m_leaves (hv_meta v) /\ rect4 d I J K
  end.

Definition hv_dim {A} (v : hvalues A) : Z := match hv_data v with HN1 _ _ => 1 | HN2 _ _ => 2 | HN3 _ _ _ _ => 3 | HN4 _ _ _ _ _ => 4 end.

(** [v] holds, for each of its leaves, I x J rows of [dv_osize v] values. *)
Definition dv_shaped {A} (v : dvalues A) (I J : Z) : Prop :=
  0 <= I /\ 0 <= J /\ 0 <= m_leaves (dv_meta v) /\ 0 <= dv_osize v /\ dv_vsize v = I * J /\
  match dv_data v with
  | DN2 _ d => I = 1 /\ J = 1 /\ vlen d = m_leaves (dv_meta v) /\ rect2 d (dv_osize v)
  | DN3 _ d => J = 1 /\ vlen d = m_leaves (dv_meta v) /\ rect3 d I (dv_osize v)
  | DN4 _ i j d => i = I /\ j = J /\ vlen d = m_leaves (dv_meta v) /\ rect4 d I J (dv_osize v)
  end.

Definition dv_dim {A} (v : dvalues A) : Z := match dv_data v with DN2 _ _ => 2 | DN3 _ _ => 3 | DN4 _ _ _ _ => 4 end.

(** One write: coordinates and value. *)
Definition write4 (A : arith) : Type := (Z * Z * Z * Z * num A)%type.
Definition w_at {A} (w : write4 A) : Z * Z * Z * Z := fst w.

(** The value a history of writes (oldest first) leaves at a position: that of the latest write there, if any. *)
Fixpoint latest {A} (k : Z * Z * Z * Z) (ws : list (write4 A)) : option (num A) :=
  match ws with
  | [] => None
  | (k', x) :: r => match latest k r with
                    | Some y => Some y
                    | None => if (let '(a, b, c, d) := k in let '(a', b', c', d') := k' in
                                  (a =? a') && (b =? b') && (c =? c') && (d =? d')) then Some x else None
                    end
  end.
