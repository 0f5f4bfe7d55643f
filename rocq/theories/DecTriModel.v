(** The coordinates of the triangles of a matrix: lib/Dialect/Torch/Transforms/DecomposeComplexOps.cpp
    (dco), getTrilSizes, getTriuSizes, DecomposeAtenTriuIndicesOp and DecomposeAtenTrilIndicesOp.

    A pattern answers with [None] if it does not apply. The tensors that it creates all have one axis,
    and are written as lists; the result of aten.stack is the list of its two rows. The float64
    computations are modelled as computations on real numbers, without rounding: every number there is
    a half of an integer, or the square root of one, so that floor(a/2 + sqrt(d/4)) is computed on
    integers (see DecTriSpec.v for what the floors are). int64 is not bounded. *)
From Coq Require Import ZArith Bool List.
From Verif Require Import Prelude.
From Verif Require DtypeModel.
Import ListNotations.
Open Scope Z_scope.

(** dco l.781-816. The division is C++'s, which truncates. *)
Definition tril_sizes (row col offset : Z) : Z * Z * Z :=
  if (row =? 0) || (col =? 0) then (0, 0, 0)
  else
    let m_first_row :=
      if offset >? 0 then (if col <? offset + 1 then col else offset + 1)
      else (if row + offset >? 0 then 1 else 0) in
    let minimum := if col <? row + offset then col else row + offset in
    let m_last_row := if minimum >? 0 then minimum else 0 in
    let minimum := if row <? row + offset then row else row + offset in
    let n_row_all := if minimum >? 0 then minimum else 0 in
    let n_row_trapezoid := m_last_row - m_first_row + 1 in
    let trapezoid_size := Z.quot ((m_first_row + m_last_row) * n_row_trapezoid) 2 in
    let diff_row := n_row_all - n_row_trapezoid in
    let rectangle_size := if diff_row * col >? 0 then diff_row * col else 0 in
    (trapezoid_size, rectangle_size, m_first_row).

(** dco l.827-853 *)
Definition triu_sizes (row col offset : Z) : Z * Z * Z :=
  if (row =? 0) || (col =? 0) then (0, 0, 0)
  else
    let maximum := if col - offset >? 0 then col - offset else 0 in
    let m_first_row := if offset >? 0 then maximum else col in
    let minimum := if row <? - offset then row else - offset in
    let rectangle_size := if minimum * col >? 0 then minimum * col else 0 in
    let '(trapezoid_size_tril, rectangle_size_tril, _) := tril_sizes row col (offset - 1) in
    let triu_size := row * col - (trapezoid_size_tril + rectangle_size_tril) in
    (triu_size - rectangle_size, rectangle_size, m_first_row).

(** Doubled: floor((a - sqrt d) / 2) and floor((a + sqrt d) / 2) for integers [a] and [d]. *)
Definition floor_minus_root (a d : Z) : Z := (a - Z.sqrt_up d) / 2.
Definition floor_plus_root (a d : Z) : Z := (a + Z.sqrt d) / 2.

Definition arange (n : Z) : list Z := zrange 0 n.

(** What the patterns are given: [None] stands for an operand that is not a constant. *)
Record request := { row : option Z; col : option Z; offset : option Z; dtype : option Z }.
(** getTypeForScalarType (DtypeModel.v, property C51) on a code: whether there is such a type. *)
Definition has_type (code : Z) : bool :=
  match DtypeModel.decode code with
  | Some t => match DtypeModel.getTypeForScalarType t with Some _ => true | None => false end
  | None => false
  end.

(** dco l.945-958: b = -1/2 - m, the row is floor(-sqrt(b * b - 2 x) - b); doubled, B = -1 - 2 m. *)
Definition triu_row (m x : Z) : Z := let b := -1 - 2 * m in floor_minus_root (- b) (b * b - 8 * x).
(** dco l.962-983: floor(x + ((2 m - 1) - r) * r * (-1/2)) *)
Definition triu_col (m x r : Z) : Z := (2 * x - (2 * m - 1 - r) * r) / 2.

(** dco l.858-1067 *)
Definition triu_rows_cols (row col offset : Z) : list (list Z) :=
  let '(trapezoid_size, rectangle_size, m_first_row) := triu_sizes row col offset in
  let col_offset := if offset >? 0 then offset else 0 in
  let xs2 := arange rectangle_size in
  let row_inds2 := map (fun x => x / col) xs2 in
  let col_inds2 := map (fun x => x mod col) xs2 in
  let xs1 := arange trapezoid_size in
  let row_inds1 := map (triu_row m_first_row) xs1 in
  let col_inds1 := map (fun x => triu_col m_first_row x (triu_row m_first_row x)) xs1 in
  let row_inds1 := if negb (col =? 0) then map (fun r => r + Z.quot rectangle_size col) row_inds1 else row_inds1 in
  let col_inds1 := map (fun c => c + col_offset) col_inds1 in
  [row_inds2 ++ row_inds1; col_inds2 ++ col_inds1].
Definition dec_triu_indices (q : request) : option (list (list Z)) :=
  do row <- q.(row); do col <- q.(col); do offset <- q.(offset); do code <- q.(dtype);
  if has_type code then Some (triu_rows_cols row col offset) else None.

(** dco l.1154-1169: b = m - 1/2, the row is floor(sqrt(b * b + 2 x) - b); doubled, B = 2 m - 1. *)
Definition tril_row (m x : Z) : Z := let b := 2 * m - 1 in floor_plus_root (- b) (b * b + 8 * x).
(** dco l.1173-1190: floor(x - (2 m - 1 + r) * r * (1/2)) *)
Definition tril_col (m x r : Z) : Z := (2 * x - (2 * m - 1 + r) * r) / 2.

(** dco l.1073-1274 *)
Definition tril_rows_cols (row col offset : Z) : list (list Z) :=
  let '(trapezoid_size, rectangle_size, m_first_row) := tril_sizes row col offset in
  let row_offset := if - offset >? 0 then - offset else 0 in
  let xs1 := arange trapezoid_size in
  let row_inds1 := map (fun x => tril_row m_first_row x + row_offset) xs1 in
  let col_inds1 := map (fun x => tril_col m_first_row x (tril_row m_first_row x)) xs1 in
  let xs2 := arange rectangle_size in
  let row_inds2 := map (fun x => x / col + (col - m_first_row + 1 + row_offset)) xs2 in
  let col_inds2 := map (fun x => x mod col) xs2 in
  [row_inds1 ++ row_inds2; col_inds1 ++ col_inds2].
Definition dec_tril_indices (q : request) : option (list (list Z)) :=
  do row <- q.(row); do col <- q.(col); do offset <- q.(offset); do code <- q.(dtype);
  if has_type code then Some (tril_rows_cols row col offset) else None.

(** dco l.1061-1062 and 1266-1267: the type that the new operation is given. Its dtype is int64
    whatever [dtype] says (11 lines above, aten.to.dtype is given it as well). *)
Definition declared (sizes : Z * Z * Z) : list Z * Z := let '(t, r, _) := sizes in ([2; r + t], 4).
Definition declared_triu (row col offset : Z) : list Z * Z := declared (triu_sizes row col offset).
Definition declared_tril (row col offset : Z) : list Z * Z := declared (tril_sizes row col offset).
