(** Operations that are replaced by comparisons with a range, by a scatter into a slice, or by
    operations on a diagonal: lib/Dialect/Torch/Transforms/DecomposeComplexOps.cpp (dco).

    A pattern answers with [None] if it does not apply, and otherwise with the value of the operations
    it creates (TensorOps.v, and the operations below; an inner [None] is an error when they run).
    Ranks are taken to be known, and dimensions to be constants. Element types, and the types given to
    the results, are not modelled; [aten.sigmoid] and [aten.mul.Tensor] are any functions of elements,
    and [aten.sum] adds the elements in their order. *)
From Coq Require Import ZArith List Lia Bool.
From Verif Require Import Prelude TensorOps NumOps DecMoveSpec.
Import ListNotations.
Open Scope Z_scope.

(** * The operations that the patterns create, with PyTorch's meaning *)
(** aten.arange with an end: 0, 1, ... below it. *)
Definition arange (n : Z) : option (tensor Z) :=
  if n <? 0 then None else Some {| sizes := [n]; elt := fun ix => get ix 0 |}.
(** aten.slice_scatter: the source must have the sizes of the slice. *)
Definition slice_scatter {A} (t src : tensor A) (d : Z) (start stop : option Z) (step : Z) : option (tensor A) :=
  do k <- axis (rank t) d;
  if step <=? 0 then None
  else
    let n := get (sizes t) k in
    let s := bound n start 0 in
    let e := bound n stop n in
    let len := if s <? e then (e - s + step - 1) / step else 0 in
    if sizes_eqb (sizes src) (put (sizes t) k len) then
      Some {| sizes := sizes t;
              elt := fun ix => let i := get ix k in
                if (s <=? i) && (i <? e) && ((i - s) mod step =? 0) then elt src (put ix k ((i - s) / step)) else elt t ix |}
    else None.
(** aten.diagonal of a matrix. *)
Definition diagonal {A} (t : tensor A) (offset d1 d2 : Z) : option (tensor A) :=
  if rank t =? 2 then
    do a <- axis 2 d1; do b <- axis 2 d2;
    if Nat.eqb a b then None
    else
      let len := Z.max 0 (Z.min (get (sizes t) a - Z.max 0 (- offset)) (get (sizes t) b - Z.max 0 offset)) in
      Some {| sizes := [len]; elt := fun ix => elt t (put (put [0; 0] a (get ix 0 + Z.max 0 (- offset))) b (get ix 0 + Z.max 0 offset)) |}
  else None.
(** aten.diag_embed of a vector. *)
Definition diag_embed {A} (zero : A) (t : tensor A) (offset d1 d2 : Z) : option (tensor A) :=
  if rank t =? 1 then
    do a <- axis 2 d1; do b <- axis 2 d2;
    if Nat.eqb a b then None
    else
      let n := get (sizes t) 0 + Z.abs offset in
      Some {| sizes := [n; n]; elt := fun ix => if get ix b - get ix a =? offset then elt t [Z.min (get ix a) (get ix b)] else zero |}
  else None.

(** * The patterns *)
(** DecomposeAtenSelectScatterOp, dco l.10460-10487. *)
Definition dec_select_scatter {A} (t src : tensor A) (dim index : Z) : option (tensor A) :=
  do u <- unsqueeze src dim; slice_scatter t u dim (Some index) (Some (index + 1)) 1.
(** DecomposeAtenGluOp, dco l.1640-1680. *)
Definition dec_glu {A} (sigmoid : A -> A) (mul : A -> A -> A) (t : tensor A) (dim : Z) : option (tensor A) :=
  do k <- axis (rank t) dim;
  let n := get (sizes t) k in
  assert (n mod 2 =? 0);
  do a <- torch_narrow t dim 0 (n / 2);
  do b <- torch_narrow t dim (n / 2) (n / 2);
  map2 mul a (map1 sigmoid b).
(** DecomposeAtenEyeMOp, dco l.1715-1795; the result is [one] or [zero] in its own element type. *)
Definition dec_eye_m {A} (zero one : A) (n m : Z) : option (tensor A) :=
  do r <- arange n; do c <- arange m; do u <- unsqueeze r (-1);
  do e <- map2 Z.eqb u c; Some (map1 (fun b : bool => if b then one else zero) e).
(** DecomposeAtenEyeOp, dco l.1699-1712. *)
Definition dec_eye {A} (zero one : A) (n : Z) : option (tensor A) := dec_eye_m zero one n n.
(** DecomposeAtenOneHotOp, dco l.11789-11840. *)
Definition dec_one_hot (t : tensor Z) (num : Z) : option (tensor Z) :=
  do c <- arange num; do u <- unsqueeze t (rank t);
  do e <- map2 Z.eqb u c; Some (map1 (fun b : bool => if b then 1 else 0) e).
(** DecomposeAtenDiagOp, dco l.2209-2246. *)
Definition dec_diag {A} (zero : A) (t : tensor A) (offset : Z) : option (option (tensor A)) :=
  if rank t =? 1 then Some (diag_embed zero t offset (-2) (-1))
  else if rank t =? 2 then Some (diagonal t offset 0 1)
  else None.
(** DecomposeAtenTraceOp, dco l.2257-2298. *)
Definition total {A} (add : A -> A -> A) (zero : A) (t : tensor A) : A :=
  fold_right add zero (map (fun i => elt t [i]) (zrange 0 (get (sizes t) 0))).
Definition dec_trace {A} (add : A -> A -> A) (zero : A) (t : tensor A) : option (option A) :=
  if rank t =? 2 then Some (option_map (total add zero) (diagonal t 0 0 1)) else None.
