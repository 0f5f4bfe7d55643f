(** What PyTorch documents for the operations of DecFillModel.v. *)
From Coq Require Import ZArith List Lia Bool.
From Verif Require Import Prelude TensorOps.
Import ListNotations.
Open Scope Z_scope.

(** torch.select_scatter: position [index] of an axis comes from the source, the others are kept. *)
Definition torch_select_scatter {A} (t src : tensor A) (dim index : Z) : option (tensor A) :=
  do k <- axis (rank t) dim;
  let n := get (sizes t) k in
  if (- n <=? index) && (index <? n) && sizes_eqb (sizes src) (remove k (sizes t)) then
    let at_ := if index <? 0 then index + n else index in
    Some {| sizes := sizes t; elt := fun ix => if get ix k =? at_ then elt src (remove k ix) else elt t ix |}
  else None.
(** torch.nn.functional.glu: the first half times the sigmoid of the second. *)
Definition torch_glu {A} (sigmoid : A -> A) (mul : A -> A -> A) (t : tensor A) (dim : Z) : option (tensor A) :=
  do k <- axis (rank t) dim;
  let n := get (sizes t) k in
  if Z.even n then
    Some {| sizes := put (sizes t) k (n / 2); elt := fun ix => mul (elt t ix) (sigmoid (elt t (put ix k (get ix k + n / 2)))) |}
  else None.
(** [t] is the matrix of n rows and m columns with ones on its diagonal. *)
Definition is_eye {A} (zero one : A) (n m : Z) (t : tensor A) : Prop :=
  sizes t = [n; m] /\ forall i j, 0 <= i < n -> 0 <= j < m -> (i = j -> elt t [i; j] = one) /\ (i <> j -> elt t [i; j] = zero).
(** [u] has, for each element of [t], a vector of [num] numbers which is 1 at the element and 0 elsewhere. *)
Definition is_one_hot (t : tensor Z) (num : Z) (u : tensor Z) : Prop :=
  sizes u = sizes t ++ [num] /\
  forall ix c, within (sizes t) ix -> 0 <= c < num -> elt u (ix ++ [c]) = if elt t ix =? c then 1 else 0.
(** [v] is diagonal number [offset] of the matrix [t]: its elements t[i][i + offset], from the first one that exists. *)
Definition is_diagonal {A} (t : tensor A) (offset : Z) (v : tensor A) : Prop :=
  exists len, sizes v = [len] /\ 0 <= len /\
  let i0 := Z.max 0 (- offset) in
  (forall i, 0 <= i -> (i < len <-> i0 + i < get (sizes t) 0 /\ i0 + i + offset < get (sizes t) 1)) /\
  forall i, 0 <= i < len -> elt v [i] = elt t [i0 + i; i0 + i + offset].
(** [u] is the square matrix whose diagonal number [offset] is the vector [t], and which is zero elsewhere. *)
Definition is_diag_matrix {A} (zero : A) (t : tensor A) (offset : Z) (u : tensor A) : Prop :=
  let n := get (sizes t) 0 + Z.abs offset in
  sizes u = [n; n] /\ is_diagonal u offset t /\ forall i j, 0 <= i < n -> 0 <= j < n -> j <> i + offset -> elt u [i; j] = zero.
