(** The removal of missing indices, and of masks, from aten.index.Tensor and aten.index_put:
    lib/Dialect/Torch/Transforms/DecomposeComplexOps.cpp (dco).

    An index of an axis is a tensor of integers or missing; sizes of the input are taken to be known in
    the removal, and its rank in the check of masks. [None] is a pattern that does not apply. *)
From Coq Require Import ZArith Bool PeanoNat Lia List.
From Verif Require Import Prelude TensorOps DecFillModel.
Import ListNotations.
Open Scope Z_scope.

(** An axis of the input: its size, and its index. *)
Definition slot := (Z * option (tensor Z))%type.
Definition is_used (s : slot) : bool := match snd s with Some _ => true | None => false end.

(** unsqueezeTensorAtTrailingDim, dco l.12396-12413. *)
Fixpoint unsqueeze_trailing (t : tensor Z) (count : nat) : option (tensor Z) :=
  match count with O => Some t | S count => do u <- unsqueeze t (-1); unsqueeze_trailing u count end.
(** createNewIndices, dco l.12436-12512: its three loops go from the last axis to the first, so the slots are
    given in reverse, and so are the new indices. [m] is the greatest rank of an index. *)
Fixpoint leading (m cnt : nat) (slots : list slot) : option (list (tensor Z)) :=
  match slots with
  | [] => Some []
  | (_, Some _) :: _ => None
  | (n, None) :: slots =>
      do v <- arange n; do u <- unsqueeze_trailing v (cnt + m); do r <- leading m (S cnt) slots; Some (u :: r)
  end.
Fixpoint between (m cnt : nat) (slots : list slot) : option (list (tensor Z)) :=
  match slots with
  | (_, Some ix) :: rest => do u <- unsqueeze_trailing ix cnt; do r <- between m cnt rest; Some (u :: r)
  | _ => leading m cnt slots
  end.
Fixpoint trailing (m cnt : nat) (slots : list slot) : option (list (tensor Z)) :=
  match slots with
  | (n, None) :: rest =>
      do v <- arange n; do u <- unsqueeze_trailing v cnt; do r <- trailing m (S cnt) rest; Some (u :: r)
  | _ => between m cnt slots
  end.
Definition max_rank (slots : list slot) : nat :=
  fold_right (fun s r => match snd s with Some ix => Nat.max (length (sizes ix)) r | None => r end) O slots.
Definition create_new_indices (slots : list slot) : option (list (tensor Z)) :=
  option_map (@rev (tensor Z)) (trailing (max_rank slots) 0 (rev slots)).

(** The loops of DecomposeAtenIndexTensorOp and DecomposeAtenIndexPutLikeOp that look for a gap between used
    indices, dco l.12558-12567 and l.12696-12706. *)
Fixpoint no_gap (first : bool) (previous : bool) (used : list bool) : bool :=
  match used with
  | [] => true
  | u :: used =>
      if u && negb first then no_gap true u used
      else if u && negb previous then false
      else no_gap first u used
  end.
Definition consecutive (used : list bool) : bool := no_gap false false used.
(** The order of the axes of the permuted input, dco l.12571-12592. *)
Definition used_at (used : list bool) (i : nat) : bool := nth i used false.
Definition permuted_order (used : list bool) : list nat :=
  filter (used_at used) (seq 0 (length used)) ++ filter (fun i => negb (used_at used i)) (seq 0 (length used)).
(** The slots that createNewIndices is given, dco l.12554-12604. *)
Definition index_slots (slots : list slot) : list slot :=
  let used := map is_used slots in
  if consecutive used then slots else map (fun i => nth i slots (0, None)) (permuted_order used).

(** * Masks of aten.index_put, dco l.12653-12712 *)
Inductive put_index := Missing | Unknown | Integers | MaskUnranked | Mask (sizes : list (option Z)).
Definition clash (a b : option Z) : bool := match a, b with Some x, Some y => negb (x =? y) | _, _ => false end.
(** The inner loop, dco l.12683-12694: the sizes of the mask against the input from an axis on. *)
Fixpoint mask_fits (input mask : list (option Z)) {struct mask} : bool :=
  match mask with
  | [] => true
  | x :: mask => match input with [] => false | n :: input => if clash x n then false else mask_fits input mask end
  end.
(** The first pass: which of the expanded indices are tensors. The axis of the input is not advanced by a
    missing index (dco l.12657-12661). *)
Fixpoint put_used (input : list (option Z)) (offset : nat) (indices : list put_index) : option (list bool) :=
  match indices with
  | [] => Some []
  | Missing :: rest => do r <- put_used input offset rest; Some (false :: r)
  | Unknown :: _ => None
  | Integers :: rest => do r <- put_used input (S offset) rest; Some (true :: r)
  | MaskUnranked :: _ => None
  | Mask [] :: _ => None
  | Mask s :: rest =>
      if mask_fits (skipn offset input) s then
        do r <- put_used input (offset + length s) rest; Some (map (fun _ => true) s ++ r)
      else None
  end.
Definition put_check (input : list (option Z)) (indices : list put_index) : option (list bool) :=
  do u <- put_used input 0 indices;
  let used := u ++ repeat false (length input - length u) in
  if consecutive used then Some used else None.
