(** Vectors as lists, and what PyTorch's operations on vectors of integers compute.

    [None] is an error raised by PyTorch. The meaning is taken from PyTorch's documentation, not from
    this repository. Integers are not bounded. *)
From Coq Require Import ZArith List Lia Bool.
From Verif Require Import Prelude TensorOps.
Import ListNotations.
Open Scope Z_scope.

(** The elements of a tensor in row-major order (aten.flatten of all dimensions), and a vector as a tensor. *)
Definition elements {A} (t : tensor A) : list A := map (fun p => elt t (unravel (sizes t) p)) (zrange 0 (prodZ (sizes t))).
Definition vector {A} (d : A) (l : list A) : tensor A := {| sizes := [zlen l]; elt := fun ix => nth (Z.to_nat (get ix 0)) l d |}.
(** aten.cumsum and aten.cumprod *)
Fixpoint cumsum_from (a : Z) (l : list Z) : list Z := match l with [] => [] | x :: r => (a + x) :: cumsum_from (a + x) r end.
Definition cumsum (l : list Z) : list Z := cumsum_from 0 l.
Fixpoint cumprod_from (a : Z) (l : list Z) : list Z := match l with [] => [] | x :: r => (a * x) :: cumprod_from (a * x) r end.
Definition cumprod (l : list Z) : list Z := cumprod_from 1 l.
Definition clamp_min (m : Z) (l : list Z) : list Z := map (Z.max m) l.
(** The [i]-th element, an error outside of the vector. *)
Definition at_index {A} (l : list A) (i : Z) : option A := if i <? 0 then None else nth_error l (Z.to_nat i).
(** aten.index_select *)
Definition index_select {A} (l : list A) (index : list Z) : option (list A) := mapM (at_index l) index.
(** aten.scatter_add: add src[k] to self[index[k]] for every k. *)
Definition add_at (l : list Z) (i x : Z) : option (list Z) := do y <- at_index l i; Some (put l (Z.to_nat i) (y + x)).
Fixpoint scatter_add (self index src : list Z) : option (list Z) :=
  match index, src with
  | i :: index, x :: src => do l <- add_at self i x; scatter_add l index src
  | [], _ => Some self
  | _ :: _, [] => None
  end.
(** aten.floor_divide and aten.remainder of integers *)
Definition quotient (a b : Z) : option Z := if b =? 0 then None else Some (a / b).
Definition remainder (a b : Z) : option Z := if b =? 0 then None else Some (a mod b).
(** Elementwise operations on two vectors of the same length. *)
Fixpoint zip_with {A B C} (f : A -> B -> option C) (l : list A) (r : list B) : option (list C) :=
  match l, r with
  | [], [] => Some []
  | x :: l, y :: r => do z <- f x y; do t <- zip_with f l r; Some (z :: t)
  | _, _ => None
  end.
