(** The decomposition of torchvision.nms into loops: lib/Dialect/Torch/Transforms/DecomposeComplexOps.cpp (dco).

    The coordinates and scores are integers and the threshold is the fraction [tn / td] with [0 < td]; "intersection / union > threshold"
    is written without the division, and does not hold for a union of 0, as for the NaN of the division. *)
From Coq Require Import ZArith Bool PeanoNat Lia List.
From Verif Require Import Prelude DecTopkModel.
Import ListNotations.
Open Scope Z_scope.

(** A row of dets: two corners, (x, y) each. *)
Record box := { bx0 : Z; by0 : Z; bx1 : Z; by1 : Z }.
(** actualLow and actualHigh, dco l.13151-13158. *)
Definition low_x (b : box) : Z := Z.min (bx0 b) (bx1 b).
Definition low_y (b : box) : Z := Z.min (by0 b) (by1 b).
Definition high_x (b : box) : Z := Z.max (bx0 b) (bx1 b).
Definition high_y (b : box) : Z := Z.max (by0 b) (by1 b).
(** The area, dco l.13159-13165. *)
Definition box_area (b : box) : Z := (high_x b - low_x b) * (high_y b - low_y b).
(** intersectionArea, dco l.13271-13286: of the current box with another one. *)
Definition intersection_area (cur b : box) : Z :=
  Z.max (Z.min (high_x b) (high_x cur) - Z.max (low_x b) (low_x cur)) 0 *
  Z.max (Z.min (high_y b) (high_y cur) - Z.max (low_y b) (low_y cur)) 0.
(** isSuppressed, dco l.13292-13298 and 13336-13337. *)
Definition suppressed (tn td : Z) (cur b : box) : bool :=
  let i := intersection_area cur b in
  tn * (box_area b + box_area cur - i) <? td * i.
(** aten.slice_scatter of one element. *)
Fixpoint put_at {A} (i : nat) (v : A) (l : list A) : list A :=
  match l, i with
  | [], _ => []
  | _ :: l, O => v :: l
  | x :: l, S i => x :: put_at i v l
  end.

Section Loops.
(** [sup a b]: the box of index [a] suppresses the one of index [b]; [order] are the indices sorted by score. *)
Variable sup : nat -> nat -> bool.
Variable order : list nat.
Let len := length order.
(** The body of the inner loop, dco l.13301-13368. *)
Definition inner_body (i : nat) (mask : list bool) (j : nat) : list bool :=
  let j := (j + i + 1)%nat in
  if (j <? len)%nat then
    if sup (nth i order 0%nat) (nth j order 0%nat) then put_at j false mask else mask
  else mask.
(** The body of the outer loop, dco l.13221-13386: the mask, the result and the count. *)
Definition outer_body (st : list bool * list nat * nat) (i : nat) : list bool * list nat * nat :=
  let '(mask, result, cnt) := st in
  if nth i mask false then
    (fold_left (inner_body i) (seq 0 len) mask, put_at cnt (nth i order 0%nat) result, (cnt + 1)%nat)
  else (mask, result, cnt).
(** The loop and the final slice, dco l.13181-13196, 13218-13220 and 13389-13391. [empty] is the uninitialised result. *)
Definition nms_loops (empty : list nat) : list nat :=
  let '(_, result, cnt) := fold_left outer_body (seq 0 len) (repeat true len, empty, 0%nat) in
  firstn cnt result.
End Loops.

(** DecomposeTorchvisionNmsOp, dco l.13111-13394. *)
Definition dec_nms (tn td : Z) (boxes : list box) (scores : list Z) (empty : list nat) : list nat :=
  let b i := nth i boxes {| bx0 := 0; by0 := 0; bx1 := 0; by1 := 0 |} in
  nms_loops (fun i j => suppressed tn td (b i) (b j)) (dec_argsort true scores) empty.
