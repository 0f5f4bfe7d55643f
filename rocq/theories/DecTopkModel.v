(** The decompositions of topk and argsort: lib/Dialect/Torch/Transforms/DecomposeComplexOps.cpp (dco).

    Both work on every vector along their dim by itself, so the model is the one of a vector. The elements are integers: NaN is
    not modelled. aten.sort is modelled by a stable sort. *)
From Coq Require Import ZArith Bool PeanoNat Lia List.
From Verif Require Import Prelude.
Import ListNotations.
Open Scope Z_scope.

(** aten.sort of a vector: the pairs of an element and its index, in order. *)
Definition after (desc : bool) (x y : Z) : bool := if desc then y <? x else x <? y.
Fixpoint sort_insert (desc : bool) (p : Z * nat) (l : list (Z * nat)) : list (Z * nat) :=
  match l with
  | [] => [p]
  | q :: r => if after desc (fst q) (fst p) then q :: sort_insert desc p r else p :: l
  end.
Definition aten_sort (desc : bool) (l : list Z) : list (Z * nat) :=
  fold_right (sort_insert desc) [] (combine l (seq 0 (length l))).
(** aten.slice.Tensor from 0 with step 1: a negative end counts from the back, and the end is clamped. *)
Definition slice_to {A} (k : Z) (l : list A) : list A :=
  let n := Z.of_nat (length l) in
  let k := if k <? 0 then k + n else k in
  firstn (Z.to_nat (Z.min n (Z.max 0 k))) l.
(** DecomposeAtenTopkOp, dco l.11901-11940. [sorted] is [None] if it is not constant. The result has the values and the
    indices; [None]: the pattern does not apply. *)
Definition dec_topk (sorted : option bool) (largest : bool) (k : Z) (l : list Z) : option (list Z * list nat) :=
  match sorted with
  | Some true =>
      let s := aten_sort largest l in
      Some (slice_to k (map fst s), slice_to k (map snd s))
  | _ => None
  end.
(** DecomposeAtenArgsortOp, dco l.11946-11965. *)
Definition dec_argsort (desc : bool) (l : list Z) : list nat := map snd (aten_sort desc l).
