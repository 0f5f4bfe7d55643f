(** The decompositions of bucketize, argmax and argmin: lib/Dialect/Torch/Transforms/DecomposeComplexOps.cpp (dco).

    The elements are integers: NaN is not modelled. bucketize works on every element of its input by itself, so the
    model is the one of an element; a tensor whose elements are all reduced is the list of its elements in row-major order. *)
From Coq Require Import ZArith Bool PeanoNat Lia List.
From Verif Require Import Prelude.
Import ListNotations.
Open Scope Z_scope.

(** aten.max.dim and aten.min.dim of a vector: the index of the first element that is the greatest (least).
    [better x y] says that [x] replaces [y]. *)
Fixpoint arg_loop (better : Z -> Z -> bool) (best besti i : Z) (l : list Z) : Z :=
  match l with
  | [] => besti
  | x :: l => if better x best then arg_loop better x i (i + 1) l else arg_loop better best besti (i + 1) l
  end.
Definition arg_vec (better : Z -> Z -> bool) (l : list Z) : option Z :=
  match l with [] => None | x :: l => Some (arg_loop better x 0 1 l) end.
Definition argmax_vec : list Z -> option Z := arg_vec (fun x y => y <? x).
Definition argmin_vec : list Z -> option Z := arg_vec (fun x y => x <? y).
(** The comparison of an element with a boundary, dco l.3044-3050. *)
Definition bucket_compare (right : bool) (x b : Z) : bool := if right then x <? b else x <=? b.
(** convertTensorToDtype of the comparison, dco l.3052-3055. *)
Definition as_f32 (b : bool) : Z := if b then 1 else 0.
(** aten.select.int at -1, dco l.3066-3072. *)
Definition select_last (l : list bool) : option bool := nth_error (rev l) 0.
(** DecomposeAtenBucketizeTensorOp, dco l.2990-3093, for one element. [None]: an operation that is created fails. *)
Definition dec_bucketize (right : bool) (x : Z) (bounds : list Z) : option Z :=
  let compare := map (bucket_compare right x) bounds in
  match argmax_vec (map as_f32 compare), select_last compare with
  | Some indices, Some within => Some (if within then indices else Z.of_nat (length bounds))
  | _, _ => None
  end.
(** DecomposeAtenArgMinMaxOp, dco l.2857-2941, if dim is None: the shape of the result and its one element.
    [None] outside: the pattern does not apply. [None] inside: the reduction fails. [shape] is the one of the
    input, if its rank is known, and [data] are its elements. *)
Definition dec_argmax_all (arg : list Z -> option Z) (keep : option bool) (shape : option (list Z)) (data : list Z)
  : option (list Z * option Z) :=
  match keep, shape with
  | Some keep, Some (n :: shape) => Some (if keep then repeat 1 (S (length shape)) else [], arg data)
  | _, _ => None
  end.
(** The size that the flattened input is given, dco l.2894-2899; a size of -1 is not known. *)
Definition flatten_size (shape : list Z) : Z :=
  if forallb (fun n => negb (n =? -1)) shape then fold_left Z.mul shape 1 else -1.
