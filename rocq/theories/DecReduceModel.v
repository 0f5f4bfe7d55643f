(** Which axes are reduced by the operations that amin, amax and aminmax are replaced by:
    lib/Dialect/Torch/Transforms/DecomposeComplexOps.cpp (dco).

    The input is modelled by the list of the axes that it still has, numbered as in the operand. The pattern
    answers [None] if it does not apply; an inner [None] is a reduction of an axis that its input does
    not have. The value of a reduction is not modelled, only the axes that are reduced, in their order. *)
From Coq Require Import ZArith Bool PeanoNat Lia List.
From Verif Require Import Prelude TensorOps.
Import ListNotations.
Open Scope Z_scope.

(** toPositiveDim and isValidDim, lib/Dialect/Torch/Utils/Utils.cpp l.25-31. *)
Definition to_positive (d rank : Z) : Z := if 0 <=? d then d else d + rank.
Definition valid_dim (d rank : Z) : bool := (0 <=? d) && (d <? rank).
(** std::sort of the reversed range, dco l.2829. *)
Fixpoint insert_desc (x : Z) (l : list Z) : list Z :=
  match l with [] => [x] | y :: r => if y <=? x then x :: l else y :: insert_desc x r end.
Definition sort_desc (l : list Z) : list Z := fold_right insert_desc [] l.
(** The loop, dco l.2830-2846. [rank] is the rank of the operand throughout. *)
Fixpoint reduce_axes (keep : bool) (rank : Z) (axes dims : list Z) : option (option (list Z)) :=
  match dims with
  | [] => Some (Some [])
  | d :: dims =>
      let p := to_positive d rank in
      if valid_dim p rank then
        match nth_error axes (Z.to_nat p) with
        | Some a =>
            match reduce_axes keep rank (if keep then axes else remove (Z.to_nat p) axes) dims with
            | Some r => Some (option_map (cons a) r)
            | None => None
            end
        | None => match reduce_axes keep rank axes dims with Some _ => Some None | None => None end
        end
      else None
  end.
(** DecomposeAtenAminAmaxOp, dco l.2801-2850. [keep] and the dims are [None] if they are not constant. *)
Definition dec_amax (keep : option bool) (rank : Z) (dims : option (list Z)) : option (option (list Z)) :=
  match keep, dims with
  | Some keep, Some dims =>
      let dims := match dims with [] => zrange 0 rank | _ => dims end in
      reduce_axes keep rank (zrange 0 rank) (sort_desc dims)
  | _, _ => None
  end.
(** DecomposeAtenAminmaxOp, dco l.2946-2973: the dims of both operations. *)
Definition aminmax_dims (dim : option Z) : list Z := match dim with None => [] | Some d => [d] end.
