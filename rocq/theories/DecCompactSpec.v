(** What torch.nonzero and torch.masked_scatter compute (from PyTorch's documentation). *)
From Coq Require Import ZArith List Lia Bool.
From Verif Require Import Prelude TensorOps.
From Verif Require NumOps.
Import ListNotations.
Open Scope Z_scope.

(** torch.nonzero: the indices of the elements that are not zero, in lexicographic order; one row for each. *)
Definition nonzero_rows {A} (nonzero : A -> bool) (t : tensor A) : list (list Z) :=
  filter (fun ix => nonzero (elt t ix)) (all_indices (sizes t)).

(** torch.masked_scatter: the elements of the source, in order, go to the positions where the mask is
    true, in order. The mask and the tensor are broadcast; the source must have enough elements. *)
Definition marked (mask : tensor bool) (s : list Z) : list (list Z) := filter (NumOps.at_broadcast mask) (all_indices s).
Definition before (s ix jx : list Z) : bool := ravel s jx <? ravel s ix.
Definition masked_scatter {A} (self : tensor A) (mask : tensor bool) (source : tensor A) : option (tensor A) :=
  match NumOps.broadcast (sizes mask) (sizes self) with
  | None => None
  | Some s =>
      if zlen (marked mask s) <=? prodZ (sizes source) then
        Some {| sizes := s;
                elt := fun ix => if NumOps.at_broadcast mask ix
                                 then elt source (unravel (sizes source) (zlen (filter (before s ix) (marked mask s))))
                                 else NumOps.at_broadcast self ix |}
      else None
  end.
