(** Which positions PyTorch documents that pools, convolutions and pads read. *)
From Coq Require Import ZArith Bool PeanoNat String Lia List.
From Verif Require Import Prelude TensorOps.
Import ListNotations.
Open Scope Z_scope.

(** Adaptive pooling: output [i] of [output] covers the positions from floor(i * input / output) up to
    ceil((i + 1) * input / output). *)
Definition adaptive_covers (input output i x : Z) : Prop := i * input < (x + 1) * output /\ x * output < (i + 1) * input.
(** Pooling with a kernel and a stride, and no padding: output [i] covers these positions. *)
Definition pool_covers (kernel stride i x : Z) : Prop := i * stride <= x < i * stride + kernel.
(** Output [i] exists if its window is within the input. *)
Definition pool_has (input kernel stride i : Z) : Prop := 0 <= i /\ i * stride + kernel <= input.

(** A convolution of stride 1 has output [i] if its window, of (kernel - 1) * dilation + 1 positions, is
    within the padded input. *)
Definition conv_has (input kernel dilation left right i : Z) : Prop := 0 <= i /\ i + dilation * (kernel - 1) + 1 <= left + input + right.
(** torch: padding "same" adds dilation * (kernel - 1) positions; the odd one is on the right. *)
Definition same_pads (kernel dilation left right : Z) : Prop := left + right = dilation * (kernel - 1) /\ left <= right <= left + 1.

(** Padding by reflection or replication, from the last axis: the first two numbers are for the last axis. *)
Inductive mode := Reflect | Replicate.
Definition source (m : mode) (n i : Z) : Z :=
  match m with
  | Reflect => if i <? 0 then - i else if n <=? i then 2 * (n - 1) - i else i
  | Replicate => Z.max 0 (Z.min (n - 1) i)
  end.
Fixpoint padded (rsizes pads : list Z) : list Z :=
  match pads, rsizes with l :: r :: pads, n :: rsizes => n + l + r :: padded rsizes pads | _, _ => rsizes end.
Fixpoint moved (m : mode) (rsizes pads rix : list Z) : list Z :=
  match pads, rsizes, rix with
  | l :: _ :: pads, n :: rsizes, i :: rix => source m n (i - l) :: moved m rsizes pads rix
  | _, _, _ => rix
  end.
Definition torch_pad {A} (m : mode) (t : tensor A) (pads : list Z) : tensor A :=
  {| sizes := rev (padded (rev (sizes t)) pads); elt := fun ix => elt t (rev (moved m (rev (sizes t)) pads (rev ix))) |}.
