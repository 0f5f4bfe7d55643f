(** What PyTorch documents for indices that are tensors. *)
From Coq Require Import ZArith Bool PeanoNat Lia List.
From Verif Require Import Prelude TensorOps DecIndexModel.
Import ListNotations.
Open Scope Z_scope.

(** [r] is the shape that the shapes are broadcast to: sizes are matched from the last. *)
Definition right (s : list Z) (p : nat) : option Z := nth_error (rev s) p.
Definition is_broadcast (shapes : list (list Z)) (r : list Z) : Prop :=
  (forall s, In s shapes -> (length s <= length r)%nat) /\
  forall p n, right r p = Some n ->
    (exists s, In s shapes /\ right s p = Some n) /\ forall s k, In s shapes -> right s p = Some k -> k = n \/ k = 1.

(** The masks match the axes that they index: a mask of rank k indexes k axes, and every other index,
    missing or not, one. *)
Fixpoint masks_match (input : list (option Z)) (indices : list put_index) : Prop :=
  match indices with
  | [] => True
  | Mask s :: rest => (length s <= length input)%nat /\ Forall2 (fun a b => forall x y, a = Some x -> b = Some y -> x = y) s (firstn (length s) input) /\
                      masks_match (skipn (length s) input) rest
  | _ :: rest => masks_match (skipn 1 input) rest
  end.
