(** The decompositions that number the selected elements by a running sum:
    lib/Dialect/Torch/Transforms/DecomposeComplexOps.cpp (dco), DecomposeAtenNonzeroOp and
    DecomposeAtenMaskedScatterOp.

    The value of the operations that the patterns create (TensorOps.v, VecOps.v); [None] is an error, in
    the pattern or when the operations run. Ranks and (for masked_scatter) sizes are taken to be known;
    the types given to the results are not modelled. *)
From Coq Require Import ZArith List Lia Bool.
From Verif Require Import Prelude TensorOps VecOps.
From Verif Require NumOps.
Import ListNotations.
Open Scope Z_scope.

Definition long (b : bool) : Z := if b then 1 else 0.

(** dco l.6669-6712: the positions of the selected elements of a vector. *)
Definition compacted (selected : list bool) : option (list Z) :=
  let int_mask := map long selected in
  let subtracted := map (fun x => x - 1) (cumsum int_mask) in
  let indices := clamp_min 0 subtracted in
  let range := zrange 0 (zlen selected) in
  do multiplied <- zip_with (fun a b => Some (a * b)) range int_mask;
  do scattered <- scatter_add (repeat 0 (length selected)) indices multiplied;
  let num_nonzero := sumZ int_mask in
  Some (firstn (Z.to_nat (bound (zlen scattered) (Some num_nonzero) 0)) scattered).

(** dco l.6732-6784: what a step of each dimension amounts to. *)
Definition strides (shape : list Z) : list Z :=
  let flipped_product := rev (cumprod (rev shape)) in
  if zlen shape >? 1 then skipn 1 flipped_product ++ [1] else [1].

(** dco l.6620-6813: the rows of the result. With a tensor of rank 0, l.6725 reads the first of no values. *)
Definition dec_nonzero {A} (nonzero : A -> bool) (t : tensor A) : option (list (list Z)) :=
  match sizes t with
  | [] => None
  | shape =>
      do sliced <- compacted (map nonzero (elements t));
      mapM (fun p => do divided <- mapM (quotient p) (strides shape); zip_with remainder divided shape) sliced
  end.

(** aten.where.self on tensors that are broadcast *)
Definition where_self {A} (c : tensor bool) (x y : tensor A) : option (tensor A) :=
  do both <- NumOps.map2 pair x y; NumOps.map2 (fun (b : bool) p => if b then fst p else snd p) c both.

(** dco l.5768-5851 *)
Definition dec_masked_scatter {A} (self : tensor A) (mask : tensor bool) (source : tensor A) : option (tensor A) :=
  do mask_int <- NumOps.map2 (fun b (_ : A) => long b + 0) mask self;
  let prefix_sum := cumsum (elements mask_int) in
  let mask_prefix := clamp_min 0 (map (fun x => x - 1) prefix_sum) in
  do select_source <- index_select (elements source) mask_prefix;
  do source_reshape <- view (vector (elt source []) select_source) (sizes self);
  where_self mask source_reshape self.
