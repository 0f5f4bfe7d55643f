(** Operations that are replaced by slices, flips, permutations and concatenations:
    lib/Dialect/Torch/Transforms/DecomposeComplexOps.cpp (dco).

    A pattern answers with [None] if it does not apply, and otherwise with the value of the operations
    it creates (TensorOps.v; an inner [None] is an error when they run). Ranks are taken to be known,
    and dimensions to be constants; the types given to the results, other than their rank where the
    code asks for it, are not modelled. *)
From Coq Require Import ZArith List Lia Bool.
From Verif Require Import Prelude TensorOps.
Import ListNotations.
Open Scope Z_scope.

Section Decompositions.
Context {A : Type}.
Implicit Types t : tensor A.
Definition size_int t (d : Z) : option Z := do k <- axis (rank t) d; Some (get (sizes t) k).

(** dco l.1318-1354 and 1357-1393 *)
Definition dec_fliplr t : option (option (tensor A)) := if rank t <? 2 then None else Some (flip t [1]).
Definition dec_flipud t : option (option (tensor A)) := if rank t <? 1 then None else Some (flip t [0]).

(** dco l.1426-1476. The result has one dimension less than the slice, so it is squeezed. *)
Definition dec_select t (dim index : Z) : option (tensor A) :=
  let negative := if index <? 0 then 1 else 0 in
  do n <- size_int t dim;
  let start := index + negative * n in
  do s <- slice t dim (Some start) (Some (start + 1)) 1;
  squeeze s dim.

(** dco l.1524-1588 *)
Fixpoint split_slices t (dim begin : Z) (split : list Z) : option (list (tensor A)) :=
  match split with
  | [] => Some []
  | n :: rest => do s <- slice t dim (Some begin) (Some (begin + n)) 1; do r <- split_slices t dim (begin + n) rest; Some (s :: r)
  end.
Definition dec_split t (split : list Z) (dim : Z) : option (option (list (tensor A))) :=
  match split with [] => None | _ => Some (split_slices t dim 0 split) end.

(** dco l.1592-1616 *)
Definition dec_narrow t (dim start length : Z) : option (tensor A) := slice t dim (Some start) (Some (start + length)) 1.

(** dco l.1899-1917 and 1938-1967 *)
Definition dec_atleast_1d t : option (tensor A) := match sizes t with [] => unsqueeze t 0 | _ => Some t end.
Definition dec_atleast_2d t : option (tensor A) := if 2 <=? rank t then Some t else do u <- dec_atleast_1d t; unsqueeze u 0.

(** dco l.4793-4819 *)
Definition dec_t t : option (option (tensor A)) :=
  if rank t >? 2 then None else if rank t <? 2 then Some (Some t) else Some (transpose t 0 1).

(** dco l.4826-4866. lib/Dialect/Torch/Utils/Utils.cpp:463-495 unsqueezeTensor refuses a dimension that is not valid. *)
Definition dec_stack (ts : list (tensor A)) (dim : Z) : option (option (tensor A)) :=
  if forallb (fun t => match axis (rank t + 1) dim with Some _ => true | None => false end) ts
  then Some (do us <- mapM (fun t => unsqueeze t dim) ts; cat us dim) else None.

(** dco l.4872-4919. l.4892-4895 the result of atleast_1d is given the type of its operand, so its rank is read as 0. *)
Definition dec_hstack (ts : list (tensor A)) : option (tensor A) :=
  do us <- mapM (fun t => if rank t <? 1 then dec_atleast_1d t else Some t) ts;
  match ts with [] => None | t :: _ => if rank t =? 1 then cat us 0 else cat us 1 end.

(** dco l.4924-4980. [known]: the size of a vector, if the type has it; otherwise -1. *)
Definition to_2d (known : bool) t : option (tensor A) :=
  match sizes t with
  | [] => view t [1; 1]
  | [n] => view t [if known then n else -1; 1]
  | _ => Some t
  end.
Definition dec_column_stack (ts : list (bool * tensor A)) : option (tensor A) :=
  do us <- mapM (fun kt => to_2d (fst kt) (snd kt)) ts; cat us 1.

(** dco l.4986-5053 *)
Definition imitate_roll t (shift dim : Z) : option (tensor A) :=
  do a <- slice t dim (Some (- shift)) None 1; do b <- slice t dim (Some 0) (Some (- shift)) 1; cat [a; b] dim.
Definition dec_roll t (shifts dims : list Z) : option (option (tensor A)) :=
  if zlen shifts =? zlen dims then Some (foldM (fun t sd => imitate_roll t (fst sd) (snd sd)) (combine shifts dims) t) else None.

(** dco l.7441-7497; l.7460 C++'s % truncates. Two dimensions are given. *)
Definition dec_rot90 t (k d0 d1 : Z) : option (tensor A) :=
  let k := Z.rem (Z.rem k 4 + 4) 4 in
  if k =? 1 then do f <- flip t [d1]; transpose f d0 d1
  else if k =? 2 then flip t [d0; d1]
  else if k =? 3 then do f <- flip t [d0]; transpose f d0 d1
  else Some t.

(** dco l.10238-10262 *)
Definition dec_numpy_t t : option (tensor A) := permute t (rev (map Z.of_nat (seq 0 (length (sizes t))))).

(** dco l.174-182 and 11177-11228. lib/Dialect/Torch/Utils/Utils.cpp:24-36 toPositiveDim and isValidDim. *)
Definition to_positive_dim (dim r : Z) : Z := if 0 <=? dim then dim else dim + r.
Definition is_valid_dim (dim r : Z) : bool := (0 <=? dim) && (dim <? r).
Definition dims_order (src dst r : nat) : list Z := insert dst (Z.of_nat src) (remove src (map Z.of_nat (seq 0 r))).
Definition dec_movedim t (src dst : Z) : option (option (tensor A)) :=
  if rank t <=? 1 then Some (Some t)
  else
    let s := to_positive_dim src (rank t) in
    let d := to_positive_dim dst (rank t) in
    if is_valid_dim s (rank t) && is_valid_dim d (rank t)
    then Some (permute t (dims_order (Z.to_nat s) (Z.to_nat d) (length (sizes t)))) else None.

(** dco l.11140-11173: dimensions from the largest to the smallest. Utils.cpp:428-459 squeezeTensor asserts that the size is 1. *)
Fixpoint place (x : Z) (l : list Z) : list Z := match l with [] => [x] | y :: r => if y <=? x then x :: l else y :: place x r end.
Definition descending (l : list Z) : list Z := fold_right place [] l.
Definition squeeze_one t (d : Z) : option (option (tensor A)) :=
  let d := to_positive_dim d (rank t) in
  if is_valid_dim d (rank t) then Some (if get (sizes t) (Z.to_nat d) =? 1 then squeeze t d else None) else None.
Fixpoint squeeze_all t (ds : list Z) : option (option (tensor A)) :=
  match ds with
  | [] => Some (Some t)
  | d :: rest => match squeeze_one t d with None => None | Some None => Some None | Some (Some u) => squeeze_all u rest end
  end.
Definition dec_squeeze t (dims : list Z) : option (option (tensor A)) := squeeze_all t (descending dims).
End Decompositions.
