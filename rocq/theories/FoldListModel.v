(** Folders and canonicalisation patterns of operations on lists, tuples and dictionaries:
    lib/Dialect/Torch/IR/TorchOps.cpp and lib/Dialect/Torch/Utils/Utils.cpp.

    A program is a list of operations; an operation's result is the value numbered by its
    position, so a folder sees the definition of a value and all its users. Lists live in a heap
    and are shared: executing prim.ListConstruct allocates one, aten.append.t and aten._set_item.t
    change one, torch.derefine and prim.unchecked_cast return the list they are given. The traits
    are those of the ODS files: which operations are ReadOnly or without effect. Elements of lists
    are integers, booleans or lists. Not modelled: control flow, static types (a pattern's casts),
    strings. What the C++ leaves undefined is [Undefined]. *)
From Coq Require Import ZArith List Bool.
From Verif Require Import Prelude FoldModel.
Import ListNotations.
Open Scope Z_scope.

Inductive listop :=
  | Const (z : Z)
  | ConstBool (b : bool)
  | NoneConst
  | ListConstruct (vs : list nat)
  | Alias (v : nat)                      (* torch.derefine, prim.unchecked_cast *)
  | Getitem (l i : nat)
  | Append (l v : nat)
  | SetItem (l i v : nat)
  | Len (l : nat)
  | AddT (a b : nat)
  | MulLeft (l n : nat)
  | SliceT (l start stop step : nat)
  | EqIntList (a b : nat)
  | ContainsInt (l x : nat)
  | MinSelf (l : nat)
  | AnyBool (l : nat)
  | AllBool (l : nat).
Definition program := list listop.
Definition operands (o : listop) : list nat :=
  match o with
  | Const _ | ConstBool _ | NoneConst => []
  | ListConstruct vs => vs
  | Alias v => [v]
  | Getitem l i => [l; i]
  | Append l v => [l; v]
  | SetItem l i v => [l; i; v]
  | Len l | MinSelf l | AnyBool l | AllBool l => [l]
  | AddT a b | EqIntList a b => [a; b]
  | MulLeft l n => [l; n]
  | SliceT l a b c => [l; a; b; c]
  | ContainsInt l x => [l; x]
  end.
(** TorchOps.cpp:122-142 potentiallyMutatesListOperands: neither ReadOnly nor without effects.
    TorchOps.td:402,801 (Pure); GeneratedTorchOps.td:15752,17651 (no trait), 17627,18991 (ReadOnly) and others. *)
Definition mutates (o : listop) : bool := match o with Append _ _ | SetItem _ _ _ => true | _ => false end.
Definition uses (v : nat) (o : listop) : bool := existsb (Nat.eqb v) (operands o).
(** TorchOps.cpp:117-120 isListPotentiallyMutated. *)
Definition potentially_mutated (p : program) (v : nat) : bool := existsb (fun o => uses v o && mutates o) p.

(** getDefiningOp<PrimListConstructOp>, m_TorchConstantInt, m_TorchConstantBool. *)
Definition construct (p : program) (v : nat) : option (list nat) := match nth_error p v with Some (ListConstruct vs) => Some vs | _ => None end.
Definition const_int (p : program) (v : nat) : option Z := match nth_error p v with Some (Const z) => Some z | _ => None end.
Definition const_bool (p : program) (v : nat) : option bool := match nth_error p v with Some (ConstBool b) => Some b | _ => None end.
Definition is_none (p : program) (v : nat) : bool := match nth_error p v with Some NoneConst => true | _ => false end.
Definition stable (p : program) (v : nat) : option (list nat) := if potentially_mutated p v then None else construct p v.

(** TorchOps.cpp:1333-1343 AtenLenTOp::fold. *)
Definition fold_len (p : program) (l : nat) : folded Z := match stable p l with Some vs => Attr (zlen vs) | None => NoFold end.
(** Utils.cpp:24-42 toPositiveDim, isValidDim and matchLegalConstantIndexIntoListOfSize. *)
Definition to_positive_dim (dim rank : Z) : Z := if 0 <=? dim then dim else dim + rank.
Definition is_valid_dim (dim rank : Z) : bool := (0 <=? dim) && (dim <? rank).
Definition legal_index (p : program) (i : nat) (length : Z) : option nat :=
  do z <- const_int p i;
  let z := to_positive_dim z length in
  if is_valid_dim z length then Some (Z.to_nat z) else None.
(** TorchOps.cpp:3564-3584 the first pattern of aten.__getitem__.t: the value it is replaced by. *)
Definition rewrite_getitem (p : program) (l i : nat) : option nat :=
  do vs <- stable p l; do k <- legal_index p i (zlen vs); nth_error vs k.
(** TorchOps.cpp:3652-3676 aten.add.t: the operands of the new list. *)
Definition rewrite_add (p : program) (a b : nat) : option (list nat) := do x <- stable p a; do y <- stable p b; Some (x ++ y).
(** TorchOps.cpp:1360-1384 aten.mul.left_t. *)
Definition rewrite_mul_left (p : program) (l n : nat) : option (list nat) :=
  do vs <- stable p l; do k <- const_int p n; Some (concat (repeat vs (Z.to_nat k))).
(** TorchOps.cpp:3680-3726 aten.slice.t. The loop [for (i = start; i < end; i += step)]: with a step that is not positive it does not
    end or leaves the list. The type of the new list is that of the first element. *)
Inductive rewritten := NoRewrite | NewList (vs : list nat) | Crash.
Fixpoint loop (fuel : nat) (i stop step : Z) : list Z :=
  match fuel with
  | O => []
  | S n => if i <? stop then i :: loop n (i + step) stop step else []
  end.
Definition pick (vs : list nat) (ks : list Z) : option (list nat) := mapM (fun k => if k <? 0 then None else nth_error vs (Z.to_nat k)) ks.
Definition rewrite_slice (p : program) (l start stop step : nat) : rewritten :=
  match stable p l with
  | None => NoRewrite
  | Some vs =>
    let size := zlen vs in
    match (if is_none p start then Some 0 else const_int p start), (if is_none p stop then Some size else const_int p stop), const_int p step with
    | Some a, Some b, Some s =>
        let a := if 0 <=? a then a else a + size in
        let a := if 0 <=? a then a else 0 in
        let b := if 0 <=? b then b else b + size in
        let b := if b <? size then b else size in
        if (a <? b) && (s <=? 0) then Crash
        else match vs, pick vs (loop (length vs) a b s) with
             | [], _ => Crash
             | _, Some ws => NewList ws
             | _, None => Crash
             end
    | _, _, _ => NoRewrite
    end
  end.
(** TorchOps.cpp:3732-3757 AtenEqIntListOp::fold: mutation is not looked at. *)
Definition fold_eq_int_list (p : program) (a b : nat) : folded bool :=
  match construct p a, construct p b with
  | Some x, Some y =>
      if negb (Nat.eqb (length x) (length y)) then Attr false
      else if forallb (fun q => Nat.eqb (fst q) (snd q)) (combine x y) then Attr true else NoFold
  | _, _ => NoFold
  end.
(** TorchOps.h:146-166 m_TorchListOfConstantInts. *)
Definition list_of_constants (p : program) (l : nat) : option (list Z) := do vs <- construct p l; mapM (const_int p) vs.
(** TorchOps.cpp:3932-3958 isListConstructNotModified and Aten__Contains__IntListOp::fold. *)
Definition only_contains (p : program) (l : nat) : bool :=
  forallb (fun o => if uses l o then match o with ContainsInt _ _ => true | _ => false end else true) p.
Definition fold_contains (p : program) (l x : nat) : folded bool :=
  if only_contains p l then
    match const_int p x, list_of_constants p l with
    | Some z, Some zs => Attr (existsb (Z.eqb z) zs)
    | _, _ => NoFold
    end
  else NoFold.
(** TorchOps.cpp:5426-5443 PrimMinSelfIntOp::fold: mutation is not looked at. *)
Definition min_element (z : Z) (zs : list Z) : Z := fold_left (fun a b => if b <? a then b else a) zs z.
Definition fold_min_self (p : program) (l : nat) : folded Z :=
  match list_of_constants p l with Some (z :: zs) => Attr (min_element z zs) | _ => NoFold end.
(** TorchOps.cpp:3021-3033 AtenAnyBoolOp::fold and 3039-3055 AtenAllBoolOp::fold. *)
Definition fold_any (p : program) (l : nat) : folded bool :=
  match stable p l with
  | Some vs => if existsb (fun v => match const_bool p v with Some true => true | _ => false end) vs then Attr true else NoFold
  | None => NoFold
  end.
Definition fold_all (p : program) (l : nat) : folded bool :=
  match stable p l with
  | Some vs => if existsb (fun v => match const_bool p v with Some false => true | _ => false end) vs then Attr false
      else if forallb (fun v => match const_bool p v with Some _ => true | _ => false end) vs then Attr true else NoFold
  | None => NoFold
  end.
(** TorchOps.cpp:3855-3886 prim.ListUnpack: the values its results are replaced by. *)
Definition rewrite_unpack (p : program) (l : nat) (results : nat) : option (list nat) :=
  do vs <- stable p l; if Nat.eqb (length vs) results then Some vs else None.

(** * Execution *)
Inductive value := VInt (z : Z) | VBool (b : bool) | VNone | VList (addr : nat).
Definition heap := list (list value).
Record state := { mem : heap; env : list value }.
Definition list_of (s : state) (v : nat) : option (nat * list value) :=
  do x <- nth_error (env s) v;
  match x with VList a => do c <- nth_error (mem s) a; Some (a, c) | _ => None end.
Definition int_of (s : state) (v : nat) : option Z := do x <- nth_error (env s) v; match x with VInt z => Some z | _ => None end.
Definition ints (c : list value) : option (list Z) := mapM (fun x => match x with VInt z => Some z | _ => None end) c.
Definition bools (c : list value) : option (list bool) := mapM (fun x => match x with VBool b => Some b | _ => None end) c.
Definition set_cell (h : heap) (a : nat) (c : list value) : heap := firstn a h ++ c :: skipn (S a) h.
Definition result (s : state) (x : value) : option state := Some {| mem := mem s; env := env s ++ [x] |}.
Definition fresh (s : state) (c : list value) : option state := Some {| mem := mem s ++ [c]; env := env s ++ [VList (length (mem s))] |}.
(** An index, negative ones counting from the end. *)
Definition py_index (i n : Z) : option nat :=
  if (0 <=? i) && (i <? n) then Some (Z.to_nat i) else if (i <? 0) && (0 <=? i + n) then Some (Z.to_nat (i + n)) else None.
(** The elements of a slice with a positive step, by their positions. *)
Definition bound (none : Z) (s : state) (v : nat) (n : Z) : option Z :=
  do x <- nth_error (env s) v;
  match x with
  | VNone => Some none
  | VInt z => Some (Z.max 0 (Z.min n (if z <? 0 then z + n else z)))
  | _ => None
  end.
Definition slice_positions (n a b step : Z) : list Z :=
  filter (fun i => (a <=? i) && (i <? b) && ((i - a) mod step =? 0)) (zrange 0 n).
Definition step_op (s : state) (o : listop) : option state :=
  match o with
  | Const z => result s (VInt z)
  | ConstBool b => result s (VBool b)
  | NoneConst => result s VNone
  | ListConstruct vs => do c <- mapM (nth_error (env s)) vs; fresh s c
  | Alias v => do x <- nth_error (env s) v; result s x
  | Getitem l i => do lc <- list_of s l; do z <- int_of s i; do k <- py_index z (zlen (snd lc)); do x <- nth_error (snd lc) k; result s x
  | Append l v => do lc <- list_of s l; do x <- nth_error (env s) v;
      Some {| mem := set_cell (mem s) (fst lc) (snd lc ++ [x]); env := env s ++ [VList (fst lc)] |}
  | SetItem l i v => do lc <- list_of s l; do z <- int_of s i; do k <- py_index z (zlen (snd lc)); do x <- nth_error (env s) v;
      Some {| mem := set_cell (mem s) (fst lc) (firstn k (snd lc) ++ x :: skipn (S k) (snd lc)); env := env s ++ [VList (fst lc)] |}
  | Len l => do lc <- list_of s l; result s (VInt (zlen (snd lc)))
  | AddT a b => do x <- list_of s a; do y <- list_of s b; fresh s (snd x ++ snd y)
  | MulLeft l n => do x <- list_of s l; do k <- int_of s n; fresh s (concat (repeat (snd x) (Z.to_nat k)))
  | SliceT l a b c => do x <- list_of s l; let n := zlen (snd x) in
      do i <- bound 0 s a n; do j <- bound n s b n; do k <- int_of s c;
      if k <=? 0 then None else do cs <- mapM (fun q => nth_error (snd x) (Z.to_nat q)) (slice_positions n i j k); fresh s cs
  | EqIntList a b => do x <- list_of s a; do y <- list_of s b; do u <- ints (snd x); do w <- ints (snd y);
      result s (VBool (if list_eq_dec Z.eq_dec u w then true else false))
  | ContainsInt l x => do c <- list_of s l; do u <- ints (snd c); do z <- int_of s x; result s (VBool (if in_dec Z.eq_dec z u then true else false))
  | MinSelf l => do c <- list_of s l; do u <- ints (snd c);
      match u with [] => None | z :: zs => result s (VInt (fold_right Z.min z zs)) end
  | AnyBool l => do c <- list_of s l; do u <- bools (snd c); result s (VBool (if in_dec Bool.bool_dec true u then true else false))
  | AllBool l => do c <- list_of s l; do u <- bools (snd c); result s (VBool (if in_dec Bool.bool_dec false u then false else true))
  end.
Definition run (p : program) : option state := foldM step_op p {| mem := []; env := [] |}.
(** The state before the operation at position n. *)
Definition before (p : program) (n : nat) : option state := run (firstn n p).

(** * Tuples and dictionaries *)
(** TorchOps.cpp:3775-3808 prim.TupleIndex: only indices that are too large are refused. *)
Definition rewrite_tuple_index (elements : list nat) (i : option Z) : folded nat :=
  match i with
  | Some z => if zlen elements <=? z then NoFold
      else match (if z <? 0 then None else nth_error elements (Z.to_nat z)) with Some v => Attr v | None => Undefined end
  | None => NoFold
  end.
(** TorchOps.cpp:3888-3928 getDictConstructIfNotModified, Aten__Getitem__DictStrOp::fold and Aten__Contains__StrOp::fold. *)
Definition fold_dict_getitem (unmodified : bool) (pairs : list (nat * nat)) (key : nat) : option nat :=
  if unmodified then do q <- find (fun q => Nat.eqb (fst q) key) pairs; Some (snd q) else None.
Definition fold_dict_contains (unmodified : bool) (pairs : list (nat * nat)) (key : nat) : folded bool :=
  if unmodified then if existsb (fun q => Nat.eqb (fst q) key) pairs then Attr true else NoFold else NoFold.
