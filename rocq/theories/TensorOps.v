(** Tensors as functions of their indices, and what PyTorch's basic operations on them compute.

    A tensor has sizes and an element for each index. [None] is an error raised by PyTorch. This is
    the meaning that the decompositions of lib/Dialect/Torch/Transforms/DecomposeComplexOps.cpp are
    judged by; it is taken from PyTorch's documentation, not from this repository. Element types,
    strides (whether a view must copy) and PyTorch's treatment of tensors without dimensions as
    vectors of one element are not modelled; torch.cat does not skip vectors without elements. *)
From Coq Require Import ZArith List Lia Bool.
From Verif Require Import Prelude.
Import ListNotations.
Open Scope Z_scope.

Record tensor (A : Type) := { sizes : list Z; elt : list Z -> A }.
Arguments sizes {A}. Arguments elt {A}.
(** An index into a tensor with these sizes. *)
Definition within (s ix : list Z) : Prop := Forall2 (fun n i => 0 <= i < n) s ix.
Definition sized {A} (t : tensor A) : Prop := Forall (fun n => 0 <= n) (sizes t).
(** The same tensor: its sizes and all its elements. *)
Definition same {A} (t u : tensor A) : Prop := sizes t = sizes u /\ forall ix, within (sizes t) ix -> elt t ix = elt u ix.
(** The same tensor, or both an error. *)
Definition agree {A} (x y : option (tensor A)) : Prop :=
  match x, y with Some t, Some u => same t u | None, None => True | _, _ => False end.
Definition rank {A} (t : tensor A) : Z := zlen (sizes t).

(** * Lists of sizes and of index components *)
Definition get (l : list Z) (k : nat) : Z := nth k l 0.
Fixpoint put (l : list Z) (k : nat) (x : Z) : list Z :=
  match l, k with [], _ => [] | _ :: r, O => x :: r | y :: r, S k => y :: put r k x end.
Fixpoint insert {B} (k : nat) (x : B) (l : list B) : list B :=
  match k, l with O, _ => x :: l | S k, y :: r => y :: insert k x r | S _, [] => [x] end.
Fixpoint remove {B} (k : nat) (l : list B) : list B :=
  match k, l with _, [] => [] | O, _ :: r => r | S k, y :: r => y :: remove k r end.
Definition swap (a b : nat) (l : list Z) : list Z := put (put l a (get l b)) b (get l a).
Fixpoint mem (x : nat) (l : list nat) : bool := match l with [] => false | y :: r => Nat.eqb x y || mem x r end.
Fixpoint distinct (l : list nat) : bool := match l with [] => true | x :: r => negb (mem x r) && distinct r end.
Fixpoint position (x : nat) (l : list nat) : nat := match l with [] => O | y :: r => if Nat.eqb x y then O else S (position x r) end.
Fixpoint sizes_eqb (a b : list Z) : bool := match a, b with [], [] => true | x :: a, y :: b => (x =? y) && sizes_eqb a b | _, _ => false end.
(** A dimension given as an integer: from the start, or from the end if negative. *)
Definition axis (r d : Z) : option nat :=
  if (- r <=? d) && (d <? r) then Some (Z.to_nat (if d <? 0 then d + r else d)) else None.
(** Row-major position of an index, and back. *)
Fixpoint ravel (s ix : list Z) : Z := match s, ix with _ :: s, i :: ix => i * prodZ s + ravel s ix | _, _ => 0 end.
Fixpoint unravel (s : list Z) (p : Z) : list Z := match s with [] => [] | _ :: s => p / prodZ s :: unravel s (p mod prodZ s) end.

Section Ops.
Context {A : Type}.
Implicit Types t : tensor A.
Definition reindex (s : list Z) (f : list Z -> list Z) t : tensor A := {| sizes := s; elt := fun ix => elt t (f ix) |}.

(** aten.slice: a missing bound is the end; bounds are clamped. *)
Definition bound (n : Z) (b : option Z) (default : Z) : Z :=
  match b with None => default | Some i => Z.max 0 (Z.min n (if i <? 0 then i + n else i)) end.
Definition slice t (d : Z) (start stop : option Z) (step : Z) : option (tensor A) :=
  do k <- axis (rank t) d;
  if step <=? 0 then None
  else
    let n := get (sizes t) k in
    let s := bound n start 0 in
    let e := bound n stop n in
    let len := if s <? e then (e - s + step - 1) / step else 0 in
    Some (reindex (put (sizes t) k len) (fun ix => put ix k (s + get ix k * step)) t).
(** aten.flip *)
Definition flip t (ds : list Z) : option (tensor A) :=
  do ks <- mapM (axis (rank t)) ds;
  if distinct ks then
    Some (reindex (sizes t) (fun ix => map (fun k => if mem k ks then get (sizes t) k - 1 - get ix k else get ix k) (seq 0 (length (sizes t)))) t)
  else None.
(** aten.transpose.int *)
Definition transpose t (d0 d1 : Z) : option (tensor A) :=
  do a <- axis (rank t) d0; do b <- axis (rank t) d1; Some (reindex (swap a b (sizes t)) (swap a b) t).
(** aten.permute: axis k of the result is axis ds[k]. *)
Definition permute t (ds : list Z) : option (tensor A) :=
  if zlen ds =? rank t then
    do ks <- mapM (axis (rank t)) ds;
    if distinct ks then
      Some (reindex (map (get (sizes t)) ks) (fun ix => map (fun k => get ix (position k ks)) (seq 0 (length (sizes t)))) t)
    else None
  else None.
(** aten.unsqueeze and aten.squeeze.dim *)
Definition unsqueeze t (d : Z) : option (tensor A) :=
  do k <- axis (rank t + 1) d; Some (reindex (insert k 1 (sizes t)) (remove k) t).
Definition squeeze t (d : Z) : option (tensor A) :=
  do k <- axis (rank t) d; Some (if get (sizes t) k =? 1 then reindex (remove k (sizes t)) (insert k 0) t else t).
(** aten.cat *)
Fixpoint pick (k : nat) t (ts : list (tensor A)) (ix : list Z) : A :=
  let n := get (sizes t) k in
  match ts with
  | [] => elt t ix
  | u :: ts => if get ix k <? n then elt t ix else pick k u ts (put ix k (get ix k - n))
  end.
Definition cat (ts : list (tensor A)) (d : Z) : option (tensor A) :=
  match ts with
  | [] => None
  | t :: r =>
      do k <- axis (rank t) d;
      if forallb (fun u => sizes_eqb (put (sizes u) k 0) (put (sizes t) k 0)) r then
        Some {| sizes := put (sizes t) k (sumZ (map (fun u => get (sizes u) k) ts)); elt := pick k t r |}
      else None
  end.
(** aten.view and aten.reshape: one size may be -1. *)
Definition infer (n : Z) (s : list Z) : option (list Z) :=
  let given := filter (fun x => negb (x =? -1)) s in
  if existsb (fun x => x <? 0) given then None
  else match length (filter (fun x => x =? -1) s) with
       | O => if prodZ s =? n then Some s else None
       | S O =>
           let p := prodZ given in
           if (p =? 0) || negb (n mod p =? 0) then None else Some (map (fun x => if x =? -1 then n / p else x) s)
       | _ => None
       end.
Definition view t (s : list Z) : option (tensor A) :=
  do s' <- infer (prodZ (sizes t)) s; Some (reindex s' (fun ix => unravel (sizes t) (ravel s' ix)) t).
(** aten.expand and aten.broadcast_to: the last sizes are matched, -1 is no change. *)
Fixpoint expanded (s want : list Z) : option (list Z) :=
  match s, want with
  | [], [] => Some []
  | n :: s, w :: want =>
      do r <- expanded s want;
      if (w =? -1) || (w =? n) then Some (n :: r) else if (n =? 1) && (0 <=? w) then Some (w :: r) else None
  | _, _ => None
  end.
Fixpoint from (s ix : list Z) : list Z :=
  match s, ix with n :: s, i :: ix => (if n =? 1 then 0 else i) :: from s ix | _, _ => [] end.
Definition expand t (want : list Z) : option (tensor A) :=
  let b := (length want - length (sizes t))%nat in
  if zlen want <? rank t then None
  else if existsb (fun w => w <? 0) (firstn b want) then None
  else
    do r <- expanded (sizes t) (skipn b want);
    Some (reindex (firstn b want ++ r) (fun ix => from (sizes t) (skipn b ix)) t).
(** prims.split_dim and prims.collapse: dimensions count from the start; the end is inclusive. *)
Definition split_dim t (d outer : Z) : option (tensor A) :=
  if (0 <=? d) && (d <? rank t) && (0 <? outer) then
    let k := Z.to_nat d in
    let n := get (sizes t) k in
    if n mod outer =? 0 then
      Some (reindex (insert k outer (put (sizes t) k (n / outer))) (fun ix => put (remove k ix) k (get ix k * (n / outer) + get ix (S k))) t)
    else None
  else None.
Definition merge_sizes (a b : nat) (s : list Z) : list Z := firstn a s ++ prodZ (firstn (S b - a) (skipn a s)) :: skipn (S b) s.
Definition spread (a b : nat) (s ix : list Z) : list Z := firstn a ix ++ unravel (firstn (S b - a) (skipn a s)) (get ix a) ++ skipn (S a) ix.
Definition collapse t (start stop : Z) : option (tensor A) :=
  if (0 <=? start) && (start <=? stop) && (stop <? rank t) then
    let a := Z.to_nat start in let b := Z.to_nat stop in Some (reindex (merge_sizes a b (sizes t)) (spread a b (sizes t)) t)
  else None.
(** aten.flatten.using_ints: a tensor without dimensions becomes a vector of one element. *)
Definition flatten t (start stop : Z) : option (tensor A) :=
  match sizes t with
  | [] => if (-1 <=? start) && (start <=? 0) && (-1 <=? stop) && (stop <=? 0) then Some (reindex [1] (fun _ => []) t) else None
  | _ =>
      do a <- axis (rank t) start; do b <- axis (rank t) stop;
      if Nat.leb a b then Some (reindex (merge_sizes a b (sizes t)) (spread a b (sizes t)) t) else None
  end.
End Ops.
