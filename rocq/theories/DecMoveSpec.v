(** What PyTorch computes for the operations of DecMoveModel.v, in terms of indices. *)
From Coq Require Import ZArith List Lia Bool.
From Verif Require Import Prelude TensorOps.
Import ListNotations.
Open Scope Z_scope.

Section Meanings.
Context {A : Type}.
Implicit Types t : tensor A.
(** torch.select: one position of an axis. *)
Definition torch_select t (dim index : Z) : option (tensor A) :=
  do k <- axis (rank t) dim;
  let n := get (sizes t) k in
  if (- n <=? index) && (index <? n)
  then Some (reindex (remove k (sizes t)) (insert k (if index <? 0 then index + n else index)) t) else None.
(** torch.narrow: [length] positions of an axis. *)
Definition torch_narrow t (dim start length : Z) : option (tensor A) :=
  do k <- axis (rank t) dim;
  let n := get (sizes t) k in
  let s := if start <? 0 then start + n else start in
  if (0 <=? s) && (0 <=? length) && (s + length <=? n)
  then Some (reindex (put (sizes t) k length) (fun ix => put ix k (s + get ix k)) t) else None.
(** torch.split: consecutive parts. *)
Fixpoint parts t (k : nat) (start : Z) (split : list Z) : list (tensor A) :=
  match split with
  | [] => []
  | n :: rest => reindex (put (sizes t) k n) (fun ix => put ix k (start + get ix k)) t :: parts t k (start + n) rest
  end.
Definition torch_split t (split : list Z) (dim : Z) : option (list (tensor A)) :=
  do k <- axis (rank t) dim;
  if forallb (fun n => 0 <=? n) split && (sumZ split =? get (sizes t) k) then Some (parts t k 0 split) else None.
(** torch.fliplr and torch.flipud: the second, and the first axis backwards. *)
Definition backwards (k : nat) t : tensor A := reindex (sizes t) (fun ix => put ix k (get (sizes t) k - 1 - get ix k)) t.
Definition torch_fliplr t : option (tensor A) := if rank t <? 2 then None else Some (backwards 1 t).
Definition torch_flipud t : option (tensor A) := if rank t <? 1 then None else Some (backwards 0 t).
(** torch.stack: tensors of the same sizes along a new axis. *)
Definition torch_stack (ts : list (tensor A)) (dim : Z) : option (tensor A) :=
  match ts with
  | [] => None
  | t :: r =>
      do k <- axis (rank t + 1) dim;
      if forallb (fun u => sizes_eqb (sizes u) (sizes t)) r
      then Some {| sizes := insert k (zlen ts) (sizes t); elt := fun ix => elt (nth (Z.to_nat (get ix k)) ts t) (remove k ix) |} else None
  end.
(** torch.atleast_1d, atleast_2d, hstack and column_stack. *)
Definition vector t : tensor A := match sizes t with [] => reindex [1] (fun _ => []) t | _ => t end.
Definition matrix_row t : tensor A := match sizes t with [] => reindex [1; 1] (fun _ => []) t | [n] => reindex [1; n] (skipn 1) t | _ => t end.
Definition matrix_column t : tensor A := match sizes t with [] => reindex [1; 1] (fun _ => []) t | [n] => reindex [n; 1] (firstn 1) t | _ => t end.
Definition torch_hstack (ts : list (tensor A)) : option (tensor A) :=
  match ts with [] => None | t :: _ => cat (map vector ts) (if rank (vector t) =? 1 then 0 else 1) end.
Definition torch_column_stack (ts : list (tensor A)) : option (tensor A) := cat (map matrix_column ts) 1.
(** torch.roll: what was at i is at i + shift, around the end. *)
Definition rolled (k : nat) (shift : Z) t : tensor A :=
  reindex (sizes t) (fun ix => put ix k ((get ix k - shift) mod get (sizes t) k)) t.
Definition torch_roll t (shifts dims : list Z) : option (tensor A) :=
  foldM (fun t sd => do k <- axis (rank t) (snd sd); Some (rolled k (fst sd) t)) (combine shifts dims) t.
(** torch.t, Tensor.T and torch.movedim. *)
Definition torch_t t : option (tensor A) :=
  match sizes t with
  | [] | [_] => Some t
  | [a; b] => Some {| sizes := [b; a]; elt := fun ix => elt t [get ix 1; get ix 0] |}
  | _ => None
  end.
Definition reversed t : tensor A := reindex (rev (sizes t)) (fun ix => rev ix) t.
Definition torch_movedim t (src dst : Z) : option (tensor A) :=
  do s <- axis (rank t) src; do d <- axis (rank t) dst;
  Some (reindex (insert d (get (sizes t) s) (remove s (sizes t))) (fun ix => insert s (get ix d) (remove d ix)) t).
(** torch.rot90: quarter turns from the first axis towards the second. *)
Definition quarter (a b : nat) t : tensor A :=
  reindex (swap a b (sizes t)) (fun ix => put (put ix a (get ix b)) b (get (sizes t) b - 1 - get ix a)) t.
Fixpoint turned (n a b : nat) t : tensor A := match n with O => t | S n => turned n a b (quarter a b t) end.
Definition torch_rot90 t (k d0 d1 : Z) : option (tensor A) :=
  do a <- axis (rank t) d0; do b <- axis (rank t) d1;
  if Nat.eqb a b then None else Some (turned (Z.to_nat (k mod 4)) a b t).
(** prims.squeeze: all the axes that are named go; they have size 1. *)
Fixpoint without {B} (k : nat) (ds : list Z) (l : list B) : list B :=
  match l with [] => [] | x :: r => if existsb (Z.eqb (Z.of_nat k)) ds then without (S k) ds r else x :: without (S k) ds r end.
Fixpoint zeros_in (r k : nat) (ds : list Z) (ix : list Z) : list Z :=
  match r with
  | O => []
  | S r => if existsb (Z.eqb (Z.of_nat k)) ds then 0 :: zeros_in r (S k) ds ix
           else match ix with i :: ix => i :: zeros_in r (S k) ds ix | [] => [] end
  end.
Definition prims_squeeze t (dims : list Z) : option (tensor A) :=
  if forallb (fun d => (0 <=? d) && (d <? rank t) && (get (sizes t) (Z.to_nat d) =? 1)) dims
  then Some (reindex (without 0 dims (sizes t)) (zeros_in (length (sizes t)) 0 dims) t) else None.
End Meanings.
