(** What PyTorch computes for the operations of DecReshapeModel.v, in terms of indices. *)
From Coq Require Import ZArith List Lia Bool.
From Verif Require Import Prelude TensorOps.
Import ListNotations.
Open Scope Z_scope.

Fixpoint zip_with (f : Z -> Z -> Z) (a b : list Z) : list Z :=
  match a, b with x :: a, y :: b => f x y :: zip_with f a b | _, _ => [] end.
(** The last component is the size of the last axis, and so on. *)
Definition padded (n : nat) (l : list Z) : list Z := repeat 1 (n - length l) ++ l.
(** Repeats of the numbers of a list: 0 as often as the first number says, and so on. *)
Fixpoint interleaved (i : Z) (repeats : list Z) : list Z :=
  match repeats with [] => [] | r :: repeats => repeat i (Z.to_nat r) ++ interleaved (i + 1) repeats end.

Section Meanings.
Context {A : Type}.
Implicit Types t : tensor A.
(** torch.unflatten: an axis becomes several, in row-major order; one size may be left to find. *)
Definition torch_unflatten t (dim : Z) (ss : list Z) : option (tensor A) :=
  do k <- axis (rank t) dim;
  do ss' <- infer (get (sizes t) k) ss;
  let m := length ss' in
  Some (reindex (firstn k (sizes t) ++ ss' ++ skipn (S k) (sizes t))
                (fun ix => firstn k ix ++ ravel ss' (firstn m (skipn k ix)) :: skipn (k + m) ix) t).
(** torch.pixel_shuffle: each r by r square of the result comes from r * r channels. *)
Definition torch_pixel_shuffle t (r : Z) : option (tensor A) :=
  let n := (length (sizes t) - 3)%nat in
  let c := get (sizes t) n in let h := get (sizes t) (n + 1) in let w := get (sizes t) (n + 2) in
  if (rank t <? 3) || (r <=? 0) || negb (c mod (r * r) =? 0) then None
  else Some (reindex (firstn n (sizes t) ++ [c / (r * r); h * r; w * r])
    (fun ix => firstn n ix ++ [get ix n * (r * r) + (get ix (n + 1) mod r) * r + get ix (n + 2) mod r; get ix (n + 1) / r; get ix (n + 2) / r]) t).
(** torch.pixel_unshuffle: the other way round. *)
Definition torch_pixel_unshuffle t (r : Z) : option (tensor A) :=
  let n := (length (sizes t) - 3)%nat in
  let c := get (sizes t) n in let h := get (sizes t) (n + 1) in let w := get (sizes t) (n + 2) in
  if (rank t <? 3) || (r <=? 0) || negb (h mod r =? 0) || negb (w mod r =? 0) then None
  else Some (reindex (firstn n (sizes t) ++ [c * (r * r); h / r; w / r])
    (fun ix => let c := get ix n in
       firstn n ix ++ [c / (r * r); get ix (n + 1) * r + (c mod (r * r)) / r; get ix (n + 2) * r + (c mod (r * r)) mod r]) t).
(** torch.channel_shuffle: the channels of [g] groups are taken in turn. *)
Definition torch_channel_shuffle t (g : Z) : option (tensor A) :=
  let c := get (sizes t) 1 in
  if (rank t <? 3) || (g <=? 0) || negb (c mod g =? 0) then None
  else Some (reindex (sizes t) (fun ix => put ix 1 ((get ix 1 mod g) * (c / g) + get ix 1 / g)) t).
(** Tensor.repeat and torch.tile: copies along each axis, missing axes in front. *)
Definition copies t (n : nat) (repeats : list Z) : tensor A :=
  let b := (n - length (sizes t))%nat in
  reindex (zip_with Z.mul (padded n repeats) (padded n (sizes t))) (fun ix => zip_with Z.modulo (skipn b ix) (sizes t)) t.
Definition torch_repeat t (repeats : list Z) : option (tensor A) :=
  if (zlen repeats <? rank t) || existsb (fun r => r <? 0) repeats then None else Some (copies t (length repeats) repeats).
Definition torch_tile t (dims : list Z) : option (tensor A) :=
  if existsb (fun r => r <? 0) dims then None else Some (copies t (Nat.max (length dims) (length (sizes t))) dims).
(** torch.repeat_interleave: each position of an axis (or each element) several times. *)
Definition torch_repeat_interleave t (r : Z) (dim : option Z) : option (tensor A) :=
  if r <? 0 then None
  else match dim with
       | None => Some (reindex [prodZ (sizes t) * r] (fun ix => unravel (sizes t) (get ix 0 / r)) t)
       | Some d => do k <- axis (rank t) d; Some (reindex (put (sizes t) k (get (sizes t) k * r)) (fun ix => put ix k (get ix k / r)) t)
       end.
End Meanings.
