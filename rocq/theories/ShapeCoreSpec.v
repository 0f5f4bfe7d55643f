(** What the shapes of tensor operators should be, independently of the functions that
    compute them. *)
From Coq Require Import ZArith Bool List Permutation.
From Verif Require Import Prelude.
Import ListNotations.
Open Scope Z_scope.

(** The [k]-th size from the right; missing sizes are 1. *)
Definition rdim (s : list Z) (k : nat) : Z := nth k (rev s) 1.
(** [z] is the broadcast of [x] and [y]: both expand to it and it is one of them. *)
Definition bcast1 (x y z : Z) : Prop :=
  (x = z \/ x = 1) /\ (y = z \/ y = 1) /\ (z = x \/ z = y).
Definition broadcasts (a b c : list Z) : Prop :=
  length c = Nat.max (length a) (length b) /\
  forall k, (k < length c)%nat -> bcast1 (rdim a k) (rdim b k) (rdim c k).

(** Dimension argument [d] of a tensor of rank [r] denotes axis [k]. *)
Definition denotes (r : nat) (d : Z) (k : nat) : Prop :=
  (k < r)%nat /\ (d = Z.of_nat k \/ d = Z.of_nat k - Z.of_nat r).

(** [expand]: size [x] (absent for a new leading dim) expanded to the request [t]. *)
Inductive expands1 : option Z -> Z -> Z -> Prop :=
| ex_keep : forall x, expands1 (Some x) (-1) x
| ex_same : forall x, x <> -1 -> expands1 (Some x) x x
| ex_one : forall t, t <> -1 -> expands1 (Some 1) t t
| ex_new : forall t, t <> -1 -> expands1 None t t.
Definition expands_to (s req out : list Z) : Prop :=
  (length s <= length req)%nat /\ length out = length req /\
  forall k t o, nth_error (rev req) k = Some t -> nth_error (rev out) k = Some o ->
    expands1 (nth_error (rev s) k) t o.

(** [view]: [out] matches the request, at most one -1, and keeps the number of elements. *)
Definition fits1 (t o : Z) : Prop := (t = -1 /\ 0 <= o) \/ (0 <= t /\ o = t).
Definition view_of (n : Z) (req out : list Z) : Prop :=
  (count_occ Z.eq_dec req (-1)%Z <= 1)%nat /\ Forall2 fits1 req out /\ prodZ out = n.

(** Python's [start:stop:step] on a sequence of length [d]. *)
Definition clamp (lo hi x : Z) : Z := Z.max lo (Z.min hi x).
Definition resolve_bound (d x : Z) : Z := if x <? 0 then x + d else x.
Definition py_slice_indices (d : Z) (start stop : option Z) (step : Z) : list Z :=
  if 0 <? step then
    let lo := match start with Some x => clamp 0 d (resolve_bound d x) | None => 0 end in
    let hi := match stop with Some x => clamp 0 d (resolve_bound d x) | None => d end in
    filter (fun i => (lo <=? i) && (i <? hi) && ((i - lo) mod step =? 0)) (zrange 0 d)
  else
    let lo := match start with Some x => clamp (-1) (d - 1) (resolve_bound d x) | None => d - 1 end in
    let hi := match stop with Some x => clamp (-1) (d - 1) (resolve_bound d x) | None => -1 end in
    filter (fun i => (hi <? i) && (i <=? lo) && ((lo - i) mod (- step) =? 0)) (zrange 0 d).

(** [s] without axis [k]; [s] with size [v] inserted at axis [k]. *)
Definition drop_at (k : nat) (s : list Z) : list Z := firstn k s ++ skipn (S k) s.
Definition insert_at (k : nat) (v : Z) (s : list Z) : list Z := firstn k s ++ v :: skipn k s.
(** The sizes of the axes that satisfy [p], in order. *)
Fixpoint keep_axes_from (i : nat) (p : nat -> bool) (s : list Z) : list Z :=
  match s with
  | [] => []
  | x :: r => if p i then x :: keep_axes_from (S i) p r else keep_axes_from (S i) p r
  end.
Definition keep_axes := keep_axes_from 0.

(** matmul: split a shape of rank >= 1 into batch dims and matrix dims. *)
Inductive mat_shape : list Z -> list Z -> Z -> Z -> Prop :=
| ms_matrix : forall batch r c, mat_shape (batch ++ [r; c]) batch r c.
(** [matmul_shape a b c]: the result shape of a product whose contraction sizes agree. *)
Inductive matmul_shape : list Z -> list Z -> list Z -> Prop :=
| mms_vv : forall n, matmul_shape [n] [n] []
| mms_vm : forall n batch c b, mat_shape b batch n c -> matmul_shape [n] b (batch ++ [c])
| mms_mv : forall n batch r a, mat_shape a batch r n -> matmul_shape a [n] (batch ++ [r])
| mms_mm : forall ba bb bc r n c a b, mat_shape a ba r n -> mat_shape b bb n c ->
    broadcasts ba bb bc -> matmul_shape a b (bc ++ [r; c]).

(** Tensors cat leaves out: one-dimensional and empty. *)
Definition legacy_empty (t : list Z) : Prop := t = [0].
(** Two shapes agree except at axis [k]. *)
Definition agree_except (k : nat) (a b : list Z) : Prop :=
  length a = length b /\ forall i, i <> k -> nth_error a i = nth_error b i.
