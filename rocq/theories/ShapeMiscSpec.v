(** What collapsing, splitting, diagonals, padding, repetition and advanced indexing do to a
    shape, independently of the functions that compute it. *)
From Coq Require Import ZArith Bool List.
From Verif Require Import Prelude ShapeCoreSpec.
Import ListNotations.
Open Scope Z_scope.

(** [out] is [a] with the axes [s..e] merged into one. *)
Definition merged (s e : nat) (a out : list Z) : Prop :=
  exists pre mid post, a = pre ++ mid ++ post /\ length pre = s /\ (s + length mid = S e)%nat /\
    (s <= e)%nat /\ out = pre ++ prodZ mid :: post.
(** [out] is [a] with axis [k] replaced by the axes [mid]. *)
Definition axis_split (k : nat) (mid a out : list Z) : Prop :=
  exists pre d post, a = pre ++ d :: post /\ length pre = k /\ out = pre ++ mid ++ post.

(** The positions (i, j) of a row x col matrix. *)
Definition cells (row col : Z) : list (Z * Z) := list_prod (zrange 0 row) (zrange 0 col).
(** On or below the diagonal [offset], on or above it. *)
Definition lower (offset : Z) (p : Z * Z) : bool := snd p - fst p <=? offset.
Definition upper (offset : Z) (p : Z * Z) : bool := offset <=? snd p - fst p.
(** The positions on the diagonal [offset]. *)
Definition on_diag (offset : Z) (p : Z * Z) : bool := snd p - fst p =? offset.

(** Padding: the [k]-th axis from the right grows by the [k]-th (low, high) pair. *)
Definition pad_at (pad : list Z) (k : nat) : Z := nth (2 * k) pad 0 + nth (2 * k + 1) pad 0.
Definition padded (s pad out : list Z) : Prop :=
  length out = length s /\
  forall k, (k < length s)%nat -> rdim out k = rdim s k + pad_at pad k.

(** Advanced indexing: the shapes of the index tensors, the sizes of the axes not indexed. *)
Definition index_shapes (ix : list (option (list Z))) : list (list Z) :=
  flat_map (fun o => match o with Some s => [s] | None => [] end) ix.
Fixpoint unindexed (s : list Z) (ix : list (option (list Z))) : list Z :=
  match s, ix with
  | x :: s', None :: ix' => x :: unindexed s' ix'
  | _ :: s', Some _ :: ix' => unindexed s' ix'
  | s, [] => s
  | [], _ => []
  end.
(** [out] is the broadcast of all shapes in [l]. *)
Inductive broadcast_all : list (list Z) -> list Z -> Prop :=
| ba_nil : broadcast_all [] []
| ba_snoc : forall l s b c, broadcast_all l b -> broadcasts b s c -> broadcast_all (l ++ [s]) c.
