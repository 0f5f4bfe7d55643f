(** What the coordinates of a triangle are (torch.triu_indices, torch.tril_indices): the row numbers
    and the column numbers of its positions, row after row (ShapeMiscSpec.cells). *)
From Coq Require Import ZArith Bool List.
From Verif Require Import Prelude ShapeMiscSpec.
Import ListNotations.
Open Scope Z_scope.

Definition positions (inside : Z * Z -> bool) (rows cols : Z) : list (Z * Z) := filter inside (cells rows cols).
Definition coordinates (l : list (Z * Z)) : list (list Z) := [map fst l; map snd l].

(** [k] is the floor of the real number of which [below j] says whether [j] is at most that number. *)
Definition is_floor (below : Z -> Prop) (k : Z) : Prop := forall j, j <= k <-> below j.
(** [j <= (a - sqrt d) / 2] and [j <= (a + sqrt d) / 2], without square roots, for [0 <= d]. *)
Definition below_minus (a d j : Z) : Prop := 0 <= a - 2 * j /\ d <= (a - 2 * j) * (a - 2 * j).
Definition below_plus (a d j : Z) : Prop := 2 * j - a <= 0 \/ (2 * j - a) * (2 * j - a) <= d.
