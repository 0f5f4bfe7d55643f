(** Floating-point elements of tensors and what PyTorch's basic operations on them compute.

    An element is NaN, an infinity or a rational number. Operations on rationals are exact: rounding,
    overflow and the sign of zero are not modelled (a quotient by zero has the sign of the dividend).
    NaN and infinities behave as IEEE 754 says. This is the meaning that the decompositions of
    lib/Dialect/Torch/Transforms/DecomposeComplexOps.cpp are judged by; it is taken from PyTorch's
    documentation, not from this repository. *)
From Coq Require Import ZArith QArith Qround Bool List.
From Verif Require Import TensorOps.
Import ListNotations.
Open Scope Q_scope.

Inductive num := NaN | PInf | MInf | Fin (q : Q).
(** Equal elements: rationals are compared as numbers, NaN is the same as NaN. *)
Definition alike (x y : num) : Prop :=
  match x, y with NaN, NaN => True | PInf, PInf => True | MInf, MInf => True | Fin a, Fin b => a == b | _, _ => False end.
Infix "~=" := alike (at level 70).
Definition finite (x : num) : Prop := exists q, x = Fin q.
Definition int (z : Z) : num := Fin (inject_Z z).

(** * Comparisons: false if an operand is NaN *)
Definition qlt (a b : Q) : bool := negb (Qle_bool b a).
Definition lt (x y : num) : bool :=
  match x, y with
  | NaN, _ | _, NaN => false
  | MInf, MInf => false | MInf, _ => true | _, MInf => false
  | PInf, _ => false | _, PInf => true
  | Fin a, Fin b => qlt a b
  end.
Definition eq (x y : num) : bool :=
  match x, y with PInf, PInf => true | MInf, MInf => true | Fin a, Fin b => Qeq_bool a b | _, _ => false end.
Definition gt (x y : num) : bool := lt y x.
Definition le (x y : num) : bool := lt x y || eq x y.
(** aten.ne: true if an operand is NaN. *)
Definition ne (x y : num) : bool := negb (eq x y).

(** * Arithmetic *)
Definition neg (x : num) : num := match x with NaN => NaN | PInf => MInf | MInf => PInf | Fin a => Fin (- a) end.
Definition plus (x y : num) : num :=
  match x, y with
  | NaN, _ | _, NaN => NaN
  | PInf, MInf | MInf, PInf => NaN
  | PInf, _ | _, PInf => PInf
  | MInf, _ | _, MInf => MInf
  | Fin a, Fin b => Fin (a + b)
  end.
Definition signed (q : Q) (x : num) : num := if qlt 0 q then x else if qlt q 0 then neg x else NaN.
Definition mul (x y : num) : num :=
  match x, y with
  | NaN, _ | _, NaN => NaN
  | PInf, PInf | MInf, MInf => PInf
  | PInf, MInf | MInf, PInf => MInf
  | PInf, Fin b => signed b PInf
  | MInf, Fin b => signed b MInf
  | Fin a, PInf => signed a PInf
  | Fin a, MInf => signed a MInf
  | Fin a, Fin b => Fin (a * b)
  end.
Definition div (x y : num) : num :=
  match x, y with
  | NaN, _ | _, NaN => NaN
  | PInf, PInf | MInf, MInf | PInf, MInf | MInf, PInf => NaN
  | PInf, Fin b => if qlt b 0 then MInf else PInf
  | MInf, Fin b => if qlt b 0 then PInf else MInf
  | Fin _, PInf | Fin _, MInf => Fin 0
  | Fin a, Fin b => if Qeq_bool b 0 then signed a PInf else Fin (a / b)
  end.
(** aten.add and aten.sub: the second operand is multiplied by alpha. *)
Definition add (x y alpha : num) : num := plus x (mul alpha y).
Definition sub (x y alpha : num) : num := plus x (neg (mul alpha y)).
(** aten.maximum and aten.minimum: NaN if an operand is. *)
Definition maximum (x y : num) : num := match x, y with NaN, _ | _, NaN => NaN | _, _ => if lt x y then y else x end.
Definition minimum (x y : num) : num := match x, y with NaN, _ | _, NaN => NaN | _, _ => if lt y x then y else x end.
Definition relu (x : num) : num := maximum x (int 0).
Definition abs (x : num) : num := match x with NaN => NaN | PInf | MInf => PInf | Fin a => Fin (if qlt a 0 then - a else a) end.
(** aten.floor; aten.round rounds to the nearest integer, ties to even. *)
Definition floor (x : num) : num := match x with Fin a => int (Qfloor a) | _ => x end.
Definition nearest (q : Q) : Z :=
  let f := Qfloor q in
  let d := q - inject_Z f in
  if qlt d (1 # 2) then f else if qlt (1 # 2) d then (f + 1)%Z else if Z.even f then f else (f + 1)%Z.
Definition round (x : num) : num := match x with Fin a => int (nearest a) | _ => x end.
(** aten.clamp: min(max(x, lo), hi), without a missing bound. *)
Definition clamp (x : num) (lo hi : option num) : num :=
  let y := match lo with Some l => maximum x l | None => x end in
  match hi with Some h => minimum y h | None => y end.
(** aten.where *)
Definition select {A} (c : bool) (x y : A) : A := if c then x else y.
(** aten.exp of a function on the rationals. *)
Definition exp (e : Q -> Q) (x : num) : num := match x with NaN => NaN | PInf => PInf | MInf => Fin 0 | Fin a => Fin (e a) end.

(** * Broadcasting of tensors: trailing sizes are matched, a size 1 is stretched *)
Fixpoint stretch (a b : list Z) : option (list Z) :=
  match a, b with
  | [], _ => Some b
  | _, [] => Some a
  | x :: a, y :: b =>
      match stretch a b with
      | Some r => if Z.eqb x y then Some (x :: r) else if Z.eqb x 1 then Some (y :: r) else if Z.eqb y 1 then Some (x :: r) else None
      | None => None
      end
  end.
Definition broadcast (a b : list Z) : option (list Z) := option_map (@rev Z) (stretch (rev a) (rev b)).
Definition at_broadcast {A} (t : tensor A) (ix : list Z) : A :=
  elt t (from (sizes t) (skipn (length ix - length (sizes t)) ix)).
Definition map2 {A B C} (f : A -> B -> C) (t : tensor A) (u : tensor B) : option (tensor C) :=
  match broadcast (sizes t) (sizes u) with
  | Some s => Some {| sizes := s; elt := fun ix => f (at_broadcast t ix) (at_broadcast u ix) |}
  | None => None
  end.
Definition map1 {A B} (f : A -> B) (t : tensor A) : tensor B := {| sizes := sizes t; elt := fun ix => f (elt t ix) |}.
