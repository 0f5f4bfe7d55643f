(** Specification: what the expressions mean, and when a size is admitted by a range. *)
From Coq Require Import String ZArith List Lia Bool.
From Verif Require Import Prelude SymShapeModel.
Import ListNotations.
Open Scope Z_scope.

(** Value of a sympy expression; [None] when undefined (mod 0, negative exponent) or not
    an integer function we know. sympy's Mod has the sign of the divisor, like [Z.modulo]. *)
Fixpoint eval_sympy (env : string -> Z) (e : sexpr) : option Z :=
  match e with
  | ESym s => Some (env s)
  | EInt z => Some z
  | EAdd l => (fix go l := match l with
                           | [] => Some 0
                           | x :: r => match eval_sympy env x, go r with
                                       | Some a, Some b => Some (a + b)
                                       | _, _ => None end
                           end) l
  | EMul l => (fix go l := match l with
                           | [] => Some 1
                           | x :: r => match eval_sympy env x, go r with
                                       | Some a, Some b => Some (a * b)
                                       | _, _ => None end
                           end) l
  | EPow b ex => match eval_sympy env b, eval_sympy env ex with
                 | Some x, Some k => if 0 <=? k then Some (x ^ k) else None
                 | _, _ => None end
  | EMod a b => match eval_sympy env a, eval_sympy env b with
                | Some x, Some y => if y =? 0 then None else Some (x mod y)
                | _, _ => None end
  | EOther _ _ => None
  end.

(** Value of an affine expression on symbol operands; MLIR defines [mod] only for a
    positive right-hand side, with a result in [0, rhs). *)
Fixpoint eval_affine (syms : list Z) (a : aexpr) : option Z :=
  match a with
  | ASymE i => nth_error syms i
  | AConst z => Some z
  | AAdd x y => match eval_affine syms x, eval_affine syms y with
                | Some u, Some v => Some (u + v) | _, _ => None end
  | AMul x y => match eval_affine syms x, eval_affine syms y with
                | Some u, Some v => Some (u * v) | _, _ => None end
  | AMod x y => match eval_affine syms x, eval_affine syms y with
                | Some u, Some v => if 0 <? v then Some (u mod v) else None
                | _, _ => None end
  end.

(** The supported fragment: what may be translated. *)
Inductive supported (known : string -> Prop) : sexpr -> Prop :=
| su_sym : forall s, known s -> supported known (ESym s)
| su_int : forall z, supported known (EInt z)
| su_add : forall l, Forall (supported known) l -> supported known (EAdd l)
| su_mul : forall l, Forall (supported known) l -> supported known (EMul l)
| su_pow : forall b k, supported known b -> 0 < k -> supported known (EPow b (EInt k))
| su_mod : forall a b, supported known a -> supported known b -> supported known (EMod a b).

(** Every modulo inside has a positive divisor under [env]. *)
Inductive mods_positive (env : string -> Z) : sexpr -> Prop :=
| mp_sym : forall s, mods_positive env (ESym s)
| mp_int : forall z, mods_positive env (EInt z)
| mp_add : forall l, Forall (mods_positive env) l -> mods_positive env (EAdd l)
| mp_mul : forall l, Forall (mods_positive env) l -> mods_positive env (EMul l)
| mp_pow : forall b k, mods_positive env b -> mods_positive env (EPow b (EInt k))
| mp_mod : forall a b y, mods_positive env a -> mods_positive env b ->
    eval_sympy env b = Some y -> 0 < y -> mods_positive env (EMod a b).

(** Size of a dimension. *)
Definition dim_value (env : string -> Z) (d : sdim) : option Z :=
  match d with DInt z => Some z | DSym e => eval_sympy env e end.

(** [n] is allowed by a lower / upper bound (rationals by cross-multiplication). *)
Definition ge_lower (b : bnd) (n : Z) : Prop :=
  match b with
  | BInt z => z <= n
  | BRat p q => p <= n * q
  | BOo | BIntOo => False
  | BNegOo | BNegIntOo => True
  | BBool => False
  end.
Definition le_upper (b : bnd) (n : Z) : Prop :=
  match b with
  | BInt z => n <= z
  | BRat p q => n * q <= p
  | BOo | BIntOo => True
  | BNegOo | BNegIntOo => False
  | BBool => False
  end.
Definition wf_bnd (b : bnd) : Prop := match b with BRat _ q => 0 < q | _ => True end.

(** A range of integers: both bounds integers or integer infinities, not a boolean. *)
Definition integer_bound (b : bnd) : Prop := b = BIntOo \/ b = BNegIntOo \/ exists z, b = BInt z.
Definition integer_range (r : vrange) : Prop :=
  integer_bound (r_lower r) /\ integer_bound (r_upper r) /\ r_is_bool r = false.
(** A bound that a signed 64-bit attribute can hold (rationals rounded inwards). *)
Definition fits64 (z : Z) : Prop := - 2 ^ 63 <= z <= 2 ^ 63 - 1.
Definition bound_fits (b : bnd) : Prop :=
  match b with
  | BInt z => fits64 z
  | BRat p q => 0 < q /\ - 2 ^ 63 * q <= p <= (2 ^ 63 - 1) * q
  | BBool => False
  | _ => True
  end.
