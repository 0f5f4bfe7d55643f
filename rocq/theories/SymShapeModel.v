(** Model of the symbolic-shape part of python/torch_mlir/extras/fx_importer.py. *)
From Coq Require Import String ZArith List Lia Bool.
From Verif Require Import Prelude.
Import ListNotations.
Open Scope Z_scope.

(** Sympy expressions as inspected at fx_importer.py:357-395. [EOther] stands for any
    other class (Rational, floor, Max, ...). *)
Inductive sexpr :=
| ESym (s : string)
| EInt (z : Z)
| EAdd (args : list sexpr)
| EMul (args : list sexpr)
| EPow (base exp : sexpr)
| EMod (dividend divisor : sexpr)
| EOther (k : nat) (args : list sexpr).

(** MLIR affine expressions as built by the code (affine.AffineExpr). The builders'
    constant folding is not modelled: trees are kept as requested. *)
Inductive aexpr :=
| ASymE (i : nat)
| AConst (z : Z)
| AAdd (a b : aexpr)
| AMul (a b : aexpr)
| AMod (a b : aexpr).

(** [symbols_map]: python dict from symbol name to affine symbol position. *)
Definition symmap := list (string * nat).
Fixpoint map_get (m : symmap) (s : string) : option nat :=
  match m with
  | [] => None
  | (k, i) :: r => if String.eqb k s then Some i else map_get r s
  end.

(** fx_importer.py:378-384: [for _ in range(exp): affine_expr = Mul(affine_expr, base)]. *)
Fixpoint pow_loop (n : nat) (acc base : aexpr) : aexpr :=
  match n with
  | O => acc
  | S n' => pow_loop n' (AMul acc base) base
  end.

(** fx_importer.py:342-395 [sympy_expr_to_semi_affine_expr]; [None] is KeyError,
    AssertionError or NotImplementedError. *)
Fixpoint to_affine (m : symmap) (e : sexpr) : option aexpr :=
  match e with
  | ESym s => option_map ASymE (map_get m s)                       (* l.357-358 *)
  | EInt z => Some (AConst z)                                      (* l.359-360 *)
  | EAdd args =>                                                   (* l.364-370 *)
      (fix go (l : list sexpr) (acc : aexpr) : option aexpr :=
         match l with
         | [] => Some acc
         | x :: r => match to_affine m x with
                     | Some a => go r (AAdd acc a)
                     | None => None
                     end
         end) args (AConst 0)
  | EMul args =>                                                   (* l.371-377 *)
      (fix go (l : list sexpr) (acc : aexpr) : option aexpr :=
         match l with
         | [] => Some acc
         | x :: r => match to_affine m x with
                     | Some a => go r (AMul acc a)
                     | None => None
                     end
         end) args (AConst 1)
  | EPow b ex =>                                                   (* l.378-388 *)
      match ex with
      | EInt k => if 0 <? k then
                    match to_affine m b with
                    | Some a => Some (pow_loop (Z.to_nat k) (AConst 1) a)
                    | None => None
                    end
                  else None
      | _ => None
      end
  | EMod a b =>                                                    (* l.389-394 *)
      match to_affine m a, to_affine m b with
      | Some x, Some y => Some (AMod x y)
      | _, _ => None
      end
  | EOther _ _ => None                                             (* l.395-398 *)
  end.

(** sympy's [expr.free_symbols] (as a list with repetitions). *)
Fixpoint free_syms (e : sexpr) : list string :=
  match e with
  | ESym s => [s]
  | EInt _ => []
  | EAdd l | EMul l | EOther _ l => flat_map free_syms l
  | EPow a b | EMod a b => free_syms a ++ free_syms b
  end.

(** A tensor dimension: a Python int or a SymInt with its expression. *)
Inductive sdim := DInt (z : Z) | DSym (e : sexpr).
Definition dim_syms (d : sdim) : list string :=
  match d with DInt _ => [] | DSym e => free_syms e end.
Definition dim_expr (d : sdim) : sexpr := match d with DInt z => EInt z | DSym e => e end.

(** [sorted(symbols_set, key=name)] (fx_importer.py:2185). *)
Fixpoint insert_name (s : string) (l : list string) : list string :=
  match l with
  | [] => [s]
  | x :: r => if String.leb s x then s :: x :: r else x :: insert_name s r
  end.
Definition sort_names (l : list string) : list string := fold_right insert_name [] l.

Definition enumerate {A} (l : list A) : list (A * nat) := combine l (seq 0 (length l)).

(** fx_importer.py:2167-2216 [_create_bind_symbolic_shape_ops]: affine expressions of the
    emitted op and the symbols whose values are its operands. [bound] are the names with a
    [torch.symbolic_int] (resolve_symbol_value raises for others). *)
Definition bind_symbolic_shape (bound : list string) (dims : list sdim)
  : option (list aexpr * list string) :=
  let symbols := sort_names (nodup string_dec (flat_map dim_syms dims)) in
  let symbols_map := enumerate symbols in
  do exprs <- mapM (fun d => to_affine symbols_map (dim_expr d)) dims;
  do operands <- mapM (fun s => if existsb (String.eqb s) bound then Some s else None)
                      (map fst symbols_map);
  Some (exprs, operands).

(** ** Range guards *)
(** Bounds of a sympy value range: integers, non-integer rationals [p/q], the two kinds
    of infinity, and boolean atoms. *)
Inductive bnd :=
| BInt (z : Z) | BRat (p q : Z) | BOo | BNegOo | BIntOo | BNegIntOo | BBool.
Record vrange := { r_lower : bnd; r_upper : bnd; r_is_bool : bool }.

Definition int64_max : Z := 9223372036854775807.
Definition int64_min : Z := -9223372036854775808.

(** fx_importer.py:1346-1355 [_sympy_int_to_int]; [up] selects math.ceil. math.ceil of a
    boolean atom raises. *)
Definition sympy_int_to_int (up : bool) (v : bnd) : option Z :=
  match v with
  | BOo | BIntOo => Some int64_max
  | BNegOo | BNegIntOo => Some int64_min
  | BInt z => Some z
  | BRat p q => Some (if up then - ((- p) / q) else p / q)
  | BBool => None
  end.

(** fx_importer.py:1358-1362 [sym_int_types] (recent PyTorch: with int_oo). *)
Definition is_sym_int (b : bnd) : bool :=
  match b with BInt _ | BIntOo | BNegIntOo => true | _ => false end.

(** fx_importer.py:1337-1388 [set_symbolic_guards] as a state update of
    [_symbolic_guards]. *)
Definition set_symbolic_guards (old : list (string * (Z * Z)))
    (ranges : list (string * vrange)) : option (list (string * (Z * Z))) :=
  if existsb (fun kv => is_sym_int (r_lower (snd kv)) && is_sym_int (r_upper (snd kv))
                        && negb (r_is_bool (snd kv))) ranges
  then mapM (fun kv => do lo <- sympy_int_to_int true (r_lower (snd kv));
                       do hi <- sympy_int_to_int false (r_upper (snd kv));
                       Some (fst kv, (lo, hi))) ranges
  else Some old.

(** [integer_attr(v, 64)] (fx_importer.py:2157-2158): a 64-bit attribute; Python ints that
    do not fit are rejected by the binding. *)
Definition integer_attr64 (z : Z) : option Z :=
  if (int64_min <=? z) && (z <=? int64_max) then Some z else None.

(** fx_importer.py:2149-2165 [_import_shape_symbols_with_guards]. *)
Definition import_guards (g : list (string * (Z * Z))) : option (list (string * (Z * Z))) :=
  mapM (fun kv => do lo <- integer_attr64 (fst (snd kv));
                  do hi <- integer_attr64 (snd (snd kv));
                  Some (fst kv, (lo, hi))) g.
