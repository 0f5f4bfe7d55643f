(** Calling library functions from the compiler: the arguments passed to them and the functions that are imported.

    Sources under /repo/lib/Dialect/Torch/Transforms: reify = ReifyAbstractInterpCalculationsUtils.cpp,
    rshape = ReifyShapeCalculations.cpp, rdtype = ReifyDtypeCalculations.cpp.
    The operations that are created are the constructors of [code], from the operand to the argument. *)
From Coq Require Import ZArith Bool String List.
From Verif Require Import Prelude DtypeModel TypesModel.
Import ListNotations.
Open Scope list_scope.

(** The operations: none; aten.size; aten.size, aten.len.t, prim.dtype and prim.TupleConstruct; aten.Float.Scalar; torch.derefine after other
    operations; prim.If on aten.__is__ with None, with prim.unchecked_cast in the other branch; and prim.Loop over aten.__getitem__.t and
    aten.append.t. Types: of the operand and result of derefine, of the branches, of the cast, of the list and of the elements taken. *)
Inductive code :=
| Keep
| Size
| RankAndDtype
| FloatScalar
| Derefine (c : code) (from to : ty)
| IfNone (result cast : ty) (c : code)
| Loop (result element : ty) (c : code).

(** baseTransformation for shape functions, rshape l.42-54. *)
Definition is_int_list (t : ty) : bool := match t with List_ (Atom IntA) => true | _ => false end.
Definition shape_base (operand desired : ty) : option code :=
  match operand with Tens _ => if is_int_list desired then Some Size else None | _ => None end.
(** dtypeArgAdjuster, rdtype l.36-49. The tuple is created with the desired type. *)
Definition dtype_base (operand desired : ty) : option code :=
  match operand, desired with Tens _, Tuple _ => Some RankAndDtype | _, _ => None end.
Definition int_float_or_none (t : ty) : bool := match t with Atom IntA | Atom FloatA | Atom NoneA => true | _ => false end.
Section Adjust.
Context (base : ty -> ty -> option code).
(** adjustFunctionArg, reify l.161-326: the operations and the type of their result; [None] where [cast] fails. The base transformation
    makes a value of the desired type, or none. *)
Fixpoint adjust (desired : ty) : ty -> option (code * ty) :=
  fix go (operand : ty) : option (code * ty) :=
    match base operand desired with
    | Some c => Some (c, desired)
    | None =>
        if ty_eqb operand desired then Some (Keep, operand)
        else if match desired with Atom AnyA => true | _ => false end then Some (Derefine Keep operand desired, desired)
        else if match desired, operand with Atom NumberA, (Atom IntA | Atom FloatA) => true | _, _ => false end then Some (Derefine Keep operand desired, desired)
        else if match desired with Union ts => forallb int_float_or_none ts | _ => false end then Some (Derefine Keep operand desired, desired)
        else if match operand with Atom NoneA => true | _ => false end then Some (Derefine Keep operand desired, desired)
        else if match operand, desired with Atom NumberA, Atom FloatA => true | _, _ => false end then Some (FloatScalar, desired)
        else
          match operand, desired with
          | Optional contained, Optional _ => do (c, _) <- go contained; Some (IfNone desired contained c, desired)
          | _, Optional contained => do (c, t) <- adjust contained operand; Some (Derefine c t desired, desired)
          | List_ provided, List_ contained => do (c, _) <- adjust contained provided; Some (Loop desired provided c, desired)
          | _, List_ _ => None
          | Atom IntA, Atom FloatA => Some (FloatScalar, desired)
          | _, _ => Some (Keep, operand)
          end
    end.
End Adjust.
(** shapeFunctionArgsBuilder, rshape l.29-63: [zip] stops with the shorter list. *)
Definition shape_args (operands desired : list ty) : option (list (code * ty)) :=
  mapM (fun p => adjust shape_base (snd p) (fst p)) (combine operands desired).
(** dtypeFunctionArgsBuilder, rdtype l.32-67, with its assertion. *)
Fixpoint dtype_args (operands desired : list ty) : option (list (code * ty)) :=
  match operands, desired with
  | [], _ => Some []
  | _ :: _, [] => None
  | o :: os, d :: ds => do x <- adjust dtype_base d o; do xs <- dtype_args os ds; Some (x :: xs)
  end.

(** importLibraryFunctions, reify l.135-159. The library: functions and the functions they call, in order. The worklist has its last element
    first; the result has the last function that was moved first, like the module. [None]: the assertion that the function exists, or out of fuel. *)
Open Scope string_scope.
Fixpoint callees (library : list (string * list string)) (f : string) : option (list string) :=
  match library with [] => None | (g, l) :: r => if String.eqb g f then Some l else callees r f end.
Fixpoint import_functions (library : list (string * list string)) (fuel : nat) (worklist imported : list string) : option (list string) :=
  match worklist with
  | [] => Some imported
  | f :: rest =>
      match fuel with
      | O => None
      | S fuel =>
          if existsb (String.eqb f) imported then import_functions library fuel rest imported
          else do l <- callees library f; import_functions library fuel (rev l ++ rest) (f :: imported)
      end
  end.
Definition importLibraryFunctions (library : list (string * list string)) (fuel : nat) (needed : list string) : option (list string) :=
  import_functions library fuel (rev needed) [].
