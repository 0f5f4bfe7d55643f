(** What the arguments of library functions should be, and which functions are needed. *)
From Coq Require Import ZArith Bool String List.
From Verif Require Import Prelude DtypeModel TypesModel TypesSpec ReifyModel.
Import ListNotations.
Open Scope list_scope.
Open Scope Z_scope.

(** * What the operations do *)
Section Values.
(** Rounding an integer, and the number of a dtype. *)
Context (float_of : Z -> Z) (code_of : dtype -> Z).
Fixpoint exec (c : code) (v : val) : option val :=
  match c with
  | Keep => Some v
  | Size => match v with VTensor x => Some (VList (map VInt (shape x))) | _ => None end
  | RankAndDtype => match v with VTensor x => Some (VTuple [VInt (zlen (shape x)); VInt (code_of (dtype_of x))]) | _ => None end
  | FloatScalar => match v with VInt z => Some (VFloat (float_of z)) | VFloat z => Some (VFloat z) | _ => None end
  | Derefine c _ _ => exec c v
  | IfNone _ _ c => match v with VNone => Some VNone | _ => exec c v end
  | Loop _ _ c => match v with VList l => do ws <- mapM (exec c) l; Some (VList ws) | _ => None end
  end.
(** The argument [w] for a parameter of type [d] when the operand is [v]: the sizes of a tensor, its rank and dtype, an integer as a float, or
    the operand itself. *)
Inductive passed : ty -> val -> val -> Prop :=
| passed_same d v : has describes d v -> passed d v v
| passed_sizes x : passed (List_ (Atom IntA)) (VTensor x) (VList (map VInt (shape x)))
| passed_dtype x : passed (Tuple [Atom IntA; Atom IntA]) (VTensor x) (VTuple [VInt (zlen (shape x)); VInt (code_of (dtype_of x))])
| passed_float z : passed (Atom FloatA) (VInt z) (VFloat (float_of z))
| passed_some d v w : passed d v w -> passed (Optional d) v w
| passed_list d vs ws : Forall2 (passed d) vs ws -> passed (List_ d) (VList vs) (VList ws).
End Values.

(** * Typing of the operations, as their verifiers and the call require *)
Inductive typed : code -> ty -> ty -> Prop :=
| typed_keep t : typed Keep t t
| typed_size t : typed Size (Tens t) (List_ (Atom IntA))
| typed_rank t : typed RankAndDtype (Tens t) (Tuple [Atom IntA; Atom IntA])
| typed_float t : t = Atom NumberA \/ t = Atom IntA -> typed FloatScalar t (Atom FloatA)
| typed_derefine t d : sub t d -> typed (Derefine Keep t d) t d
| typed_some c t u : typed c t u -> typed (Derefine c u (Optional u)) t (Optional u)
| typed_if c t d : typed c t (Optional d) -> typed (IfNone (Optional d) t c) (Optional t) (Optional d)
| typed_loop c t d : typed c t d -> typed (Loop (List_ d) t c) (List_ t) (List_ d).

(** Parameters that an operand is passed to as it is, when it has a smaller type. *)
Definition plain (d : ty) : Prop :=
  match d with
  | Atom a => a <> AnyA
  | Module _ | Tuple _ | Dict _ _ | Tens _ => True
  | Union ts => exists u, In u ts /\ u <> Atom IntA /\ u <> Atom FloatA /\ u <> Atom NoneA
  | Optional _ | List_ _ => False
  end.
(** Which operands fit which parameters. [tensor_as]: what parameters tensors may be passed to, besides their own type. *)
Inductive fits (tensor_as : ty -> Prop) : ty -> ty -> Prop :=
| fits_tensor t d : tensor_as d -> fits tensor_as (Tens t) d
| fits_same t : fits tensor_as t t
| fits_any t : fits tensor_as t (Atom AnyA)
| fits_number t : t = Atom IntA \/ t = Atom FloatA -> fits tensor_as t (Atom NumberA)
| fits_scalar t ts : (forall u, In u ts -> u = Atom IntA \/ u = Atom FloatA \/ u = Atom NoneA) -> sub t (Union ts) -> fits tensor_as t (Union ts)
| fits_none d : sub (Atom NoneA) d -> fits tensor_as (Atom NoneA) d
| fits_float t : t = Atom NumberA \/ t = Atom IntA -> fits tensor_as t (Atom FloatA)
| fits_optional t d : fits tensor_as t (Optional d) -> fits tensor_as (Optional t) (Optional d)
| fits_some t d : (forall u, t <> Optional u) -> fits tensor_as t d -> fits tensor_as t (Optional d)
| fits_smaller t d : (forall u, t <> Optional u) -> plain d -> sub t (Optional d) -> fits tensor_as t (Optional d)
| fits_list t d : fits tensor_as t d -> fits tensor_as (List_ t) (List_ d).
Definition as_sizes (d : ty) : Prop := d = List_ (Atom IntA).
Definition as_rank_and_dtype (d : ty) : Prop := d = Tuple [Atom IntA; Atom IntA].

(** * Functions that are needed *)
Inductive needs (library : list (string * list string)) : string -> string -> Prop :=
| needs_itself f : needs library f f
| needs_callee f g l h : In (g, l) library -> needs library f g -> In h l -> needs library f h.
