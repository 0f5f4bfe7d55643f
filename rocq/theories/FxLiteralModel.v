(** Model of tensor literals, python/torch_mlir/extras/fx_importer.py (fx below):
    TORCH_DTYPE_TO_NPY_TYPE, _make_vtensor_literal_op with its table of attributes keyed by
    the identity of the tensor, and _import_literal. A raised exception is [None].
    Simplifications: all the optional dtypes exist; tensor elements are opaque codes in row
    order and tolist/astype to the tensor's own dtype keep them; an attribute is its type and
    contents. *)
From Coq Require Import String Ascii ZArith Bool DecimalString List.
From Verif Require Import Prelude DtypeModel.
Import ListNotations.
Open Scope Z_scope.

Record tensor := Tn { t_dtype : torch_dtype; t_shape : list Z; t_data : list Z }.

(** TORCH_DTYPE_TO_NPY_TYPE, fx l.214-236: the dtypes with a numpy type; [ml] = the package
    ml_dtypes is installed. *)
Definition has_npy_type (ml : bool) (d : torch_dtype) : bool :=
  match d with
  | t_uint8 | t_int8 | t_int16 | t_int32 | t_int64 | t_float16 | t_float32 | t_float64
  | t_bool | t_complex64 | t_complex128 => true
  | t_bfloat16 | t_float8_e5m2 | t_float8_e4m3fn | t_float8_e5m2fnuz | t_float8_e4m3fnuz
  | t_float8_e8m0fnu => ml
  | t_qint8 | t_quint8 | t_complex32 | t_float4_e2m1fn_x2 => false
  end.
(** str(dtype). *)
Definition dtype_name (d : torch_dtype) : string :=
  match d with
  | t_uint8 => "torch.uint8" | t_int8 => "torch.int8" | t_int16 => "torch.int16"
  | t_int32 => "torch.int32" | t_int64 => "torch.int64" | t_float16 => "torch.float16"
  | t_float32 => "torch.float32" | t_float64 => "torch.float64" | t_complex32 => "torch.complex32"
  | t_complex64 => "torch.complex64" | t_complex128 => "torch.complex128" | t_bool => "torch.bool"
  | t_qint8 => "torch.qint8" | t_quint8 => "torch.quint8" | t_bfloat16 => "torch.bfloat16"
  | t_float8_e5m2 => "torch.float8_e5m2" | t_float8_e4m3fn => "torch.float8_e4m3fn"
  | t_float8_e5m2fnuz => "torch.float8_e5m2fnuz" | t_float8_e4m3fnuz => "torch.float8_e4m3fnuz"
  | t_float8_e8m0fnu => "torch.float8_e8m0fnu" | t_float4_e2m1fn_x2 => "torch.float4_e2m1fn_x2"
  end%string.

(** DenseElementsAttr, or DenseResourceElementsAttr with the name asked for. *)
Inductive attr :=
| Dense (element : mlir_type) (shape : list Z) (data : list Z)
| Resource (name : string) (element : mlir_type) (shape : list Z) (data : list Z).

(** The blob name, fx l.2571-2572. *)
Definition size_text (d : Z) : string := NilZero.string_of_uint (N.to_uint (Z.to_N d)).
Definition blob_name (t : tensor) : string :=
  ("torch_tensor_" ++ String.concat "_" (map size_text (t_shape t)) ++ "_" ++ dtype_name (t_dtype t))%string.
(** The attribute of a tensor seen for the first time, fx l.2544-2578. *)
Definition literal_attr (ml : bool) (t : tensor) : option attr :=
  if has_npy_type ml (t_dtype t) then
    Some (if Nat.eqb (length (t_data t)) 1
          then Dense (TORCH_DTYPE_TO_MLIR_TYPE (t_dtype t)) (t_shape t) (t_data t)
          else Resource (blob_name t) (TORCH_DTYPE_TO_MLIR_TYPE (t_dtype t)) (t_shape t) (t_data t))
  else None.

(** The tracker's table (fx l.2703-2725): addresses with the attribute resolved for the first
    tensor tracked there. Entries are never removed. *)
Definition table := list (Z * attr).
Fixpoint tfind (a : Z) (r : table) : option attr :=
  match r with [] => None | (b, x) :: r => if b =? a then Some x else tfind a r end.
(** _make_vtensor_literal_op, fx l.2539-2589, for the tensor at address [a]. A mapping whose
    resolution raised stays empty, as if it were absent. *)
Definition literal_op (ml : bool) (a : Z) (t : tensor) (r : table) : option (attr * table) :=
  match tfind a r with
  | Some x => Some (x, r)
  | None => do x <- literal_attr ml t; Some (x, (a, x) :: r)
  end.

(** Tensor.to(torch.uint8) of a bool tensor. *)
Definition to_uint8 (t : tensor) : tensor := Tn t_uint8 (t_shape t) (t_data t).
Definition is_bool (t : tensor) : bool := match t_dtype t with t_bool => true | _ => false end.
(** _import_literal, fx l.2292-2321 (no user hook): the literal, and whether it is converted
    back to bool. A bool tensor is first copied to a new tensor at address [tmp], which is
    released when the function returns. *)
Definition import_tensor (ml : bool) (a tmp : Z) (t : tensor) (r : table)
  : option ((attr * bool) * table) :=
  if is_bool t then do (x, r') <- literal_op ml tmp (to_uint8 t) r; Some ((x, true), r')
  else do (x, r') <- literal_op ml a t r; Some ((x, false), r').
(** A program's literals in order: address of each tensor, address of its copy. *)
Fixpoint import_tensors (ml : bool) (l : list (Z * Z * tensor)) (r : table)
  : option (list (attr * bool) * table) :=
  match l with
  | [] => Some ([], r)
  | (a, tmp, t) :: rest =>
      do (x, r1) <- import_tensor ml a tmp t r;
      do (xs, r2) <- import_tensors ml rest r1;
      Some (x :: xs, r2)
  end.
