(** Dtype codes and dtype promotion.

    Sources, all under /repo:
    - up = lib/Dialect/Torch/Utils/TorchUpstream.cpp (promotion), hdr = include/torch-mlir/Dialect/Torch/Utils/TorchUpstream.h (codes)
    - ut = lib/Dialect/Torch/Utils/Utils.cpp (element types)
    - sd = lib/Dialect/Torch/Transforms/SimplifyDtypeCalculations.cpp (torch.promote_dtypes)
    - gl = projects/pt1/python/torch_mlir/jit_ir_importer/build_tools/library_generator.py
    - fx = python/torch_mlir/extras/fx_importer.py (code tables)
    [None] is a failed assertion, a fatal error or a pattern that does not match. *)
From Coq Require Import ZArith Bool List.
From Verif Require Import Prelude.
Import ListNotations.
Open Scope Z_scope.

(** ScalarType, hdr l.88-126, in enumeration order. *)
Inductive scalar_type :=
| Byte | Char | Short | Int | Long | Half | Float | Double | ComplexHalf | ComplexFloat | ComplexDouble | Bool
| QInt8 | QUInt8 | QInt32 | BFloat16 | QUInt4x2 | QUInt2x4 | Bits1x8 | Bits2x4 | Bits4x2 | Bits8 | Bits16
| Float8_e5m2 | Float8_e4m3fn | Float8_e5m2fnuz | Float8_e4m3fnuz | QInt16 | Float8_e8m0fnu | Float4_e2m1fn_x2
| Undefined.
Definition all_scalar_types : list scalar_type :=
  [Byte; Char; Short; Int; Long; Half; Float; Double; ComplexHalf; ComplexFloat; ComplexDouble; Bool;
   QInt8; QUInt8; QInt32; BFloat16; QUInt4x2; QUInt2x4; Bits1x8; Bits2x4; Bits4x2; Bits8; Bits16;
   Float8_e5m2; Float8_e4m3fn; Float8_e5m2fnuz; Float8_e4m3fnuz; QInt16; Float8_e8m0fnu; Float4_e2m1fn_x2; Undefined].
Definition st_eq_dec : forall a b : scalar_type, {a = b} + {a <> b}.
Proof. decide equality. Defined.
Definition st_eqb (a b : scalar_type) : bool := if st_eq_dec a b then true else false.

(** static_cast to and from int; codes outside the enumeration are not modelled ([None]). *)
Fixpoint index_of (x : scalar_type) (l : list scalar_type) : Z :=
  match l with [] => 0 | y :: r => if st_eqb x y then 0 else 1 + index_of x r end.
Definition code (t : scalar_type) : Z := index_of t all_scalar_types.
Definition decode (c : Z) : option scalar_type := if c <? 0 then None else nth_error all_scalar_types (Z.to_nat c).

(** up l.21-26. *)
Definition isQIntType (t : scalar_type) : bool :=
  st_eqb t QInt8 || st_eqb t QUInt8 || st_eqb t QInt32 || st_eqb t QUInt4x2 || st_eqb t QUInt2x4 || st_eqb t QInt16.
(** up l.66-85: the lookup table; the array has 31 x 31 entries and those not listed are zero. *)
Definition promote_table : list (list scalar_type) :=
  let u1 := Byte in let i1 := Char in let i2 := Short in let i4 := Int in let i8 := Long in
  let f2 := Half in let f4 := Float in let f8 := Double in let c2 := ComplexHalf in let c4 := ComplexFloat in
  let c8 := ComplexDouble in let b1 := Bool in let bf := BFloat16 in let ud := Undefined in
  [[u1; i2; i2; i4; i8; f2; f4; f8; ud; c4; c8; u1; ud; ud; ud; bf];
   [i2; i1; i2; i4; i8; f2; f4; f8; ud; c4; c8; i1; ud; ud; ud; bf];
   [i2; i2; i2; i4; i8; f2; f4; f8; ud; c4; c8; i2; ud; ud; ud; bf];
   [i4; i4; i4; i4; i8; f2; f4; f8; ud; c4; c8; i4; ud; ud; ud; bf];
   [i8; i8; i8; i8; i8; f2; f4; f8; ud; c4; c8; i8; ud; ud; ud; bf];
   [f2; f2; f2; f2; f2; f2; f4; f8; ud; c4; c8; f2; ud; ud; ud; f4];
   [f4; f4; f4; f4; f4; f4; f4; f8; ud; c4; c8; f4; ud; ud; ud; f4];
   [f8; f8; f8; f8; f8; f8; f8; f8; ud; c8; c8; f8; ud; ud; ud; f8];
   [ud; ud; ud; ud; ud; ud; ud; ud; c2; c4; c8; ud; ud; ud; ud; ud];
   [c4; c4; c4; c4; c4; c4; c4; c8; c4; c4; c8; c4; ud; ud; ud; c4];
   [c8; c8; c8; c8; c8; c8; c8; c8; c8; c8; c8; c8; ud; ud; ud; c8];
   [u1; i1; i2; i4; i8; f2; f4; f8; ud; c4; c8; b1; ud; ud; ud; bf];
   [ud; ud; ud; ud; ud; ud; ud; ud; ud; ud; ud; ud; ud; ud; ud; ud];
   [ud; ud; ud; ud; ud; ud; ud; ud; ud; ud; ud; ud; ud; ud; ud; ud];
   [ud; ud; ud; ud; ud; ud; ud; ud; ud; ud; ud; ud; ud; ud; ud; ud];
   [bf; bf; bf; bf; bf; f4; f4; f8; ud; c4; c8; bf; ud; ud; ud; bf]].
Definition promote_lookup (a b : scalar_type) : scalar_type :=
  nth (Z.to_nat (code b)) (nth (Z.to_nat (code a)) promote_table []) Byte.
(** promoteTypes, up l.32-87. *)
Definition promoteTypes (a b : scalar_type) : option scalar_type :=
  if st_eqb a Undefined || st_eqb b Undefined then Some Undefined
  else if isQIntType a && st_eqb a b then Some a
  else if isQIntType a || isQIntType b then None
  else Some (promote_lookup a b).
(** up l.89-97. *)
Definition isFloatingType (t : scalar_type) : bool := st_eqb t Double || st_eqb t Float || st_eqb t Half || st_eqb t BFloat16.
Definition isComplexType (t : scalar_type) : bool := st_eqb t ComplexHalf || st_eqb t ComplexFloat || st_eqb t ComplexDouble.
(** promote_skip_undefined, up l.117-125. *)
Definition promote_skip_undefined (a b : scalar_type) : option scalar_type :=
  if st_eqb a Undefined then Some b
  else if st_eqb b Undefined then Some a
  else promoteTypes a b.
(** combine_categories, up l.99-115. *)
Definition combine_categories (higher lower : scalar_type) : option scalar_type :=
  if isComplexType higher then Some higher
  else if negb (isComplexType lower) && isFloatingType higher then Some higher
  else if st_eqb higher Bool || isFloatingType lower || isComplexType lower then promote_skip_undefined higher lower
  else if negb (st_eqb higher Undefined) then Some higher
  else Some lower.
(** ResultTypeState, hdr l.132-136, and result_type, up l.127-131. *)
Record result_type_state := { dimResult : scalar_type; wrappedResult : scalar_type; zeroResult : scalar_type }.
Definition initial_state : result_type_state := {| dimResult := Undefined; wrappedResult := Undefined; zeroResult := Undefined |}.
Definition result_type (st : result_type_state) : option scalar_type :=
  do low <- combine_categories (zeroResult st) (wrappedResult st);
  combine_categories (dimResult st) low.

(** ** Element types *)
Inductive signedness := Signed | Unsigned | Signless.
Inductive float_type := F16 | BF16 | F32 | F64 | F8E5M2 | F8E4M3FN | F8E5M2FNUZ | F8E4M3FNUZ | F8E8M0FNU | F4E2M1FN.
Inductive mlir_type :=
| IntT (width : Z) (s : signedness)
| FloatT (f : float_type)
| ComplexT (t : mlir_type)
| QInt8T | QUInt8T | QInt16T | QInt32T
| TorchIntT | TorchFloatT | TorchBoolT | OtherT.
(** getScalarTypeForType, ut l.66-118; [None] is the fatal error. *)
Definition getScalarTypeForType (t : mlir_type) : option scalar_type :=
  match t with
  | FloatT F32 => Some Float
  | FloatT F64 => Some Double
  | IntT 64 Signed => Some Long
  | IntT 32 Signed => Some Int
  | IntT 16 Signed => Some Short
  | IntT 1 Signless => Some Bool
  | FloatT BF16 => Some BFloat16
  | FloatT F16 => Some Half
  | IntT 8 Unsigned => Some Byte
  | IntT 8 Signed => Some Char
  | QUInt8T => Some QUInt8
  | QInt8T => Some QInt8
  | QInt16T => Some QInt16
  | QInt32T => Some QInt32
  | ComplexT (FloatT F16) => Some ComplexHalf
  | ComplexT (FloatT F32) => Some ComplexFloat
  | ComplexT (FloatT F64) => Some ComplexDouble
  | FloatT F8E5M2 => Some Float8_e5m2
  | FloatT F8E4M3FN => Some Float8_e4m3fn
  | FloatT F8E5M2FNUZ => Some Float8_e5m2fnuz
  | FloatT F8E4M3FNUZ => Some Float8_e4m3fnuz
  | FloatT F8E8M0FNU => Some Float8_e8m0fnu
  | FloatT F4E2M1FN => Some Float4_e2m1fn_x2
  | _ => None
  end.
(** getTypeForScalarType, ut l.150-208; [None] is failure() or the fatal error. *)
Definition getTypeForScalarType (t : scalar_type) : option mlir_type :=
  match t with
  | Float => Some (FloatT F32)
  | Double => Some (FloatT F64)
  | Long => Some (IntT 64 Signed)
  | Int => Some (IntT 32 Signed)
  | Short => Some (IntT 16 Signed)
  | Bool => Some (IntT 1 Signless)
  | BFloat16 => Some (FloatT BF16)
  | Half => Some (FloatT F16)
  | Byte => Some (IntT 8 Unsigned)
  | Char => Some (IntT 8 Signed)
  | QUInt8 => Some QUInt8T
  | QInt8 => Some QInt8T
  | QInt16 => Some QInt16T
  | QInt32 => Some QInt32T
  | ComplexHalf => Some (ComplexT (FloatT F16))
  | ComplexFloat => Some (ComplexT (FloatT F32))
  | ComplexDouble => Some (ComplexT (FloatT F64))
  | Float8_e5m2 => Some (FloatT F8E5M2)
  | Float8_e4m3fn => Some (FloatT F8E4M3FN)
  | Float8_e5m2fnuz => Some (FloatT F8E5M2FNUZ)
  | Float8_e4m3fnuz => Some (FloatT F8E4M3FNUZ)
  | Float8_e8m0fnu => Some (FloatT F8E8M0FNU)
  | Float4_e2m1fn_x2 => Some (FloatT F4E2M1FN)
  | _ => None
  end.
(** getTorchTypeForScalarType, ut l.210-224. *)
Definition getTorchTypeForScalarType (t : scalar_type) : option mlir_type :=
  match t with Double => Some TorchFloatT | Long => Some TorchIntT | _ => None end.
(** getDefaultDtypeForTorchScalar, ut l.226-240, and getBuiltInTypeForTorchScalar, ut l.242-252. *)
Definition getDefaultDtypeForTorchScalar (t : mlir_type) : option mlir_type :=
  match t with
  | TorchFloatT => Some (FloatT F32) | TorchIntT => Some (IntT 64 Signed) | TorchBoolT => Some (IntT 1 Signless) | _ => None
  end.
Definition getBuiltInTypeForTorchScalar (t : mlir_type) : option mlir_type :=
  match t with
  | TorchFloatT => Some (FloatT F64) | TorchIntT => Some (IntT 64 Signed) | TorchBoolT => Some (IntT 1 Signless) | _ => None
  end.

(** ** torch.promote_dtypes: DecomposePromoteDtypesOp, sd l.92-166 *)
Definition no_rank (r : option Z) : bool := match r with None => true | Some _ => false end.
(** One turn of the loop, sd l.119-160. *)
Definition promote_step (scalar_only : bool) (st : result_type_state) (rd : option Z * Z) : option result_type_state :=
  let '(rank, dtype) := rd in
  do t <- decode dtype;
  match rank with
  | None =>
      do ty <- getTorchTypeForScalarType t;
      do bt <- (if scalar_only then getBuiltInTypeForTorchScalar ty else getDefaultDtypeForTorchScalar ty);
      do t' <- getScalarTypeForType bt;
      do r <- promote_skip_undefined (wrappedResult st) t';
      Some {| dimResult := dimResult st; wrappedResult := r; zeroResult := zeroResult st |}
  | Some k =>
      if k =? 0 then
        do r <- promote_skip_undefined (zeroResult st) t;
        Some {| dimResult := dimResult st; wrappedResult := wrappedResult st; zeroResult := r |}
      else if 0 <? k then
        do r <- promote_skip_undefined (dimResult st) t;
        Some {| dimResult := r; wrappedResult := wrappedResult st; zeroResult := zeroResult st |}
      else None
  end.
Definition decompose_promote_dtypes (ranks : list (option Z)) (dtypes : list Z) : option Z :=
  if (zlen ranks =? 0) || (zlen dtypes =? 0) then None
  else if negb (zlen ranks =? zlen dtypes) then None
  else
    do st <- foldM (promote_step (forallb no_rank ranks)) (combine ranks dtypes) initial_state;
    do r <- result_type st;
    Some (code r).

(** ** The same at the Python level, gl l.92-173.
    torch.result_type is PyTorch's; it is modelled by the copy of its code in up l.99-131: each operand is
    a wrapped number, a tensor without dimensions or one with. *)
Inductive operand := Wrapped (t : scalar_type) | Tensor (rank : Z) (t : scalar_type).
Definition torch_result_type (a b : operand) : option scalar_type :=
  let up st o :=
    match o with
    | Wrapped t => do r <- promote_skip_undefined (wrappedResult st) t;
        Some {| dimResult := dimResult st; wrappedResult := r; zeroResult := zeroResult st |}
    | Tensor k t =>
        if k <=? 0 then do r <- promote_skip_undefined (zeroResult st) t;
          Some {| dimResult := dimResult st; wrappedResult := wrappedResult st; zeroResult := r |}
        else do r <- promote_skip_undefined (dimResult st) t;
          Some {| dimResult := r; wrappedResult := wrappedResult st; zeroResult := zeroResult st |}
    end in
  do s <- up initial_state a; do s <- up s b; result_type s.
(** _get_scalar_with_dtype, gl l.97-104: the Python scalar 0 or 0.0, whose dtype is the default one. *)
Definition scalar_with_dtype (t : scalar_type) : option scalar_type :=
  match t with Long => Some Long | Double => Some Float | _ => None end.
(** gl l.107-135. *)
Definition promote_scalar_tensor (scalar_dtype : scalar_type) (rank : Z) (t : scalar_type) : option scalar_type :=
  do s <- scalar_with_dtype scalar_dtype; torch_result_type (Wrapped s) (Tensor rank t).
Definition promote_tensor_tensor (lrank : Z) (l : scalar_type) (rrank : Z) (r : scalar_type) : option scalar_type :=
  torch_result_type (Tensor lrank l) (Tensor rrank r).
Definition promote_scalar_scalar (l r : scalar_type) : option scalar_type := promote_tensor_tensor 0 l 0 r.
(** gl l.145-173. *)
Definition py_promote_step (acc : option Z * scalar_type) (rd : option Z * scalar_type) : option (option Z * scalar_type) :=
  let '(lrank, l) := acc in
  let '(rrank, r) := rd in
  match lrank, rrank with
  | None, None => do t <- promote_scalar_scalar l r; Some (None, t)
  | None, Some k => do t <- promote_scalar_tensor l k r; Some (Some k, t)
  | Some k, None => do t <- promote_scalar_tensor r k l; Some (Some k, t)
  | Some k, Some k' => do t <- promote_tensor_tensor k l k' r; Some (Some (Z.max k k'), t)
  end.
Definition py_promote_dtypes (ranks : list (option Z)) (dtypes : list scalar_type) : option scalar_type :=
  do r0 <- pyidx ranks 0;
  do d0 <- pyidx dtypes 0;
  do acc <- foldM py_promote_step (combine ranks dtypes) (r0, d0);
  Some (snd acc).

(** ** Dtype predicates, gl l.17-72 *)
Definition is_integer_dtype (t : scalar_type) : bool := existsb (st_eqb t) [Bool; Byte; Char; Short; Int; Long].
Definition is_complex_dtype (t : scalar_type) : bool := existsb (st_eqb t) [ComplexFloat; ComplexDouble].
Definition is_float_dtype (t : scalar_type) : bool := existsb (st_eqb t) [Half; BFloat16; Float; Double].
Definition get_priority_of_dtype (t : scalar_type) : option Z :=
  match t with
  | Bool => Some 0 | Byte => Some 1 | Char => Some 2 | Short => Some 3 | Int => Some 4 | Long => Some 5
  | BFloat16 => Some 6 | Half => Some 7 | Float => Some 8 | Double => Some 9 | ComplexFloat => Some 10 | ComplexDouble => Some 11
  | _ => None
  end.

(** ** The importer's tables (with all the optional dtypes present) *)
(** torch.dtype, the keys of the tables fx l.154-267. *)
Inductive torch_dtype :=
| t_uint8 | t_int8 | t_int16 | t_int32 | t_int64 | t_float16 | t_float32 | t_float64
| t_complex32 | t_complex64 | t_complex128 | t_bool | t_qint8 | t_quint8 | t_bfloat16
| t_float8_e5m2 | t_float8_e4m3fn | t_float8_e5m2fnuz | t_float8_e4m3fnuz | t_float8_e8m0fnu | t_float4_e2m1fn_x2.
(** TORCH_DTYPE_TO_MLIR_TYPE_ASM, fx l.154-182: element types of tensor types. *)
Definition TORCH_DTYPE_TO_MLIR_TYPE_ASM (d : torch_dtype) : mlir_type :=
  match d with
  | t_float16 => FloatT F16 | t_bfloat16 => FloatT BF16 | t_float32 => FloatT F32 | t_float64 => FloatT F64
  | t_uint8 => IntT 8 Unsigned | t_int8 => IntT 8 Signed | t_int16 => IntT 16 Signed | t_int32 => IntT 32 Signed
  | t_int64 => IntT 64 Signed | t_bool => IntT 1 Signless | t_qint8 => QInt8T | t_quint8 => QUInt8T
  | t_complex32 => ComplexT (FloatT F16) | t_complex64 => ComplexT (FloatT F32) | t_complex128 => ComplexT (FloatT F64)
  | t_float8_e5m2 => FloatT F8E5M2 | t_float8_e4m3fn => FloatT F8E4M3FN | t_float8_e5m2fnuz => FloatT F8E5M2FNUZ
  | t_float8_e4m3fnuz => FloatT F8E4M3FNUZ | t_float8_e8m0fnu => FloatT F8E8M0FNU | t_float4_e2m1fn_x2 => FloatT F4E2M1FN
  end.
(** TORCH_DTYPE_TO_MLIR_TYPE, fx l.184-212: element types of literals. *)
Definition TORCH_DTYPE_TO_MLIR_TYPE (d : torch_dtype) : mlir_type :=
  match d with
  | t_float16 => FloatT F16 | t_bfloat16 => FloatT BF16 | t_float32 => FloatT F32 | t_float64 => FloatT F64
  | t_uint8 => IntT 8 Unsigned | t_int8 => IntT 8 Signed | t_int16 => IntT 16 Signed | t_int32 => IntT 32 Signed
  | t_int64 => IntT 64 Signed | t_bool => IntT 1 Signless | t_qint8 => IntT 8 Signed | t_quint8 => IntT 8 Unsigned
  | t_complex32 => ComplexT (FloatT F16) | t_complex64 => ComplexT (FloatT F32) | t_complex128 => ComplexT (FloatT F64)
  | t_float8_e5m2 => FloatT F8E5M2 | t_float8_e4m3fn => FloatT F8E4M3FN | t_float8_e5m2fnuz => FloatT F8E5M2FNUZ
  | t_float8_e4m3fnuz => FloatT F8E4M3FNUZ | t_float8_e8m0fnu => FloatT F8E8M0FNU | t_float4_e2m1fn_x2 => FloatT F4E2M1FN
  end.
(** TORCH_DTYPE_TO_INT, fx l.238-267. *)
Definition TORCH_DTYPE_TO_INT (d : torch_dtype) : option Z :=
  match d with
  | t_uint8 => Some 0 | t_int8 => Some 1 | t_int16 => Some 2 | t_int32 => Some 3 | t_int64 => Some 4
  | t_float16 => Some 5 | t_float32 => Some 6 | t_float64 => Some 7 | t_complex32 => Some 9 | t_complex64 => Some 10
  | t_bool => Some 11 | t_bfloat16 => Some 15
  | t_float8_e5m2 => Some 23 | t_float8_e4m3fn => Some 24 | t_float8_e5m2fnuz => Some 25 | t_float8_e4m3fnuz => Some 26
  | t_float8_e8m0fnu => Some 28 | t_float4_e2m1fn_x2 => Some 29
  | _ => None
  end.
(** Memory formats, fx l.269-274 and hdr l.157; layouts, fx l.276-283 and hdr l.164. *)
Inductive memory_format := Contiguous | Preserve | ChannelsLast | ChannelsLast3d.
Definition TORCH_MEMORY_FORMAT_TO_INT (m : memory_format) : Z :=
  match m with Contiguous => 0 | Preserve => 1 | ChannelsLast => 2 | ChannelsLast3d => 3 end.
Definition memory_format_of_code (c : Z) : option memory_format :=
  if c <? 0 then None else nth_error [Contiguous; Preserve; ChannelsLast; ChannelsLast3d] (Z.to_nat c).
Inductive layout := Strided | Sparse | SparseCsr | SparseCsc | SparseBsr | SparseBsc | Mkldnn.
Definition TORCH_LAYOUT_TO_INT (l : layout) : option Z :=
  match l with
  | Strided => Some 0 | Sparse => Some 1 | SparseCsr => Some 2 | SparseCsc => Some 3 | SparseBsr => Some 4 | SparseBsc => Some 5
  | Mkldnn => None
  end.
Definition layout_of_code (c : Z) : option layout :=
  if c <? 0 then None else nth_error [Strided; Sparse; SparseCsr; Mkldnn] (Z.to_nat c).
