(** The dtype functions of the abstract interpretation library: the dtypes of an operator's results from
    the ranks and dtypes of its tensor operands and the kinds of its number operands.

    Sources, all under /repo:
    - ag = projects/pt1/python/torch_mlir/jit_ir_importer/build_tools/abstract_interp_lib_gen.py, l.2927-6540
    - gl = projects/pt1/python/torch_mlir/jit_ir_importer/build_tools/library_generator.py
    promote_dtypes is the compiler's (DtypeModel.decompose_promote_dtypes).  [None] is a failed assertion, or a call with
    operands missing.  Operands a function never looks at are left out; the optional tensor operands that are
    absent (clamp's bounds, bincount's weights) are not listed.  Many functions have textually the same body up to
    the names of variables; each body is a constructor, and the table at the end gives every function its body. *)
From Coq Require Import ZArith Bool String List.
From Verif Require Import Prelude DtypeModel.
Import ListNotations.
Open Scope Z_scope.

(** A tensor operand: rank and dtype. *)
Definition rd := (Z * scalar_type)%type.
(** Kinds of number operands and get_dtype_of_scalar, gl l.75-93. *)
Inductive number := NInt | NFloat | NComplex.
Definition get_dtype_of_scalar (n : number) : scalar_type :=
  match n with NInt => Long | NFloat => Double | NComplex => ComplexDouble end.
(** rounding_mode of the divisions. *)
Inductive rounding := Floor | Trunc.
(** The operands: tensors, numbers and the dtype argument in order; a boolean argument (return_complex, half_to_float, out_int32). *)
Record args := { tensors : list rd; numbers : list number; dtype : option scalar_type; flag : option bool; mode : option rounding }.

(** promote_dtypes, gl l.136-173, as the compiler computes it. *)
Definition promote (l : list (option Z * scalar_type)) : option scalar_type :=
  do c <- decompose_promote_dtypes (map fst l) (map (fun o => code (snd o)) l);
  decode c.
Definition tensor_op (t : rd) : option Z * scalar_type := (Some (fst t), snd t).
Definition number_op (n : number) : option Z * scalar_type := (None, get_dtype_of_scalar n).
Definition one (t : scalar_type) : option (list scalar_type) := Some [t].
(** _get_dtype_of_floating_point_op, ag l.2927-2931. *)
Definition get_dtype_of_floating_point_op (t : scalar_type) : scalar_type :=
  if (is_float_dtype t && negb (st_eqb t Float)) || is_complex_dtype t then t else Float.
(** aten.std, ag l.5728-5734. *)
Definition std_dtype (t : scalar_type) : scalar_type :=
  if st_eqb t ComplexFloat then Float else if st_eqb t ComplexDouble then Double else t.
(** aten.sum, ag l.5597-5604. *)
Definition sum_dtype (d : option scalar_type) (t : scalar_type) : scalar_type :=
  match d with Some x => x | None => if is_integer_dtype t then Long else t end.
(** aten.floor_divide, ag l.4636-4645, and aten.floor_divide.Scalar, ag l.4681-4687. *)
Definition floor_divide (a b : rd) : option scalar_type :=
  assert negb (is_complex_dtype (snd a));
  assert negb (is_complex_dtype (snd b));
  do r <- promote [tensor_op a; tensor_op b];
  assert negb (st_eqb r Bool);
  Some r.
Definition floor_divide_scalar (a : rd) (n : number) : option scalar_type :=
  assert negb (is_complex_dtype (snd a));
  promote [tensor_op a; number_op n].
(** The last lines of the divisions, ag l.4655-4659, l.4673-4678 and l.4710-4715. *)
Definition quotient (keep : bool) (r : scalar_type) : scalar_type :=
  if is_complex_dtype r || (is_float_dtype r && negb (st_eqb r Float)) || keep then r else Float.
Definition is_mode (m : option rounding) (x : rounding) : bool :=
  match m, x with Some Floor, Floor | Some Trunc, Trunc => true | _, _ => false end.

(** The bodies. *)
Inductive body :=
| Same | SameTwo | Floating | IntegerToFloat | Rad2deg | Softshrink | Softplus | Frobenius | Promote2 | Promote3
| PromoteScalar | ScalarPromote | PromoteInexact | Pow | NllBackward | Atan2 | DivTensor | DivTensorMode
| DivScalar | DivScalarMode | FloorDivide | FloorDivideScalar | Ldexp | Copysign | LeakyRelu | LinalgCross
| ConvSame | Baddbmm | WhereSelf | WhereScalarOther | WhereScalarSelf | WhereScalar | AddNumbers | Mm | Matmul
| IntMm | Sum | Mean | PrimsSum | Trace | Std | Abs | VarMean | LinalgNorm | NormScalar | Any | Aminmax
| WithIndex | Create | CreateInt64 | CreateBool | CreateInexact | CreateFloat | Randint | Arange | Full
| RandnLike | Like | Given | Second | NumberDtype | ScalarImplicit | Softmax | LogSoftmax | AlwaysBool
| AlwaysInt64 | AlwaysFloat32 | RealBool | Bucketize | OneHot | NotUint8 | NotInteger | NotBool | BoolToInt64
| Hardtanh | LayerNorm | NativeLayerNorm | NativeGroupNorm | NativeBatchNorm | WeightNorm | CosineSimilarity
| FakeQuantTensor | FakeQuantTensorMask | FakeQuant | FakeQuantMask | Elu | Selu | Logaddexp | Logaddexp2
| PoissonNll | NllForward | Rrelu | RreluFunctional | NativeDropout | EmbeddingBag | ConvBackward | ViewAsReal
| Polar | Fft | Rfft | Stft | Slogdet | IntRepr | Quantized | PromoteAll | ClampTensor | Bincount.
(** The first tensor and number operands. *)
Definition with1 (x : args) (k : rd -> option (list scalar_type)) : option (list scalar_type) :=
  match tensors x with a :: _ => k a | _ => None end.
Definition with2 (x : args) (k : rd -> rd -> option (list scalar_type)) : option (list scalar_type) :=
  match tensors x with a :: b :: _ => k a b | _ => None end.
Definition with3 (x : args) (k : rd -> rd -> rd -> option (list scalar_type)) : option (list scalar_type) :=
  match tensors x with a :: b :: c :: _ => k a b c | _ => None end.
Definition num1 (x : args) (k : number -> option (list scalar_type)) : option (list scalar_type) :=
  match numbers x with n :: _ => k n | _ => None end.
Definition num2 (x : args) (k : number -> number -> option (list scalar_type)) : option (list scalar_type) :=
  match numbers x with n :: n2 :: _ => k n n2 | _ => None end.
(** The bodies, with the lines of the functions that have them. *)
Definition run (f : body) (x : args) : option (list scalar_type) :=
  match f with
  | Same => (* l.2946, l.3223, l.3228, l.3233, l.3238, l.3249, … *)
      with1 x (fun a => one (snd a))
  | SameTwo => (* l.3891, l.4241, l.4629, l.4718 *)
      with2 x (fun a b => assert st_eqb (snd a) (snd b); one (snd a))
  | Floating => (* l.2997, l.3002, l.3008, l.3014, l.3019, l.3024, … *)
      with1 x (fun a => one (get_dtype_of_floating_point_op (snd a)))
  | IntegerToFloat => (* l.6158, l.6176, l.6183 *)
      with1 x (fun a => one (if is_integer_dtype (snd a) then Float else (snd a)))
  | Rad2deg => (* l.3037 *)
      with1 x (fun a => assert is_integer_dtype (snd a) || is_float_dtype (snd a); one (get_dtype_of_floating_point_op (snd a)))
  | Softshrink => (* l.3130 *)
      with1 x (fun a => assert negb (is_integer_dtype (snd a)); one (get_dtype_of_floating_point_op (snd a)))
  | Softplus => (* l.3162, l.3181 *)
      with1 x (fun a => one (if is_integer_dtype (snd a) then (snd a) else get_dtype_of_floating_point_op (snd a)))
  | Frobenius => (* l.3171 *)
      with1 x (fun a => assert negb (is_integer_dtype (snd a));
      one (if st_eqb (snd a) ComplexDouble then Double else if st_eqb (snd a) ComplexFloat then Float else get_dtype_of_floating_point_op (snd a)))
  | Promote2 => (* l.3391, l.3589, l.3597, l.3621, l.3628, l.3703, … *)
      with2 x (fun a b => do r <- promote [tensor_op a; tensor_op b]; one r)
  | Promote3 => (* l.5172, l.5183, l.5194, l.5226, l.5247, l.6198, … *)
      with3 x (fun a b c => do r <- promote [tensor_op a; tensor_op b; tensor_op c]; one r)
  | PromoteScalar => (* l.4497, l.4540, l.4580, l.5259, l.5268, l.5276, … *)
      with1 x (fun a => num1 x (fun n => do r <- promote [tensor_op a; number_op n]; one r))
  | ScalarPromote => (* l.5311 *)
      with1 x (fun a => num1 x (fun n => do r <- promote [number_op n; tensor_op a]; one r))
  | PromoteInexact => (* l.4881, l.4890 *)
      with2 x (fun a b => do r <- promote [tensor_op a; tensor_op b]; assert negb (is_integer_dtype r); one r)
  | Pow => (* l.3877 *)
      with2 x (fun a b => do r <- promote [tensor_op a; tensor_op b]; one (if st_eqb r Bool then Long else r))
  | NllBackward => (* l.4226 *)
      with2 x (fun a b => do r <- promote [tensor_op b; tensor_op a]; one (if st_eqb r Bool then Long else r))
  | Atan2 => (* l.6165 *)
      with2 x (fun a b => do r <- promote [tensor_op a; tensor_op b]; one (if is_integer_dtype r then Float else r))
  | DivTensor => (* l.4648 *)
      with2 x (fun a b => do r <- promote [tensor_op a; tensor_op b]; one (quotient false r))
  | DivTensorMode => (* l.4663 *)
      with2 x (fun a b => if is_mode (mode x) Floor then do r <- floor_divide a b; one r
      else do r <- promote [tensor_op a; tensor_op b]; one (quotient (is_mode (mode x) Trunc) r))
  | DivScalar => (* l.5284 *)
      with1 x (fun a => num1 x (fun n => do r <- promote [tensor_op a; number_op n]; one (if is_integer_dtype r then Float else r)))
  | DivScalarMode => (* l.4702 *)
      with1 x (fun a => num1 x (fun n => if is_mode (mode x) Floor then do r <- floor_divide_scalar a n; one r
      else do r <- promote [number_op n; tensor_op a]; one (quotient (is_mode (mode x) Trunc) r)))
  | FloorDivide => (* l.4636, l.4936 *)
      with2 x (fun a b => do r <- floor_divide a b; one r)
  | FloorDivideScalar => (* l.4681 *)
      with1 x (fun a => num1 x (fun n => do r <- floor_divide_scalar a n; one r))
  | Ldexp => (* l.4512 *)
      with2 x (fun a b => if st_eqb (snd a) Double && is_complex_dtype (snd b) then one (snd b)
      else if is_complex_dtype (snd a) && st_eqb (snd b) Double then one (snd a)
      else if is_integer_dtype (snd a) && is_integer_dtype (snd b) then one Float
      else do r <- promote [tensor_op a; tensor_op b]; one r)
  | Copysign => (* l.4527 *)
      with2 x (fun a b => if is_integer_dtype (snd a) && is_integer_dtype (snd b) then one Float
      else do r <- promote [tensor_op a; tensor_op b]; one r)
  | LeakyRelu => (* l.5328 *)
      with1 x (fun a => num1 x (fun n => assert negb (st_eqb (snd a) Bool);
      assert negb (is_float_dtype (get_dtype_of_scalar n)) || negb (is_integer_dtype (snd a));
      do r <- promote [tensor_op a; number_op n]; one r))
  | LinalgCross => (* l.3729 *)
      with2 x (fun a b => assert st_eqb (snd a) (snd b); assert negb (st_eqb (snd a) Bool); do r <- promote [tensor_op a; tensor_op b]; one r)
  | ConvSame => (* l.4972, l.4982, l.4992, l.5027 *)
      with2 x (fun a b => assert st_eqb (snd a) (snd b);
      assert negb (is_complex_dtype (snd a)) && negb (st_eqb (snd a) Bool);
      assert negb (is_complex_dtype (snd b)) && negb (st_eqb (snd b) Bool);
      do r <- promote [tensor_op a; tensor_op b]; one r)
  | Baddbmm => (* l.5385 *)
      with3 x (fun a b c => assert negb (st_eqb (snd b) Bool); assert negb (st_eqb (snd c) Bool); assert st_eqb (snd b) (snd c);
      do r <- promote [tensor_op b; tensor_op c]; one r)
  | WhereSelf => (* l.5400 *)
      with3 x (fun a b c => do r <- promote [tensor_op b; tensor_op c]; one r)
  | WhereScalarOther => (* l.5420 *)
      with2 x (fun a b => num1 x (fun n => do r <- promote [tensor_op b; number_op n]; one r))
  | WhereScalarSelf => (* l.5430 *)
      with2 x (fun a b => num1 x (fun n => do r <- promote [number_op n; tensor_op b]; one r))
  | WhereScalar => (* l.5411 *)
      num2 x (fun n n2 => one (if is_integer_dtype (get_dtype_of_scalar n) && is_integer_dtype (get_dtype_of_scalar n2) then Long else Float))
  | AddNumbers => (* l.4372 *)
      num2 x (fun n n2 => do r <- promote [number_op n; number_op n2]; one r)
  | Mm => (* l.4796 *)
      with2 x (fun a b => if existsb (st_eqb (snd a)) [BFloat16; Half] && existsb (st_eqb (snd b)) [BFloat16; Half] && negb (st_eqb (snd a) (snd b)) then one Half
      else do r <- promote [tensor_op a; tensor_op b]; one r)
  | Matmul => (* l.4735 *)
      with2 x (fun a b => if (2 <? fst b) || ((fst a =? 1) && (fst b =? 1)) then assert st_eqb (snd a) (snd b); one (snd a)
      else do p <- get_priority_of_dtype (snd b); do q <- get_priority_of_dtype (snd a); one (if p <? q then (snd b) else (snd a)))
  | IntMm => (* l.4864 *)
      with2 x (fun a b => assert st_eqb (snd a) Char; assert st_eqb (snd b) Char; one Int)
  | Sum => (* l.3477, l.3494, l.5597, l.5609, l.5621, l.5628 *)
      with1 x (fun a => one (sum_dtype (dtype x) (snd a)))
  | Mean => (* l.5643, l.5724 *)
      with1 x (fun a => assert negb (is_integer_dtype (sum_dtype (dtype x) (snd a))); one (sum_dtype (dtype x) (snd a)))
  | PrimsSum => (* l.3188, l.3197 *)
      with1 x (fun a => match dtype x with None => one (snd a) | Some _ => None end)
  | Trace => (* l.6295 *)
      with1 x (fun a => one (if is_integer_dtype (snd a) then Long else (snd a)))
  | Std => (* l.5728, l.5737, l.5741, l.5745, l.5749, l.5753, … *)
      with1 x (fun a => one (std_dtype (snd a)))
  | Abs => (* l.3205, l.3214 *)
      with1 x (fun a => one (if st_eqb (snd a) ComplexDouble then Double else if st_eqb (snd a) ComplexFloat then Float else (snd a)))
  | VarMean => (* l.6138, l.6148 *)
      with1 x (fun a => assert negb (is_integer_dtype (snd a));
      Some (if st_eqb (snd a) ComplexFloat then [Float; (snd a)] else if st_eqb (snd a) ComplexDouble then [Double; (snd a)] else [(snd a); (snd a)]))
  | LinalgNorm => (* l.5771, l.5794 *)
      with1 x (fun a => assert negb (is_integer_dtype (snd a));
      match dtype x with
      | Some d =>
          assert negb (is_integer_dtype d);
          if is_complex_dtype (snd a) then assert is_complex_dtype d; one (std_dtype d)
          else assert negb (is_complex_dtype d); one d
      | None => one (std_dtype (snd a))
      end)
  | NormScalar => (* l.5828 *)
      with1 x (fun a => assert negb (is_integer_dtype (snd a)); one (if st_eqb (snd a) ComplexHalf then Half else std_dtype (snd a)))
  | Any => (* l.4248, l.4253, l.5658, l.5665, l.5672 *)
      with1 x (fun a => one (if st_eqb (snd a) Byte then (snd a) else Bool))
  | Aminmax => (* l.5713 *)
      with1 x (fun a => Some [(snd a); (snd a)])
  | WithIndex => (* l.3741, l.3792, l.3807, l.3812, l.3825, l.3830, … *)
      with1 x (fun a => Some [(snd a); Long])
  | Create => (* l.4154, l.5843, l.5870, l.5877, l.5884, l.5891, … *)
      one (match dtype x with None => Float | Some d => d end)
  | CreateInt64 => (* l.5852, l.6418, l.6421 *)
      one (match dtype x with None => Long | Some d => d end)
  | CreateBool => (* l.5861 *)
      one (match dtype x with None => Bool | Some d => d end)
  | CreateInexact => (* l.6101, l.6131 *)
      match dtype x with None => one Float | Some d => assert negb (is_integer_dtype d); one d end
  | CreateFloat => (* l.3116 *)
      let d := match dtype x with None => Float | Some d => d end in assert is_float_dtype d; one d
  | Randint => (* l.6091 *)
      match dtype x with None => one Long | Some d => assert negb (is_complex_dtype d); one d end
  | Arange => (* l.5553, l.5567, l.5583 *)
      match dtype x with
      | Some d => assert negb (is_complex_dtype d); one d
      | None => one (if existsb (fun n => is_float_dtype (get_dtype_of_scalar n)) (numbers x) then Float else Long)
      end
  | Full => (* l.5906 *)
      num1 x (fun n => match dtype x with
      | Some d => one d
      | None => one (if is_float_dtype (get_dtype_of_scalar n) then Float else get_dtype_of_scalar n)
      end)
  | RandnLike => (* l.6028 *)
      with1 x (fun a => let d := match dtype x with None => (snd a) | Some d => d end in assert negb (is_integer_dtype d); one d)
  | Like => (* l.4116, l.4852, l.4858, l.5918, l.5926, l.5934, … *)
      with1 x (fun a => one (match dtype x with None => (snd a) | Some d => d end))
  | Given => (* l.3748, l.4055, l.6046, l.6053, l.6068, l.6406, … *)
      do d <- dtype x; one d
  | Second => (* l.6072, l.6083 *)
      with2 x (fun a b => one (snd b))
  | NumberDtype => (* l.4218, l.6320 *)
      num1 x (fun n => one (get_dtype_of_scalar n))
  | ScalarImplicit => (* l.6308 *)
      with1 x (fun a => assert negb (is_complex_dtype (snd a));
      if is_float_dtype (snd a) then one Double
      else if is_integer_dtype (snd a) && negb (st_eqb (snd a) Bool) then one Long
      else if st_eqb (snd a) Bool then one Bool else None)
  | Softmax => (* l.6338 *)
      with1 x (fun a => do h <- flag x; if h : bool then assert st_eqb (snd a) Half || st_eqb (snd a) BFloat16; one Float else one (snd a))
  | LogSoftmax => (* l.6357 *)
      with1 x (fun a => do h <- flag x; if h : bool then assert st_eqb (snd a) Half; one Float else one (snd a))
  | AlwaysBool => (* l.3033, l.4259, l.4263, l.4269, l.4275, l.4279, … *)
      one Bool
  | AlwaysInt64 => (* l.3328, l.5152, l.5156, l.5650, l.5654, l.6009, … *)
      one Long
  | AlwaysFloat32 => (* l.6076, l.6412, l.6415 *)
      one Float
  | RealBool => (* l.4344, l.4351 *)
      with1 x (fun a => assert negb (st_eqb (snd a) ComplexDouble) && negb (st_eqb (snd a) ComplexFloat); one Bool)
  | Bucketize => (* l.6389 *)
      do h <- flag x; one (if h : bool then Int else Long)
  | OneHot => (* l.5508 *)
      with1 x (fun a => assert st_eqb (snd a) Long; one Long)
  | NotUint8 => (* l.3243, l.3259, l.3265 *)
      with1 x (fun a => assert negb (st_eqb (snd a) Byte); one (snd a))
  | NotInteger => (* l.3277, l.3508, l.3697, l.4307, l.5818, l.6120 *)
      with1 x (fun a => assert negb (is_integer_dtype (snd a)); one (snd a))
  | NotBool => (* l.3108, l.3855, l.3922, l.4502 *)
      with1 x (fun a => assert negb (st_eqb (snd a) Bool); one (snd a))
  | BoolToInt64 => (* l.3123, l.3377, l.3384, l.3400, l.4071 *)
      with1 x (fun a => one (if st_eqb (snd a) Bool then Long else (snd a)))
  | Hardtanh => (* l.3637 *)
      with1 x (fun a => assert negb (existsb (st_eqb (snd a)) [Byte; Bool]); one (snd a))
  | LayerNorm => (* l.3689 *)
      with1 x (fun a => assert negb (is_integer_dtype (snd a)); assert negb (is_complex_dtype (snd a)); one (snd a))
  | NativeLayerNorm => (* l.5500 *)
      with1 x (fun a => assert negb (is_integer_dtype (snd a)); assert negb (is_complex_dtype (snd a)); Some [(snd a); (snd a); (snd a)])
  | NativeGroupNorm => (* l.3283 *)
      with1 x (fun a => assert negb (is_integer_dtype (snd a)); Some [(snd a); (snd a); (snd a)])
  | NativeBatchNorm => (* l.5541 *)
      with1 x (fun a => Some [(snd a); (snd a); if is_integer_dtype (snd a) then Float else (snd a)])
  | WeightNorm => (* l.3294 *)
      with2 x (fun a b => assert st_eqb (snd a) (snd b); assert negb (is_integer_dtype (snd b));
      Some [(snd a); if st_eqb (snd b) ComplexDouble then Double else if st_eqb (snd b) ComplexFloat then Float else if st_eqb (snd b) BFloat16 then Float else (snd b)])
  | CosineSimilarity => (* l.3354 *)
      with2 x (fun a b => assert st_eqb (snd a) (snd b); assert existsb (st_eqb (snd a)) [BFloat16; Half; Float; Double]; one (snd a))
  | FakeQuantTensor => (* l.2952 *)
      with1 x (fun a => assert is_float_dtype (snd a); one (snd a))
  | FakeQuantTensorMask => (* l.2959 *)
      with1 x (fun a => assert is_float_dtype (snd a); Some [(snd a); Bool])
  | FakeQuant => (* l.2966, l.2982 *)
      with1 x (fun a => assert is_float_dtype (snd a); assert negb (st_eqb (snd a) BFloat16); one (snd a))
  | FakeQuantMask => (* l.2974, l.2990 *)
      with1 x (fun a => assert is_float_dtype (snd a); assert negb (st_eqb (snd a) BFloat16); Some [(snd a); Bool])
  | Elu => (* l.5341 *)
      with1 x (fun a => assert negb (st_eqb (snd a) Bool);
      assert negb (existsb (fun n => is_float_dtype (get_dtype_of_scalar n)) (numbers x)) || negb (is_integer_dtype (snd a));
      one (snd a))
  | Selu => (* l.5351 *)
      with1 x (fun a => assert negb (st_eqb (snd a) Bool); assert negb (is_integer_dtype (snd a)); one (snd a))
  | Logaddexp => (* l.3752 *)
      with2 x (fun a b => assert negb (st_eqb (snd a) Bool) && negb (st_eqb (snd b) Bool); one (snd a))
  | Logaddexp2 => (* l.3759 *)
      with1 x (fun a => assert negb (existsb (st_eqb (snd a)) [Bool; ComplexHalf; ComplexFloat; ComplexDouble]); one (snd a))
  | PoissonNll => (* l.5477 *)
      with1 x (fun a => one (if existsb (st_eqb (snd a)) [Half; BFloat16] then Float else (snd a)))
  | NllForward => (* l.5463 *)
      with2 x (fun a b => assert st_eqb (snd b) Long || st_eqb (snd b) Int; Some [(snd a); (snd a)])
  | Rrelu => (* l.3908 *)
      with2 x (fun a b => assert fst a =? fst b; one (snd a))
  | RreluFunctional => (* l.3915 *)
      with2 x (fun a b => assert fst a =? fst b; Some [(snd a); (snd b)])
  | NativeDropout => (* l.3519 *)
      with1 x (fun a => Some [(snd a); Bool])
  | EmbeddingBag => (* l.6379, l.6384 *)
      with1 x (fun a => Some [(snd a); Long; Long; Long])
  | ConvBackward => (* l.5117 *)
      with3 x (fun a b c => Some [(snd a); (snd a); (snd a)])
  | ViewAsReal => (* l.2937 *)
      with1 x (fun a => assert is_complex_dtype (snd a); one (if st_eqb (snd a) ComplexFloat then Float else Double))
  | Polar => (* l.3136 *)
      with2 x (fun a b => assert st_eqb (snd a) (snd b); one (if st_eqb (snd a) Double then ComplexDouble else if st_eqb (snd a) Float then ComplexFloat else (snd a)))
  | Fft => (* l.4378, l.4477 *)
      with1 x (fun a => if is_complex_dtype (snd a) then one (snd a)
      else if st_eqb (snd a) Half then one ComplexHalf
      else if st_eqb (snd a) Float then one ComplexFloat
      else if st_eqb (snd a) BFloat16 then one ComplexFloat
      else if st_eqb (snd a) Double then one ComplexDouble
      else if is_integer_dtype (snd a) then one ComplexFloat else None)
  | Rfft => (* l.4397 *)
      with1 x (fun a => if st_eqb (snd a) Half then one ComplexHalf
      else if st_eqb (snd a) Float then one ComplexFloat
      else if st_eqb (snd a) BFloat16 then one ComplexFloat
      else if st_eqb (snd a) Double then one ComplexDouble
      else if is_integer_dtype (snd a) then one ComplexFloat else None)
  | Stft => (* l.4420, l.4451 *)
      with1 x (fun a => let yes := match flag x with Some true => true | _ => false end in
      let no := match flag x with Some false => true | _ => false end in
      if is_complex_dtype (snd a) && yes then one (snd a)
      else if is_complex_dtype (snd a) && no then
        if st_eqb (snd a) ComplexHalf then one Half else if st_eqb (snd a) ComplexFloat then one Float
        else if st_eqb (snd a) ComplexDouble then one Double else None
      else if is_float_dtype (snd a) && yes then
        if st_eqb (snd a) Half then one ComplexHalf else if st_eqb (snd a) Float then one ComplexFloat
        else if st_eqb (snd a) Double then one ComplexDouble else None
      else if is_float_dtype (snd a) && no then one (snd a)
      else if is_integer_dtype (snd a) then one ComplexFloat else None)
  | Slogdet => (* l.4059 *)
      with1 x (fun a => assert negb (is_integer_dtype (snd a)); assert negb (st_eqb (snd a) Half) && negb (st_eqb (snd a) BFloat16);
      Some [(snd a); if st_eqb (snd a) ComplexDouble then Double else if st_eqb (snd a) ComplexHalf || st_eqb (snd a) ComplexFloat then Float else (snd a)])
  | IntRepr => (* l.6428 *)
      with1 x (fun a => one (if st_eqb (snd a) QUInt8 then Byte else if st_eqb (snd a) QInt8 then Char else Int))
  | Quantized => (* l.6436, l.6444 *)
      with1 x (fun a => one (if st_eqb (snd a) Byte then QUInt8 else if st_eqb (snd a) Char then QInt8 else QInt32))
  | PromoteAll => (* l.6227, l.6253, l.6270, l.6284 *)
      assert negb (zlen (tensors x) =? 0); do r <- promote (map tensor_op (tensors x)); one r
  | ClampTensor => (* l.3407 *)
      match tensors x with
      | [] => None
      | [a] => one (snd a)
      | l => do r <- promote (map tensor_op l); one r
      end
  | Bincount => (* l.5134 *)
      match tensors x with
      | [] => None
      | a :: l =>
          assert is_integer_dtype (snd a) && negb (st_eqb (snd a) Bool);
          one (match l with [] => Long | _ => Double end)
      end
  end.

(** The functions and their bodies, in source order (lines of ag in comments every few entries). *)
Open Scope string_scope.
Definition dtype_functions : list (string * body) := [
  ("aten.view_as_real", ViewAsReal); ("prims.split_dim", Same); ("aten.fake_quantize_per_tensor_affine", FakeQuantTensor); (* l.2937 *)
  ("aten.fake_quantize_per_tensor_affine_cachemask", FakeQuantTensorMask); (* l.2959 *)
  ("aten.fake_quantize_per_tensor_affine.tensor_qparams", FakeQuant); (* l.2966 *)
  ("aten._fake_quantize_per_tensor_affine_cachemask_tensor_qparams", FakeQuantMask); (* l.2974 *)
  ("aten.fake_quantize_per_channel_affine", FakeQuant); ("aten.fake_quantize_per_channel_affine_cachemask", FakeQuantMask); (* l.2982 *)
  ("aten.cosh", Floating); ("aten.acosh", Floating); ("aten.tanh", Floating); ("aten.exp", Floating); (* l.2997 *)
  ("aten.exp2", Floating); ("aten.expm1", Floating); ("aten.special_expm1", Floating); ("aten.isfinite", AlwaysBool); (* l.3019 *)
  ("aten.rad2deg", Rad2deg); ("aten.sin", Floating); ("aten.sinh", Floating); ("aten.asin", Floating); (* l.3037 *)
  ("aten.asinh", Floating); ("aten.cos", Floating); ("aten.acos", Floating); ("aten.sigmoid", Floating); (* l.3058 *)
  ("aten.reciprocal", Floating); ("aten.sqrt", Floating); ("aten.log", Floating); ("aten.log2", Floating); (* l.3078 *)
  ("aten.log10", Floating); ("aten.log1p", Floating); ("aten.log_sigmoid", NotBool); (* l.3098 *)
  ("aten.hann_window.periodic", CreateFloat); ("aten.hardshrink", BoolToInt64); ("aten.softshrink", Softshrink); (* l.3116 *)
  ("aten.polar", Polar); ("aten.logit", Floating); ("aten.rsqrt", Floating); ("aten.erf", Floating); (* l.3136 *)
  ("aten.softplus", Softplus); ("aten.frobenius_norm.dim", Frobenius); ("prims.sqrt", Softplus); ("prims.sum", PrimsSum); (* l.3162 *)
  ("prims.prod", PrimsSum); ("aten.abs", Abs); ("aten.absolute", Abs); ("aten.adaptive_avg_pool1d", Same); (* l.3197 *)
  ("aten.pixel_shuffle", Same); ("aten.pixel_unshuffle", Same); ("aten.channel_shuffle", Same); (* l.3228 *)
  ("aten.avg_pool1d", NotUint8); ("aten.adaptive_avg_pool2d", Same); ("aten.adaptive_avg_pool3d", Same); (* l.3243 *)
  ("aten.avg_pool2d", NotUint8); ("aten.avg_pool3d", NotUint8); ("aten.batch_norm", Same); ("aten.group_norm", NotInteger); (* l.3259 *)
  ("aten.native_group_norm", NativeGroupNorm); ("aten.instance_norm", Same); ("aten._weight_norm_interface", WeightNorm); (* l.3283 *)
  ("aten.bernoulli_.float", Same); ("onnx.rotary_embedding", Same); ("aten.bernoulli", Same); (* l.3308 *)
  ("aten.bernoulli.Tensor", Same); ("aten.multinomial", AlwaysInt64); ("aten.bitwise_not", Same); (* l.3323 *)
  ("aten.broadcast_to", Same); ("aten.cosine_similarity", CosineSimilarity); ("aten.ceil", Same); ("aten.trunc", Same); (* l.3337 *)
  ("aten.fix", Same); ("aten.clamp_max", BoolToInt64); ("aten.clamp_min", BoolToInt64); ("aten.clamp_min.Tensor", Promote2); (* l.3372 *)
  ("aten.clamp", BoolToInt64); ("aten.clamp.Tensor", ClampTensor); ("aten.clone", Same); ("aten.constant_pad_nd", Same); (* l.3400 *)
  ("aten.grid_sampler", Same); ("aten.__interpolate.size_list_scale_list", Same); ("aten.reflection_pad2d", Same); (* l.3433 *)
  ("aten.contiguous", Same); ("aten.copy", Same); ("aten.cpu", Same); ("aten.cumsum", Sum); ("aten.logcumsumexp", Same); (* l.3459 *)
  ("aten.cumprod", Sum); ("aten.detach", Same); ("aten.linalg_det", NotInteger); ("aten.dropout", Same); (* l.3494 *)
  ("aten.native_dropout", NativeDropout); ("aten.expand_as", Same); ("aten.expand", Same); ("aten.fill.Scalar", Same); (* l.3519 *)
  ("aten.fill.Tensor", Same); ("aten.flatten.using_ints", Same); ("aten.unflatten.int", Same); ("aten.flip", Same); (* l.3539 *)
  ("aten.fliplr", Same); ("aten.flipud", Same); ("aten.sign", Same); ("aten.sgn", Same); ("aten.floor", Same); (* l.3559 *)
  ("aten.gather", Same); ("aten.gelu_backward", Promote2); ("aten.elu_backward", Promote2); ("aten.gelu", Same); (* l.3584 *)
  ("aten.hardsigmoid", Same); ("aten.hardswish", Same); ("aten.hardtanh_backward", Promote2); (* l.3611 *)
  ("aten.softplus_backward", Promote2); ("aten.hardtanh", Hardtanh); ("aten.index_put.hacked_twin", Same); (* l.3628 *)
  ("aten._unsafe_index_put.hacked_twin", Same); ("aten._index_put_impl", Same); ("aten.index_put", Same); (* l.3658 *)
  ("aten.index_select", Same); ("aten.index.Tensor_hacked_twin", Same); ("aten.index.Tensor", Same); (* l.3673 *)
  ("aten.layer_norm", LayerNorm); ("aten.rms_norm", NotInteger); ("aten.leaky_relu_backward", Promote2); (* l.3689 *)
  ("aten.rrelu_with_noise_backward", Promote2); ("aten.lift_fresh_copy", Same); ("aten.linalg_cross", LinalgCross); (* l.3712 *)
  ("aten.kthvalue", WithIndex); ("aten._log_softmax_backward_data", Given); ("aten.logaddexp", Logaddexp); (* l.3741 *)
  ("aten.logaddexp2", Logaddexp2); ("aten.masked_fill.Scalar", Same); ("aten.masked_fill_.Scalar", Same); (* l.3759 *)
  ("aten.masked_fill.Tensor", Same); ("aten.masked_select", Same); ("aten.max_pool1d", Same); (* l.3775 *)
  ("aten.max_pool1d_with_indices", WithIndex); ("aten.max_pool2d", Same); ("aten.max_pool3d", Same); (* l.3792 *)
  ("aten.max_pool2d_with_indices", WithIndex); ("aten.max_pool3d_with_indices", WithIndex); ("aten.max_unpool3d", Same); (* l.3807 *)
  ("aten.max_unpool2d", Same); ("aten.adaptive_max_pool1d", WithIndex); ("aten.adaptive_max_pool2d", WithIndex); (* l.3820 *)
  ("aten.adaptive_max_pool3d", WithIndex); ("aten.mish", Same); ("aten.narrow", Same); ("aten.narrow.Tensor", Same); (* l.3835 *)
  ("aten.neg", NotBool); ("aten.numpy_T", Same); ("aten.pad", Same); ("aten.permute", Same); (* l.3855 *)
  ("aten.pow.Tensor_Tensor", Pow); ("aten.prelu", SameTwo); ("aten.celu", Same); ("aten.rrelu", Same); (* l.3877 *)
  ("aten.rrelu_with_noise", Rrelu); ("aten.rrelu_with_noise_functional", RreluFunctional); ("aten.relu6", NotBool); (* l.3908 *)
  ("aten.relu", Same); ("aten.repeat", Same); ("aten.repeat_interleave.self_int", Same); (* l.3928 *)
  ("aten.repeat_interleave.Tensor", Same); ("aten.tile", Same); ("aten._reshape_alias", Same); ("aten.reshape", Same); (* l.3942 *)
  ("aten.reshape_as", Same); ("aten.resize_", Same); ("aten.roll", Same); ("aten.round", Same); (* l.3962 *)
  ("aten.round.decimals", Same); ("aten.glu", Same); ("aten.scatter_reduce.two", Same); ("aten.select.int", Same); (* l.3982 *)
  ("aten.select_scatter", Same); ("aten.scatter.src", Same); ("aten.scatter.value", Same); ("aten.scatter_add", Same); (* l.4003 *)
  ("aten.masked_scatter", Same); ("aten.silu", Same); ("aten.slice_scatter", Same); ("aten.slice.Tensor", Same); (* l.4027 *)
  ("aten.as_strided", Same); ("aten._softmax_backward_data", Given); ("aten.linalg_slogdet", Slogdet); (* l.4046 *)
  ("aten.square", BoolToInt64); ("aten.squeeze.dim", Same); ("aten.squeeze", Same); ("aten.tanh_backward", Promote2); (* l.4071 *)
  ("aten.sigmoid_backward", Promote2); ("aten.threshold", Same); ("aten.t", Same); ("aten.to.prim_Device", Like); (* l.4097 *)
  ("aten.transpose.int", Same); ("aten.triu", Same); ("aten.tril", Same); ("aten.diagonal", Same); ("aten.uniform", Same); (* l.4123 *)
  ("aten.exponential", Same); ("aten.rand", Create); ("aten._unsafe_view", Same); ("aten.unsqueeze", Same); (* l.4147 *)
  ("aten.upsample_nearest2d_backward", Same); ("aten.upsample_nearest1d", Same); ("aten.upsample_nearest1d.vec", Same); (* l.4168 *)
  ("aten.upsample_nearest2d", Same); ("aten.upsample_nearest2d.vec", Same); ("aten.upsample_bilinear2d", Same); (* l.4183 *)
  ("aten.upsample_bilinear2d.vec", Same); ("aten.view", Same); ("aten.zero", Same); ("aten.zero_", Same); (* l.4198 *)
  ("prim.abs.Scalar", NumberDtype); ("aten.nll_loss_backward", NllBackward); (* l.4218 *)
  ("aten.max_pool2d_with_indices_backward", SameTwo); ("aten.all", Any); ("aten.any", Any); ("aten.eq.Scalar", AlwaysBool); (* l.4241 *)
  ("aten.eq.Tensor", AlwaysBool); ("aten.ge.Scalar", AlwaysBool); ("aten.gt.Scalar", AlwaysBool); (* l.4263 *)
  ("aten.gt.Tensor", AlwaysBool); ("aten.ge.Tensor", AlwaysBool); ("aten.le.Scalar", AlwaysBool); (* l.4279 *)
  ("aten.logical_and", AlwaysBool); ("aten.logical_not", AlwaysBool); ("aten.isclose", AlwaysBool); (* l.4293 *)
  ("aten.scaled_dot_product_attention", NotInteger); ("aten.logical_or", AlwaysBool); ("aten.logical_xor", AlwaysBool); (* l.4307 *)
  ("aten.lt.Scalar", AlwaysBool); ("aten.lt.Tensor", AlwaysBool); ("aten.le.Tensor", AlwaysBool); (* l.4323 *)
  ("aten.isnan", AlwaysBool); ("aten.isinf", AlwaysBool); ("aten.isneginf", RealBool); ("aten.isposinf", RealBool); (* l.4335 *)
  ("aten.ne.Tensor", AlwaysBool); ("aten.ne.Scalar", AlwaysBool); ("aten.add", AddNumbers); ("aten.fft_fft", Fft); (* l.4357 *)
  ("aten.fft_rfft", Rfft); ("aten.stft", Stft); ("aten.stft.center", Stft); ("aten.fft_ifft", Fft); (* l.4397 *)
  ("aten.rsub.Scalar", PromoteScalar); ("aten.frac", NotBool); ("aten.signbit", AlwaysBool); ("aten.ldexp.Tensor", Ldexp); (* l.4497 *)
  ("aten.copysign.Tensor", Copysign); ("aten.__and__.Scalar", PromoteScalar); ("aten.__and__.Tensor", Promote2); (* l.4527 *)
  ("aten.__or__.Tensor", Promote2); ("aten.add.Tensor", Promote2); ("aten.bitwise_and.Tensor", Promote2); (* l.4555 *)
  ("aten.bitwise_and.Scalar", PromoteScalar); ("aten.bitwise_or.Tensor", Promote2); ("aten.bitwise_xor.Tensor", Promote2); (* l.4580 *)
  ("aten.bitwise_right_shift.Tensor", Promote2); ("aten.bitwise_left_shift.Tensor", Promote2); ("aten.bmm", SameTwo); (* l.4603 *)
  ("aten.floor_divide", FloorDivide); ("aten.div.Tensor", DivTensor); ("aten.div.Tensor_mode", DivTensorMode); (* l.4636 *)
  ("aten.floor_divide.Scalar", FloorDivideScalar); ("aten.div.Scalar_mode", DivScalarMode); ("aten.dot", SameTwo); (* l.4681 *)
  ("aten.matmul", Matmul); ("aten.maximum", Promote2); ("aten.minimum", Promote2); ("aten.fmax", Promote2); (* l.4735 *)
  ("aten.fmin", Promote2); ("aten.outer", Promote2); ("aten.mm", Mm); ("aten._scaled_mm", Like); (* l.4770 *)
  ("aten._scaled_mm_v2", Like); ("aten._int_mm", IntMm); ("aten.kl_div", Promote2); ("aten.mse_loss", PromoteInexact); (* l.4858 *)
  ("aten.l1_loss", PromoteInexact); ("aten.mul.Tensor", Promote2); ("aten.mv", Promote2); ("aten.sub.Tensor", Promote2); (* l.4890 *)
  ("aten.threshold_backward", FloorDivide); ("aten._convolution", ConvSame); ("aten.conv1d", ConvSame); (* l.4936 *)
  ("aten.conv_tbc", ConvSame); ("aten._convolution.deprecated", ConvSame); ("aten.conv2d", Same); ("aten.conv3d", Same); (* l.4992 *)
  ("aten.conv_transpose1d", Same); ("aten.conv_transpose2d.input", Same); ("aten.conv_transpose3d.input", Same); (* l.5052 *)
  ("aten.convolution", Same); ("aten.convolution_backward", ConvBackward); ("aten.bincount", Bincount); (* l.5085 *)
  ("aten.col2im", Same); ("aten.nonzero", AlwaysInt64); ("aten.nonzero_static", AlwaysInt64); ("aten.addmm", Promote3); (* l.5147 *)
  ("aten.addbmm", Promote3); ("aten.lerp.Tensor", Promote3); ("aten.lerp.Scalar", Promote2); ("aten.addcmul", Promote3); (* l.5183 *)
  ("aten.addcdiv", Promote3); ("aten.add.Scalar", PromoteScalar); ("aten.sub.Scalar", PromoteScalar); (* l.5247 *)
  ("aten.mul.Scalar", PromoteScalar); ("aten.div.Scalar", DivScalar); ("aten.fmod.Scalar", PromoteScalar); (* l.5276 *)
  ("aten.fmod.Tensor", Promote2); ("aten.pow.Scalar", ScalarPromote); ("aten.pow.Tensor_Scalar", PromoteScalar); (* l.5303 *)
  ("aten.leaky_relu", LeakyRelu); ("aten.elu", Elu); ("aten.selu", Selu); ("aten.remainder.Scalar", PromoteScalar); (* l.5328 *)
  ("aten.remainder.Tensor", Promote2); ("aten.baddbmm", Baddbmm); ("aten.where.self", WhereSelf); (* l.5367 *)
  ("aten.where.Scalar", WhereScalar); ("aten.where.ScalarOther", WhereScalarOther); (* l.5411 *)
  ("aten.where.ScalarSelf", WhereScalarSelf); ("aten.heaviside", Promote2); ("aten.nan_to_num", Same); (* l.5430 *)
  ("aten.nll_loss_forward", NllForward); ("aten.poisson_nll_loss", PoissonNll); ("aten.native_layer_norm", NativeLayerNorm); (* l.5463 *)
  ("aten.one_hot", OneHot); ("aten.native_batch_norm", NativeBatchNorm); ("aten.arange", Arange); (* l.5508 *)
  ("aten.arange.start", Arange); ("aten.arange.start_step", Arange); ("aten.sum", Sum); ("aten.prod", Sum); (* l.5567 *)
  ("aten.sum.dim_IntList", Sum); ("aten.prod.dim_int", Sum); ("aten.mean.dim", Mean); ("aten.argmax", AlwaysInt64); (* l.5621 *)
  ("aten.argmin", AlwaysInt64); ("aten.any.dim", Any); ("aten.any.dims", Any); ("aten.all.dim", Any); ("aten.min", Same); (* l.5654 *)
  ("aten.min.other", Promote2); ("aten.max", Same); ("aten.max.other", Promote2); ("aten.amax", Same); (* l.5684 *)
  ("aten.max.dim", WithIndex); ("aten.amin", Same); ("aten.min.dim", WithIndex); ("aten.aminmax", Aminmax); (* l.5701 *)
  ("aten.mean", Mean); ("aten.std", Std); ("aten.std.dim", Std); ("aten.std.correction", Std); ("aten.var", Std); (* l.5724 *)
  ("aten.var.dim", Std); ("aten.var.correction", Std); ("prims.var", Std); ("aten.linalg_vector_norm", LinalgNorm); (* l.5749 *)
  ("aten.linalg_norm", LinalgNorm); ("aten.binary_cross_entropy_with_logits", Same); ("aten.renorm", NotInteger); (* l.5794 *)
  ("aten.norm.Scalar", NormScalar); ("aten.tensor.float", Create); ("aten.tensor.int", CreateInt64); (* l.5828 *)
  ("aten.tensor.bool", CreateBool); ("aten.zeros", Create); ("aten.eye", Create); ("aten.eye.m", Create); (* l.5861 *)
  ("aten.ones", Create); ("aten.empty.memory_format", Create); ("aten.full", Full); ("aten.zeros_like", Like); (* l.5891 *)
  ("aten.ones_like", Like); ("aten.empty_like", Like); ("aten.empty_strided", Create); ("aten.full_like", Like); (* l.5926 *)
  ("aten.new_full", Like); ("aten.new_zeros", Like); ("aten.new_ones", Like); ("aten.new_empty", Like); (* l.5961 *)
  ("aten.new_empty_strided", Like); ("aten.diag_embed", Same); ("aten.diag", Same); ("aten.count_nonzero", AlwaysInt64); (* l.5995 *)
  ("aten.rot90", Same); ("aten.rand_like", Like); ("aten.randn_like", RandnLike); ("aten._to_copy", Like); (* l.6012 *)
  ("aten.to.dtype", Given); ("prims.convert_element_type", Given); ("aten.to.dtype_layout", Like); (* l.6046 *)
  ("aten.to.device", Given); ("aten.to.other", Second); ("aten._cast_Float", AlwaysFloat32); (* l.6068 *)
  ("aten._cast_Long", AlwaysInt64); ("aten.type_as", Second); ("aten.randint.low", Randint); ("aten.randn", CreateInexact); (* l.6079 *)
  ("aten.linspace", Create); ("aten.normal_functional", NotInteger); ("aten.randn.generator", CreateInexact); (* l.6112 *)
  ("aten.var_mean.correction", VarMean); ("aten.var_mean", VarMean); ("aten.tan", IntegerToFloat); ("aten.atan2", Atan2); (* l.6138 *)
  ("aten.atan", IntegerToFloat); ("aten.atanh", IntegerToFloat); ("aten.linear", Promote2); ("aten.bilinear", Promote3); (* l.6176 *)
  ("aten._trilinear", Promote3); ("aten.cat", PromoteAll); ("aten.atleast_1d", Same); ("aten.atleast_2d", Same); (* l.6210 *)
  ("aten.hstack", PromoteAll); ("aten.column_stack", PromoteAll); ("aten.einsum", PromoteAll); ("aten.trace", Trace); (* l.6253 *)
  ("aten._shape_as_tensor", AlwaysInt64); ("aten.ScalarImplicit", ScalarImplicit); ("prim.NumToTensor.Scalar", NumberDtype); (* l.6302 *)
  ("aten.softmax.int", Like); ("aten._softmax", Softmax); ("aten._safe_softmax", Like); ("aten._log_softmax", LogSoftmax); (* l.6326 *)
  ("aten.log_softmax.int", Like); ("aten.embedding", Same); ("aten._embedding_bag", EmbeddingBag); (* l.6367 *)
  ("aten.embedding_bag.padding_idx", EmbeddingBag); ("aten.bucketize.Tensor", Bucketize); ("prims.squeeze", Same); (* l.6384 *)
  ("prims.collapse", Same); ("aten.quantize_per_channel", Given); ("aten.quantize_per_tensor", Given); (* l.6401 *)
  ("aten.dequantize.self", AlwaysFloat32); ("aten.dequantize.tensor", AlwaysFloat32); ("aten.triu_indices", CreateInt64); (* l.6412 *)
  ("aten.tril_indices", CreateInt64); ("aten.deg2rad", Floating); ("aten.int_repr", IntRepr); (* l.6421 *)
  ("aten._make_per_channel_quantized_tensor", Quantized); ("aten._make_per_tensor_quantized_tensor", Quantized); (* l.6436 *)
  ("aten.unfold", Same); ("quantized_decomposed.quantize_per_tensor", Given); (* l.6488 *)
  ("quantized_decomposed.dequantize_per_tensor", Create); ("quantized_decomposed.quantize_per_channel", Given); (* l.6516 *)
  ("quantized_decomposed.dequantize_per_channel", Create) (* l.6535 *)
].
Open Scope list_scope.
Open Scope Z_scope.
Fixpoint lookup (n : string) (l : list (string * body)) : option body :=
  match l with [] => None | (m, f) :: r => if String.eqb n m then Some f else lookup n r end.
(** The dtype function of an operator. *)
Definition dtype_fn (n : string) (x : args) : option (list scalar_type) :=
  do f <- lookup n dtype_functions; run f x.

(** aten.broadcast_tensors, ag l.3341-3351: ranks and dtypes of the results. *)
Definition broadcast_tensors_dtype (l : list rd) : list rd :=
  let max_rank := fold_left (fun m t => if m <? fst t then fst t else m) l 0 in
  map (fun t => (max_rank, snd t)) l.
(** aten.reflection_pad1d, ag l.3448-3451. *)
Definition reflection_pad1d_dtype (a : rd) (padding : list Z) : option scalar_type :=
  assert (zlen padding =? 2);
  Some (snd a).
