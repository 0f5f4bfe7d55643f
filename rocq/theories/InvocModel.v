(** Invocations: the arguments that the self-checks of the library give to functions and operators, and the generators of invocations.

    Sources under /repo/projects/pt1/python/torch_mlir/jit_ir_importer/build_tools: tfw = testing_framework.py, gen =
    abstract_interp_lib_gen.py.  [None] is an exception.  See DebugModel for the checks that use the invocations.
    Sets of dtypes are lists; the memory that real tensors are filled with is left out. *)
From Coq Require Import ZArith Bool List.
From Verif Require Import Prelude.
Import ListNotations.
Open Scope list_scope.
Open Scope nat_scope.

(** The dtypes of _SORTED_TORCH_TYPES, and others *)
Inductive dtype := Complex128 | Complex64 | Float64 | Float32 | Float16 | Bfloat16 | Int64 | Int32 | Int16 | Int8 | Uint8 | Bool | Unlisted (n : nat).
Definition dtype_eq_dec (a b : dtype) : {a = b} + {a <> b}.
Proof. decide equality. apply Nat.eq_dec. Defined.
Definition mem (d : dtype) (s : list dtype) : bool := if in_dec dtype_eq_dec d s then true else false.
Definition mem_set (d : dtype) (s : option (list dtype)) : bool := match s with Some s => mem d s | None => false end.
(** _SORTED_TORCH_TYPES, gen l.2813-2818 *)
Definition sorted_torch_types : list dtype :=
  [Complex128; Complex64; Float64; Float32; Float16; Bfloat16; Int64; Int32; Int16; Int8; Uint8; Bool].

Section Devices.
Context {device : Type} (meta : device).
(** TensorOfShape, tfw l.50-86 *)
Record tensor_of_shape := { t_shape : list Z; t_dtype : dtype; t_device : device; t_stride : option (list Z) }.
Definition TensorOfShape (shape : list Z) (d : dtype) (dev : option device) : tensor_of_shape :=
  {| t_shape := shape; t_dtype := d; t_device := match dev with Some v => v | None => meta end; t_stride := None |}.
(** LongTensorOfShape, NonZeroDTensorWithDtype and ZeroDTensorWithDtype, tfw l.89-101 *)
Definition LongTensorOfShape (shape : list Z) (dev : option device) : tensor_of_shape := TensorOfShape shape Int64 dev.
Definition NonZeroDTensorWithDtype (d : dtype) (dev : option device) : tensor_of_shape := TensorOfShape [1%Z] d dev.
Definition ZeroDTensorWithDtype (d : dtype) (dev : option device) : tensor_of_shape := TensorOfShape [] d dev.
End Devices.
Arguments tensor_of_shape device : clear implicits.

(** Python values that have tensors of type [T] in them; [AScalar] is None, a float, an int or a str, [AOther] any other object. *)
Inductive arg (S T O : Type) := AScalar (s : S) | ATensor (t : T) | AList (l : list (arg S T O)) | ATuple (l : list (arg S T O)) | AOther (o : O).
Arguments AScalar {S T O}. Arguments ATensor {S T O}. Arguments AList {S T O}. Arguments ATuple {S T O}. Arguments AOther {S T O}.
(** _recursively_transform_tensor_args, tfw l.104-119 *)
Fixpoint recursively_transform {S T O X} (f : T -> arg S X O) (o : arg S T O) : option (arg S X O) :=
  let all := fix all l := match l with [] => Some [] | x :: r => do y <- recursively_transform f x; do ys <- all r; Some (y :: ys) end in
  match o with
  | AScalar s => Some (AScalar s)
  | ATensor t => Some (f t)
  | AList l => do ys <- all l; Some (AList ys)
  | ATuple l => do ys <- all l; Some (ATuple ys)
  | AOther _ => None
  end.

Section Invocations.
(** [K]: keyword arguments *)
Context {S O K device : Type} (meta : device) (int : Z -> S) (code : dtype -> O).
Notation tos := (tensor_of_shape device).
(** Invocation and ErrorInvocation, tfw l.121-208 *)
Record invocation := { i_args : list (arg S tos O); i_kwargs : K; raises : bool }.
Definition Invocation (l : list (arg S tos O)) (k : K) : invocation := {| i_args := l; i_kwargs := k; raises := false |}.
Definition ErrorInvocation (l : list (arg S tos O)) (k : K) : invocation := {| i_args := l; i_kwargs := k; raises := true |}.
(** to_shape_function_args, to_dtype_function_args and to_real_op_args, tfw l.150-189. The tensor that is made for the operator has the
    shape, dtype and device of the placeholder, and its stride or else the stride of a dense tensor ([None]). *)
Definition shape_transformer (t : tos) : arg S Empty_set O := AList (map (fun z => AScalar (int z)) (t_shape t)).
Definition to_shape_function_args (i : invocation) := recursively_transform shape_transformer (AList (i_args i)).
Definition dtype_transformer (t : tos) : arg S Empty_set O := ATuple [AScalar (int (Z.of_nat (length (t_shape t)))); AOther (code (t_dtype t))].
Definition to_dtype_function_args (i : invocation) := recursively_transform dtype_transformer (AList (i_args i)).
Definition real_transformer (t : tos) : arg S (list Z * option (list Z) * dtype * device) O := ATensor (t_shape t, t_stride t, t_dtype t, t_device t).
Definition to_real_op_args (i : invocation) := recursively_transform real_transformer (AList (i_args i)).

(** _check_tensors_with_the_same_dtype, gen l.2820-2853 *)
Definition same_dtype_tensors (num : option nat) (shapes : option (list (list Z))) (dev : option device) (d : dtype) : option (list (arg S tos O)) :=
  match shapes, num with
  | None, Some n => Some (repeat (ATensor (NonZeroDTensorWithDtype meta d dev)) n)
  | Some l, None => Some (map (fun s => ATensor (TensorOfShape meta s d dev)) l)
  | _, _ => None
  end.
Definition check_tensors_with_the_same_dtype (num : option nat) (shapes : option (list (list Z))) (dev : option device) (error_types : option (list dtype))
    (args : list (arg S tos O)) (kwargs : K) : option (list invocation) :=
  mapM (fun d =>
    do tensors <- same_dtype_tensors num shapes dev d;
    Some (if mem_set d error_types then ErrorInvocation (tensors ++ args) kwargs else Invocation (tensors ++ args) kwargs)) sorted_torch_types.

(** check_two_tensors_with_one_varying_dtype_at_a_time, gen l.2884-2918: the first type that is in no set, with the types from it on *)
Fixpoint constant_type (errors : list dtype) (l : list dtype) : option (dtype * list dtype) :=
  match l with [] => None | d :: r => if negb (mem d errors) then Some (d, d :: r) else constant_type errors r end.
Definition varying_dtype (s1 s2 : list Z) (dev : option device) (input_error_types : option (list dtype)) (errors : list dtype) (kwargs : K) : option (list invocation) :=
  do c <- constant_type errors sorted_torch_types;
  Some (flat_map (fun d =>
    let invocation_type := if mem_set d input_error_types then ErrorInvocation else Invocation in
    [invocation_type [ATensor (TensorOfShape meta s1 d dev); ATensor (TensorOfShape meta s2 (fst c) dev)] kwargs;
     invocation_type [ATensor (TensorOfShape meta s1 (fst c) dev); ATensor (TensorOfShape meta s2 d dev)] kwargs]) (snd c)).
(** _check_two_tensor_op, gen l.2855-2926 *)
Definition union (a b : option (list dtype)) : list dtype :=
  (match a with Some s => s | None => [] end) ++ (match b with Some s => s | None => [] end).
Definition check_two_tensor_op (shapes : option (list (list Z))) (dev : option device) (input_error_types output_error_types : option (list dtype)) (kwargs : K) : option (list invocation) :=
  let shapes := match shapes with Some l => l | None => [[1%Z]; [1%Z]] end in
  match shapes with
  | [s1; s2] =>
      assert match input_error_types, output_error_types with Some i, Some o => negb (existsb (fun d => mem d o) i) | _, _ => true end;
      let errors := union input_error_types output_error_types in
      do same <- check_tensors_with_the_same_dtype None (Some shapes) dev (Some errors) [] kwargs;
      do varying <- varying_dtype s1 s2 dev input_error_types errors kwargs;
      Some (same ++ varying)
  | _ => None
  end.
End Invocations.
Arguments invocation S O K device : clear implicits.
