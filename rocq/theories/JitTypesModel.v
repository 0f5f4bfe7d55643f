(** What the TorchScript importer makes of types, tensors, operator names and source positions.

    Sources: tu = /repo/projects/jit_ir_common/csrc/jit_ir_importer/torch_to_mlir_utils.cpp, fi = function_importer.cpp and ivi = ivalue_importer.cpp
    beside it, io = import_options.h beside it, to = /repo/lib/Dialect/Torch/IR/TorchOps.cpp, capi = /repo/lib/CAPI/TorchTypes.cpp.
    A null type inside another type is undefined behaviour; so is a dictionary type that DictType::verify refuses.
    Errors that are only printed (mlirEmitError) are left out. *)
From Coq Require Import ZArith Bool String List.
From Verif Require Import Prelude DtypeModel TypesModel.
From Verif Require RegistryModel.
Import ListNotations.
Open Scope string_scope.
Open Scope list_scope.
Open Scope Z_scope.

(** c10::Type; a size of a tensor is static or not, a class is registered as a custom class or not. *)
Inductive jit :=
| JTensor (scalar : option scalar_type) (symbolic_sizes : option (list (option Z)))
| JInt | JFloat | JBool | JNumber | JString | JNone | JAny | JDevice | JGenerator
| JOptional (t : jit) | JTuple (l : list jit) | JUnion (l : list jit) | JList (t : jit) | JDict (key value : jit)
| JClass (name : option string) (custom : bool)
| JOther.
(** ImportOptions, io l.17-37 *)
Record options := { assume_value_semantics : bool; ignore_shapes_and_dtypes : bool }.
Definition default_options : options := {| assume_value_semantics := false; ignore_shapes_and_dtypes := false |}.
(** A type, the null type, an exception, undefined behaviour *)
Inductive outcome := Made (t : ty) | Null | Throws | Invalid.

(** getMlirTypeForTorchScalarTypeRaw, tu l.29-69 *)
Definition scalar_raw (s : scalar_type) : option mlir_type :=
  match s with
  | Byte => Some (IntT 8 Unsigned)
  | Char => Some (IntT 8 Signed)
  | Short => Some (IntT 16 Signed)
  | Int => Some (IntT 32 Signed)
  | Long => Some (IntT 64 Signed)
  | Bool => Some (IntT 1 Signless)
  | Double => Some (FloatT F64)
  | Float => Some (FloatT F32)
  | BFloat16 => Some (FloatT BF16)
  | Half => Some (FloatT F16)
  | QInt8 => Some QInt8T
  | QUInt8 => Some QUInt8T
  | ComplexHalf => Some (ComplexT (FloatT F16))
  | ComplexFloat => Some (ComplexT (FloatT F32))
  | ComplexDouble => Some (ComplexT (FloatT F64))
  | _ => None
  end.
(** torchMlirTorchValueTensorTypeGet and torchMlirTorchNonValueTensorTypeGet, capi l.296-306 and 363-373 *)
Definition tensor (vs : bool) (sz : option (list Z)) (d : option mlir_type) : tensor_type :=
  {| value_semantics := vs; sizes := sz; elt := option_map Builtin d; sparsity := None |}.
(** mapCustomClassType, tu l.99-127; [Null] if the class is not a custom class *)
Definition linear_params : string := "__torch__.torch.classes.quantized.LinearPackedParamsBase".
Definition map_custom_class (name : option string) (custom : bool) : outcome :=
  match name with
  | None => Null
  | Some n => if negb custom then Null else if String.eqb n linear_params then Made (Atom LinearParamsA) else Throws
  end.
(** The types that are collected for a tuple, a union or a dictionary *)
Inductive collected := All (l : list ty) | Fails (o : outcome).
Fixpoint collect (l : list outcome) : collected :=
  match l with
  | [] => All []
  | Made t :: r => match collect r with All l => All (t :: l) | f => f end
  | Null :: r => match collect r with All _ => Fails Invalid | f => f end
  | o :: _ => Fails o
  end.
Definition inside (o : outcome) (f : ty -> outcome) : outcome := match o with Made t => f t | Null => Invalid | _ => o end.
(** getMlirTypeFromTorchType, tu l.129-254 *)
Fixpoint from_torch (o : options) (j : jit) : outcome :=
  match j with
  | JTensor scalar symbolic =>
      if ignore_shapes_and_dtypes o then Made (Tens (tensor (assume_value_semantics o) None None))
      else
        match match scalar with None => Some None | Some s => option_map Some (scalar_raw s) end with
        | None => Null
        | Some element =>
            match symbolic with
            | None => Made (Tens (tensor (assume_value_semantics o) None element))
            | Some dims => Made (Tens (tensor (assume_value_semantics o) (Some (map (fun d => match d with Some n => n | None => -1 end) dims)) element))
            end
        end
  | JInt => Made (Atom IntA)
  | JFloat => Made (Atom FloatA)
  | JBool => Made (Atom BoolA)
  | JNumber => Made (Atom NumberA)
  | JString => Made (Atom StringA)
  | JOptional t => inside (from_torch o t) (fun t => Made (Optional t))
  | JTuple l => match collect (map (fun t => from_torch o t) l) with All l => Made (Tuple l) | Fails f => f end
  | JUnion l => match collect (map (fun t => from_torch default_options t) l) with All l => Made (Union l) | Fails f => f end
  | JList t => inside (from_torch o t) (fun t => Made (List_ t))
  | JDict k v =>
      match collect [from_torch o k; from_torch o v] with
      | All [k; v] => if dict_verify k v then Made (Dict k v) else Invalid
      | All _ => Invalid
      | Fails f => f
      end
  | JNone => Made (Atom NoneA)
  | JAny => Made (Atom AnyA)
  | JClass name custom =>
      match map_custom_class name custom with
      | Null => Made (Module (match name with Some n => n | None => "unnamed class" end))
      | r => r
      end
  | JDevice => Made (Atom DeviceA)
  | JGenerator => Made (Atom GeneratorA)
  | JOther => Null
  end.
(** getMlirTypesFromValues, tu l.459-471, and mapType of getFunctionTypeFromSchema: [None] is an exception or undefined behaviour *)
Fixpoint types_from_values (o : options) (l : list jit) : option (list ty) :=
  match l with
  | [] => Some []
  | j :: r => match from_torch o j with Made t => do r <- types_from_values o r; Some (t :: r) | _ => None end
  end.
(** getFunctionTypeFromSchema, tu l.256-285 *)
Definition function_type (o : options) (arguments returns : list jit) : option (list ty * list ty) :=
  do i <- types_from_values o arguments;
  do r <- types_from_values o returns;
  Some (i, r).

(** torch.type_bound of an argument, ivi l.535-573; an annotation has a shape, a dtype and a flag.  A dtype that has no type is left out. *)
Definition annotation := (option (list Z) * option scalar_type * bool)%type.
Definition type_bound (annotations : option (list annotation)) (i : nat) : option tensor_type :=
  match annotations with
  | None => None
  | Some l =>
      match nth_error l i with
      | Some (Some shape, Some dtype, has_value_semantics) => Some (tensor has_value_semantics (Some shape) (scalar_raw dtype))
      | _ => None
      end
  end.
(** The attributes of the arguments in importJitFunctionAsFuncOp, fi l.40-49 *)
Definition arg_attrs (inputs : list ty) (annotations : option (list annotation)) : list (option tensor_type) :=
  map (type_bound annotations) (seq 0 (List.length inputs)).

(** c10::toUnderlying (PyTorch) *)
Definition to_underlying (s : scalar_type) : scalar_type :=
  match s with QUInt8 | QUInt4x2 | QUInt2x4 => Byte | QInt8 => Char | QInt32 => Int | _ => s end.
(** The C type that the data is read as, tu l.317-373: a function of the C API reads items of it *)
Inductive c_type := Int32C | Int64C | FloatC | DoubleC | BoolC | Int8C | UInt8C | BFloat16C | Float16C.
Definition read_as (s : scalar_type) : option c_type :=
  match s with
  | Int => Some Int32C
  | Long => Some Int64C
  | Float => Some FloatC
  | Double => Some DoubleC
  | Bool => Some BoolC
  | QInt8 => Some Int8C
  | QUInt8 => Some UInt8C
  | BFloat16 => Some BFloat16C
  | Half => Some Float16C
  | Byte => Some UInt8C
  | Char => Some Int8C
  | _ => None
  end.
(** convertTensorToMlirElementsAttr, tu l.287-375, without the data: the element type and what is read *)
Definition elements_attr (s : scalar_type) : option (mlir_type * c_type) :=
  do element <- scalar_raw (to_underlying s);
  do c <- read_as s;
  Some (element, c).

(** adjustStaticInformation, to l.56-96: what is done to a value of type [t]; [None] if nothing is known *)
Inductive adjustment := Same | StaticInfoCast | Derefine | UncheckedCast.
Definition both_tensors (a b : ty) : bool :=
  match a, b with Tens x, Tens y => Bool.eqb (value_semantics x) (value_semantics y) | _, _ => false end.
Definition adjust (t desired : ty) (user_allows_refinement : bool) : option adjustment :=
  if ty_eqb t desired then Some Same
  else if both_tensors t desired then Some StaticInfoCast
  else if isValidSubtype t desired then (if negb user_allows_refinement then Some Derefine else Some Same)
  else if isValidSubtype desired t then Some UncheckedCast
  else None.
Definition adjusted_type (a : adjustment) (t desired : ty) : ty := match a with Same => t | _ => desired end.
(** adjustStaticInformationForValues, tu l.473-508: an exception if one value has no adjustment *)
Fixpoint adjust_all (types desired : list ty) (user_allows_refinement : bool) : option (list adjustment) :=
  match types, desired with
  | [], [] => Some []
  | t :: r, d :: r' => do a <- adjust t d user_allows_refinement; do l <- adjust_all r r' user_allows_refinement; Some (a :: l)
  | _, _ => None
  end.

(** createOperationFromSchema, tu l.510-545: the operation of the dialect if it is registered, torch.operator with the name otherwise *)
Inductive created := Registered (name : RegistryModel.text) | Opaque (name : RegistryModel.text).
Fixpoint replace_separator (s : RegistryModel.text) : option RegistryModel.text :=
  match s with
  | [] => None
  | x :: r => if RegistryModel.char_eqb x RegistryModel.colon then Some (RegistryModel.dot :: tl r) else do r <- replace_separator r; Some (x :: r)
  end.
Definition name_suffix (name overload : RegistryModel.text) : option RegistryModel.text :=
  do s <- replace_separator name;
  Some (if RegistryModel.nonempty overload then s ++ [RegistryModel.dot] ++ overload else s).
Definition create_operation (registered : RegistryModel.text -> bool) (name overload : RegistryModel.text) : option created :=
  do suffix <- name_suffix name overload;
  let op_name := RegistryModel.txt "torch." ++ suffix in
  Some (if registered op_name then Registered op_name else Opaque suffix).

(** MlirLocation *)
Inductive location := Unknown | FileLineCol (file : string) (line col : Z) | Named (name : string) (child : location) | CallSite (callee caller : location).
(** What a node says of its source: the attributes source_files, line_numbers and functions, the source range, the scope, the name of the operator *)
Record node_source := { stack : option (list string * list Z * list string); range : option (string * Z * Z); scope : string; operator_name : option string }.
(** getMlirLocationFromNode, tu l.405-457; [None] if the attributes have different lengths *)
Fixpoint chain (files : list string) (lines : list Z) (functions : list string) (first : bool) (loc : location) : option location :=
  match files, lines, functions with
  | [], _, _ => Some loc
  | f :: files, l :: lines, g :: functions =>
      let new := Named g (FileLineCol f l 0) in
      chain files lines functions false (if first then new else CallSite new loc)
  | _, _, _ => None
  end.
Definition location_name (n : node_source) : string :=
  let name := scope n in
  match operator_name n with
  | Some op => (if negb (String.eqb name "") then name ++ "/" else name) ++ op
  | None => name
  end.
Definition node_location (n : node_source) : option location :=
  do loc <-
    match stack n with
    | Some (files, lines, functions) =>
        do loc <- chain files lines functions true Unknown;
        Some (if List.length files =? 1 then CallSite loc Unknown else loc)%nat
    | None => Some match range n with Some (f, l, c) => FileLineCol f l c | None => Unknown end
    end;
  Some (if String.eqb (location_name n) "" then loc else Named (location_name n) loc).
