(** What ONNX types, names, tensors and attributes mean. *)
From Coq Require Import ZArith Bool Ascii String List.
From Verif Require Import Prelude DtypeModel TypesModel OnnxModel OnnxTypesModel.
Import ListNotations.
Open Scope string_scope.
Open Scope list_scope.
Open Scope Z_scope.

(** * Lists of named things, where a later one replaces an earlier one of the same name *)
Definition last_named {A} (l : list (string * A)) (k : string) (v : A) : Prop :=
  exists before after, l = before ++ (k, v) :: after /\ ~ In k (map fst after).
Definition unnamed {A} (l : list (string * A)) (k : string) : Prop := ~ In k (map fst l).

(** * Element types *)
Inductive kind := Integer (bits : Z) (signed : bool) | Boolean | Real (f : float_type) | Complex (part : float_type) | Text.
Definition onnx_kind (e : data_type) : option kind :=
  match e with
  | D_BOOL => Some Boolean
  | D_INT4 => Some (Integer 4 true) | D_INT8 => Some (Integer 8 true) | D_INT16 => Some (Integer 16 true)
  | D_INT32 => Some (Integer 32 true) | D_INT64 => Some (Integer 64 true)
  | D_UINT4 => Some (Integer 4 false) | D_UINT8 => Some (Integer 8 false) | D_UINT16 => Some (Integer 16 false)
  | D_UINT32 => Some (Integer 32 false) | D_UINT64 => Some (Integer 64 false)
  | D_FLOAT16 => Some (Real F16) | D_BFLOAT16 => Some (Real BF16) | D_FLOAT => Some (Real F32) | D_DOUBLE => Some (Real F64)
  | D_FLOAT8E4M3FN => Some (Real F8E4M3FN) | D_FLOAT8E4M3FNUZ => Some (Real F8E4M3FNUZ)
  | D_FLOAT8E5M2 => Some (Real F8E5M2) | D_FLOAT8E5M2FNUZ => Some (Real F8E5M2FNUZ)
  | D_FLOAT4E2M1 => Some (Real F4E2M1FN)
  | D_COMPLEX64 => Some (Complex F32) | D_COMPLEX128 => Some (Complex F64)
  | D_STRING => Some Text
  | D_UNDEFINED => None
  end.
Definition kind_of (d : dtype) : option kind :=
  match d with
  | Builtin (IntT w Signless) => if w =? 1 then Some Boolean else None
  | Builtin (IntT w s) => Some (Integer w (match s with Signed => true | _ => false end))
  | Builtin (FloatT f) => Some (Real f)
  | Builtin (ComplexT (FloatT f)) => Some (Complex f)
  | StringD => Some Text
  | _ => None
  end.
(** The torch element type for an ONNX element type; 4-bit floats have none. *)
Definition element (e : data_type) (d : dtype) : Prop := onnx_kind e <> None /\ kind_of d = onnx_kind e /\ e <> D_FLOAT4E2M1.

(** * Types *)
Definition size_of (d : dim) : Z := match d with DimValue z => z | _ => unknown_size end.
Inductive tensor_of (e : data_type) : option (list dim) -> ty -> Prop :=
| to_ranked ds d : element e d -> Forall (fun x => -1 <= size_of x) ds ->
    tensor_of e (Some ds) (Tens {| value_semantics := true; sizes := Some (map size_of ds); elt := Some d; sparsity := None |})
| to_unranked d : element e d -> tensor_of e None (Tens {| value_semantics := true; sizes := None; elt := Some d; sparsity := None |}).
Inductive torch_type : type_proto -> ty -> Prop :=
| tt_unset : torch_type PUnset (Atom NoneA)
| tt_tensor e s t : tensor_of e s t -> torch_type (PTensor e s) t
| tt_list e s t : tensor_of e s t -> torch_type (PSequence (PTensor e s)) (List_ t)
| tt_optional e s t : tensor_of e s t -> torch_type (POptional (PTensor e s)) (Optional t)
| tt_optional_list e s t : tensor_of e s t -> torch_type (POptional (PSequence (PTensor e s))) (Optional (List_ t)).
(** Every tensor type has a shape. *)
Fixpoint ranked (t : type_proto) : Prop :=
  match t with PTensor _ s => s <> None | PSequence u | POptional u => ranked u | _ => True end.

(** * Types of names *)
Inductive typed (g : graph_info) (name : string) : type_proto -> Prop :=
| ty_value t : last_named (value_info g) name t -> typed g name t
| ty_output t : unnamed (value_info g) name -> last_named (outputs g) name t -> typed g name t
| ty_input t : unnamed (value_info g) name -> unnamed (outputs g) name -> last_named (declared_inputs g) name t -> typed g name t
| ty_init t : unnamed (value_info g) name -> unnamed (outputs g) name -> unnamed (declared_inputs g) name ->
    last_named (initializers g) name t -> typed g name (PTensor (data_type_of t) (Some (map DimValue (dims t)))).

(** * Identifiers of MLIR *)
Definition letter (c : ascii) : Prop := (65 <= nat_of_ascii c <= 90)%nat \/ (97 <= nat_of_ascii c <= 122)%nat.
Definition digit (c : ascii) : Prop := (48 <= nat_of_ascii c <= 57)%nat.
Fixpoint chars (s : string) : list ascii := match s with EmptyString => [] | String c r => c :: chars r end.
(** A letter or underscore, then letters, digits, underscores and dots. *)
Definition legal (s : string) : Prop :=
  exists c r, s = String c r /\ (letter c \/ c = "_"%char) /\ forall x, In x (chars r) -> letter x \/ digit x \/ x = "_"%char \/ x = "."%char.
Definition plain (s : string) : Prop := legal s /\ ~ In "."%char (chars s).

(** * Tensors *)
(** Where ONNX keeps typed data, for the types whose values are kept one per entry. *)
Inductive field := FFloat | FInt32 | FInt64 | FDouble | FUint64.
Definition onnx_field (e : data_type) : option field :=
  match e with
  | D_FLOAT => Some FFloat | D_DOUBLE => Some FDouble | D_INT64 => Some FInt64 | D_UINT32 | D_UINT64 => Some FUint64
  | D_INT32 | D_INT16 | D_INT8 | D_UINT16 | D_UINT8 | D_BOOL | D_FLOAT16 | D_BFLOAT16
  | D_FLOAT8E4M3FN | D_FLOAT8E4M3FNUZ | D_FLOAT8E5M2 | D_FLOAT8E5M2FNUZ => Some FInt32
  | _ => None
  end.
Definition entries (t : tensor_proto) (f : field) : list Z :=
  match f with FFloat => float_data t | FInt32 => int32_data t | FInt64 => int64_data t | FDouble => double_data t | FUint64 => uint64_data t end.
(** A value of a tensor, as stored. *)
Definition stored (k : kind) (entry v : Z) : Prop :=
  match k with
  | Boolean => v = if entry =? 0 then 0 else 1
  | Integer bits true => v = entry /\ - 2 ^ (bits - 1) <= v < 2 ^ (bits - 1)
  | Integer bits false => v = entry /\ 0 <= v < 2 ^ bits
  | _ => v = entry
  end.
Definition elements_type (a : elements) : list Z * dtype := match a with Resource _ _ s e => (s, e) | Dense _ s e => (s, e) end.

(** * Attributes *)
Inductive attr_value (a : attribute) : mlir_attr -> Prop :=
| av_float : a_type a = T_FLOAT -> attr_value a (FloatAttr (a_f a))
| av_int : a_type a = T_INT -> attr_value a (IntegerAttr (a_i a))
| av_string : a_type a = T_STRING -> attr_value a (StringAttr (a_s a))
| av_tensor e : a_type a = T_TENSOR -> tensor_proto_to_attr (a_t a) = Some e -> attr_value a (Elements e)
| av_floats : a_type a = T_FLOATS -> attr_value a (ArrayAttr (map FloatAttr (a_floats a)))
| av_ints : a_type a = T_INTS -> attr_value a (ArrayAttr (map IntegerAttr (a_ints a)))
| av_strings : a_type a = T_STRINGS -> attr_value a (ArrayAttr (map StringAttr (a_strings a)))
| av_tensors l : a_type a = T_TENSORS -> Forall2 (fun t e => tensor_proto_to_attr t = Some e) (a_tensors a) l -> attr_value a (ArrayAttr (map Elements l)).

(** * Opsets *)
(** The version recorded on the function for a domain. *)
Definition recorded (a : option Z * option (list (string * Z))) (domain : string) : option Z :=
  if String.eqb domain "" then fst a else match snd a with Some l => lookup l domain | None => None end.
(** ONNX: two names of the default domain. *)
Definition same_domain (a b : string) : Prop := a = b \/ (In a [""; "ai.onnx"] /\ In b [""; "ai.onnx"]).
