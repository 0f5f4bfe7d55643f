(** The ONNX importer: types, type lookup, names of resources, tensors, attributes and opset metadata.

    Source under /repo: onnx = python/torch_mlir/extras/onnx_importer.py. Types are parsed from their
    spelling by the parser of TypesModel.v. Caches of types (onnx l.590-606) are left out: they are keyed by
    everything the type is made from. Protobuf messages are records; [WhichOneof] is the constructor.
    [None] is an exception. *)
From Coq Require Import ZArith Bool Ascii String List.
From Verif Require Import Prelude DtypeModel TypesModel OnnxModel.
Import ListNotations.
Open Scope string_scope.
Open Scope list_scope.
Open Scope Z_scope.

(** * Element types *)
(** onnx.TensorProto.DataType. *)
Inductive data_type :=
| D_UNDEFINED | D_FLOAT | D_UINT8 | D_INT8 | D_UINT16 | D_INT16 | D_INT32 | D_INT64 | D_STRING | D_BOOL | D_FLOAT16 | D_DOUBLE
| D_UINT32 | D_UINT64 | D_COMPLEX64 | D_COMPLEX128 | D_BFLOAT16 | D_FLOAT8E4M3FN | D_FLOAT8E4M3FNUZ | D_FLOAT8E5M2 | D_FLOAT8E5M2FNUZ
| D_UINT4 | D_INT4 | D_FLOAT4E2M1.
(** ELEM_TYPE_TO_IR_TYPE_CB and tensor_element_type, onnx l.1094-1118 and l.608-617. *)
Definition tensor_element_type (e : data_type) : option dtype :=
  match e with
  | D_FLOAT => Some (Builtin (FloatT F32))
  | D_UINT8 => Some (Builtin (IntT 8 Unsigned))
  | D_INT8 => Some (Builtin (IntT 8 Signed))
  | D_UINT16 => Some (Builtin (IntT 16 Unsigned))
  | D_INT16 => Some (Builtin (IntT 16 Signed))
  | D_INT32 => Some (Builtin (IntT 32 Signed))
  | D_INT64 => Some (Builtin (IntT 64 Signed))
  | D_BOOL => Some (Builtin (IntT 1 Signless))
  | D_FLOAT16 => Some (Builtin (FloatT F16))
  | D_DOUBLE => Some (Builtin (FloatT F64))
  | D_UINT32 => Some (Builtin (IntT 32 Unsigned))
  | D_UINT64 => Some (Builtin (IntT 64 Unsigned))
  | D_COMPLEX64 => Some (Builtin (ComplexT (FloatT F32)))
  | D_COMPLEX128 => Some (Builtin (ComplexT (FloatT F64)))
  | D_BFLOAT16 => Some (Builtin (FloatT BF16))
  | D_FLOAT8E4M3FN => Some (Builtin (FloatT F8E4M3FN))
  | D_FLOAT8E4M3FNUZ => Some (Builtin (FloatT F8E4M3FNUZ))
  | D_FLOAT8E5M2 => Some (Builtin (FloatT F8E5M2))
  | D_FLOAT8E5M2FNUZ => Some (Builtin (FloatT F8E5M2FNUZ))
  | D_STRING => Some StringD
  | D_UINT4 => Some (Builtin (IntT 4 Unsigned))
  | D_INT4 => Some (Builtin (IntT 4 Signed))
  | D_UNDEFINED | D_FLOAT4E2M1 => None
  end.

(** * Types *)
(** TensorShapeProto.Dimension. *)
Inductive dim := DimValue (z : Z) | DimParam (s : string) | DimUnset.
(** onnx.TypeProto; [PUnset] has no value. A tensor type may have no shape. *)
Inductive type_proto :=
| PUnset
| PTensor (e : data_type) (shape : option (list dim))
| PSequence (t : type_proto)
| POptional (t : type_proto)
| POther. (** a map, a sparse tensor or an opaque type *)
Definition dims_of (shape : option (list dim)) : list (option Z) :=
  map (fun d => match d with DimValue z => Some z | _ => None end) (match shape with Some l => l | None => [] end).
(** [",".join("?" if d is None else str(d) for d in dims)], onnx l.657, l.670 and l.685. *)
Fixpoint shape_asm (dims : list (option Z)) : list token :=
  let one := fun d => match d with None => Question | Some z => Int_ z end in
  match dims with [] => [] | [d] => [one d] | d :: r => one d :: Comma :: shape_asm r end.
(** [vtensor<[..],..>], onnx l.658, l.671 and l.686. *)
Definition vtensor_asm (dims : list (option Z)) (e : dtype) : list token :=
  [Word "vtensor"; Less; LSquare] ++ shape_asm dims ++ [RSquare; Comma; Type_ e; Greater].
(** IrType.parse of a whole spelling. No spelling here has an encoding. *)
Definition parse_type (l : list token) : option ty :=
  match parse (fun _ _ _ => false) (S (length l)) l with Some (t, []) => Some t | _ => None end.
(** tt.elem_type is 0 when unset or not a tensor. *)
Definition defined (e : data_type) : bool := match e with D_UNDEFINED => false | _ => true end.
(** get_list_element_type, onnx l.650-660. *)
Definition get_list_element_type (t : type_proto) : option (list token) :=
  match t with
  | PTensor e shape => assert defined e; do el <- tensor_element_type e; Some (vtensor_asm (dims_of shape) el)
  | _ => None
  end.
(** get_optional_element_type, onnx l.662-677. A message is true in Python, even when unset. *)
Definition get_optional_element_type (t : type_proto) : option (list token) :=
  match t with
  | PTensor e shape =>
      if defined e then do el <- tensor_element_type e; Some (vtensor_asm (dims_of shape) el)
      else get_list_element_type PUnset
  | PSequence u => do a <- get_list_element_type u; Some ([Word "list"; Less] ++ a ++ [Greater])
  | _ => get_list_element_type PUnset
  end.
(** get_vtensor_type, get_list_type and get_optional_type, onnx l.622-648 and l.679-694. *)
Definition get_vtensor_type (dims : list (option Z)) (e : dtype) : option ty := parse_type (vtensor_asm dims e).
Definition get_list_type (a : list token) : option ty := parse_type ([Word "list"; Less] ++ a ++ [Greater]).
Definition get_optional_type (a : list token) : option ty := parse_type ([Word "optional"; Less] ++ a ++ [Greater]).
(** type_proto_to_type, onnx l.709-748; [None] in the argument is the empty string. [len(str(x)) > 0] holds unless x is unset. *)
Definition type_proto_to_type (tp : option type_proto) : option ty :=
  match tp with
  | None => Some (Atom NoneA)
  | Some PUnset => Some (Atom NoneA)
  | Some (PTensor e shape) => if defined e then do el <- tensor_element_type e; get_vtensor_type (dims_of shape) el else None
  | Some (PSequence PUnset) => None
  | Some (PSequence u) => do a <- get_list_element_type u; get_list_type a
  | Some (POptional PUnset) => None
  | Some (POptional u) => do a <- get_optional_element_type u; get_optional_type a
  | Some POther => None
  end.

(** * Type of a name *)
(** onnx.TensorProto: its type and dimensions, raw bytes if present, and the typed fields. *)
Record tensor_proto := {
  tp_name : string; data_type_of : data_type; dims : list Z; raw_data : option (list Z);
  float_data : list Z; int32_data : list Z; int64_data : list Z; double_data : list Z; uint64_data : list Z }.
(** The maps of GraphInfo, onnx l.163-174, built from lists in order. *)
Record graph_info := {
  value_info : list (string * type_proto); outputs : list (string * type_proto);
  declared_inputs : list (string * type_proto); initializers : list (string * tensor_proto) }.
(** onnx.helper.make_tensor_type_proto. *)
Definition make_tensor_type_proto (e : data_type) (ds : list Z) : type_proto := PTensor e (Some (map DimValue ds)).
(** find_type_proto_for_name, onnx l.198-217; [None] is the empty string. *)
Definition find_type_proto_for_name (g : graph_info) (name : string) : option type_proto :=
  match lookup (dict (value_info g)) name with
  | Some t => Some t
  | None =>
      match lookup (dict (outputs g)) name with
      | Some t => Some t
      | None =>
          match lookup (dict (declared_inputs g)) name with
          | Some t => Some t
          | None =>
              match lookup (dict (initializers g)) name with
              | Some t => Some (make_tensor_type_proto (data_type_of t) (dims t))
              | None => None
              end
          end
      end
  end.
(** _handle_node_Constant adds the constant to initializer_map, onnx l.586. *)
Definition add_constant (g : graph_info) (name : string) (t : tensor_proto) : graph_info :=
  {| value_info := value_info g; outputs := outputs g; declared_inputs := declared_inputs g; initializers := initializers g ++ [(name, t)] |}.
(** The types of an operator's results, onnx l.418-425. *)
Definition output_type (g : graph_info) (name : string) : option ty := type_proto_to_type (find_type_proto_for_name g name).
(** The types of an operator's inputs given to function lookup, onnx l.397-416. *)
Definition input_type_proto (g : graph_info) (name : string) : type_proto :=
  if String.eqb name "" then PUnset else match find_type_proto_for_name g name with Some t => t | None => PUnset end.

(** * Names of resources *)
Definition between (a b : nat) (c : ascii) : bool := (a <=? nat_of_ascii c)%nat && (nat_of_ascii c <=? b)%nat.
(** Characters are taken to be ASCII. *)
Definition is_letter (c : ascii) : bool := between 65 90 c || between 97 122 c.
Definition is_digit (c : ascii) : bool := between 48 57 c.
Definition is_underscore (c : ascii) : bool := Ascii.eqb c "_".
(** [\w] *)
Definition word_char (c : ascii) : bool := is_letter c || is_digit c || is_underscore c.
Fixpoint all_chars (f : ascii -> bool) (s : string) : bool := match s with EmptyString => true | String c r => f c && all_chars f r end.
Fixpoint map_chars (f : ascii -> ascii) (s : string) : string := match s with EmptyString => EmptyString | String c r => String (f c) (map_chars f r) end.
(** str.isidentifier. *)
Definition isidentifier (s : string) : bool :=
  match s with EmptyString => false | String c r => (is_letter c || is_underscore c) && all_chars word_char r end.
(** _sanitize_name, onnx l.750-756. *)
Definition sanitize_name (name : string) : string :=
  let name := if isidentifier name then name else append "_" name in
  map_chars (fun c => if word_char c || Ascii.eqb c "." then c else "_"%char) name.

(** * Tensors *)
(** numpy element types used for inline data. *)
Inductive np_type := NpFloat32 | NpBool | NpUint8 | NpInt8 | NpInt16 | NpInt32 | NpInt64 | NpFloat64 | NpUint32 | NpUint64.
(** ELEM_TYPE_INLINE_TENSOR_PROTO_CB, onnx l.1138-1177: the field read and the numpy type. *)
Definition inline_field (t : tensor_proto) : option (list Z * np_type) :=
  match data_type_of t with
  | D_FLOAT => Some (float_data t, NpFloat32)
  | D_BOOL => Some (int32_data t, NpBool)
  | D_UINT8 => Some (int32_data t, NpUint8)
  | D_INT8 => Some (int32_data t, NpInt8)
  | D_INT16 => Some (int32_data t, NpInt16)
  | D_INT32 => Some (int32_data t, NpInt32)
  | D_INT64 => Some (int64_data t, NpInt64)
  | D_DOUBLE => Some (double_data t, NpFloat64)
  | D_UINT32 => Some (uint64_data t, NpUint32)
  | D_UINT64 => Some (uint64_data t, NpUint64)
  | _ => None
  end.
(** np.asarray of Python numbers: integers out of range raise; booleans are tests against zero. Values of floating
    fields stand for themselves. *)
Definition np_range (t : np_type) : option (Z * Z) :=
  match t with
  | NpUint8 => Some (0, 2 ^ 8) | NpInt8 => Some (- 2 ^ 7, 2 ^ 7) | NpInt16 => Some (- 2 ^ 15, 2 ^ 15) | NpInt32 => Some (- 2 ^ 31, 2 ^ 31)
  | NpInt64 => Some (- 2 ^ 63, 2 ^ 63) | NpUint32 => Some (0, 2 ^ 32) | NpUint64 => Some (0, 2 ^ 64)
  | NpBool | NpFloat32 | NpFloat64 => None
  end.
Definition np_value (t : np_type) (z : Z) : option Z :=
  match t with
  | NpBool => Some (if z =? 0 then 0 else 1)
  | _ => match np_range t with Some (lo, hi) => assert (lo <=? z) && (z <? hi); Some z | None => Some z end
  end.
(** The builtin element type DenseElementsAttr gives to an array, with signless=False, or the type asked for. *)
Definition np_element (t : np_type) : dtype :=
  match t with
  | NpFloat32 => Builtin (FloatT F32) | NpFloat64 => Builtin (FloatT F64) | NpBool => Builtin (IntT 1 Signless)
  | NpUint8 => Builtin (IntT 8 Unsigned) | NpInt8 => Builtin (IntT 8 Signed) | NpInt16 => Builtin (IntT 16 Signed)
  | NpInt32 => Builtin (IntT 32 Signed) | NpInt64 => Builtin (IntT 64 Signed) | NpUint32 => Builtin (IntT 32 Unsigned) | NpUint64 => Builtin (IntT 64 Unsigned)
  end.
(** A dense resource with its bytes, or dense elements. *)
Inductive elements :=
| Resource (name : string) (bytes : list Z) (shape : list Z) (e : dtype)
| Dense (values : list Z) (shape : list Z) (e : dtype).
(** tensor_proto_to_builtin_type, onnx l.700-707: a tensor of strings has no builtin type; negative sizes are refused. *)
Definition tensor_proto_to_builtin_type (t : tensor_proto) : option (list Z * dtype) :=
  do e <- tensor_element_type (data_type_of t);
  assert (match e with StringD => false | _ => true end) && forallb (Z.leb 0) (dims t);
  Some (dims t, e).
(** tensor_proto_to_attr, onnx l.758-774. Any number of raw bytes is taken. *)
Definition tensor_proto_to_attr (t : tensor_proto) : option elements :=
  do (shape, e) <- tensor_proto_to_builtin_type t;
  match raw_data t with
  | Some bytes => Some (Resource (sanitize_name (tp_name t)) bytes shape e)
  | None =>
      do (field, np) <- inline_field t;
      do values <- mapM (np_value np) field;
      assert (zlen values =? prodZ (dims t)); (** reshape *)
      Some (Dense values (dims t) (np_element np))
  end.
(** tensor_proto_to_type, onnx l.696-698. *)
Definition tensor_proto_to_type (t : tensor_proto) : option ty :=
  do e <- tensor_element_type (data_type_of t);
  get_vtensor_type (map Some (dims t)) e.

(** * Attributes *)
(** onnx.AttributeProto.AttributeType; any other code is [T_OTHER]. *)
Inductive attr_type :=
| T_UNDEFINED | T_FLOAT | T_INT | T_STRING | T_TENSOR | T_GRAPH | T_SPARSE_TENSOR | T_TYPE_PROTO
| T_FLOATS | T_INTS | T_STRINGS | T_TENSORS | T_GRAPHS | T_SPARSE_TENSORS | T_TYPE_PROTOS | T_OTHER.
(** Floats stand for themselves. *)
Record attribute := {
  a_name : string; a_type : attr_type; a_f : Z; a_i : Z; a_s : string; a_t : tensor_proto;
  a_floats : list Z; a_ints : list Z; a_strings : list string; a_tensors : list tensor_proto }.
Inductive mlir_attr :=
| FloatAttr (f : Z) | IntegerAttr (i : Z) | StringAttr (s : string) | Elements (e : elements) | ArrayAttr (l : list mlir_attr).
Inductive handler := HSkip | HError | HConvert (f : attribute -> option mlir_attr).
(** ATTRIBUTE_TYPE_HANDLERS, onnx l.1202-1236; [None]: the type is not in the table. *)
Definition ATTRIBUTE_TYPE_HANDLERS (t : attr_type) : option handler :=
  match t with
  | T_UNDEFINED => Some HError
  | T_FLOAT => Some (HConvert (fun a => Some (FloatAttr (a_f a))))
  | T_INT => Some (HConvert (fun a => Some (IntegerAttr (a_i a))))
  | T_STRING => Some (HConvert (fun a => Some (StringAttr (a_s a))))
  | T_TENSOR => Some (HConvert (fun a => do e <- tensor_proto_to_attr (a_t a); Some (Elements e)))
  | T_GRAPH => Some HSkip
  | T_SPARSE_TENSOR => Some HError
  | T_TYPE_PROTO => Some HError
  | T_FLOATS => Some (HConvert (fun a => Some (ArrayAttr (map FloatAttr (a_floats a)))))
  | T_INTS => Some (HConvert (fun a => Some (ArrayAttr (map IntegerAttr (a_ints a)))))
  | T_STRINGS => Some (HConvert (fun a => Some (ArrayAttr (map StringAttr (a_strings a)))))
  | T_TENSORS => Some (HConvert (fun a => do l <- mapM tensor_proto_to_attr (a_tensors a); Some (ArrayAttr (map Elements l))))
  | T_GRAPHS => Some HError
  | T_SPARSE_TENSORS => Some HError
  | T_TYPE_PROTOS => Some HError
  | T_OTHER => None
  end.
(** import_attributes, onnx l.460-487. *)
Fixpoint import_attributes_loop (l : list attribute) (attrs : list (string * mlir_attr)) : option (list (string * mlir_attr)) :=
  match l with
  | [] => Some attrs
  | a :: r =>
      do h <- ATTRIBUTE_TYPE_HANDLERS (a_type a);
      match h with
      | HSkip => import_attributes_loop r attrs
      | HError => None
      | HConvert f => do v <- f a; import_attributes_loop r (dict_set attrs (append "torch.onnx." (a_name a)) v)
      end
  end.
(** With the operator's name, onnx l.444-445. *)
Definition operator_attributes (op_type : string) (l : list attribute) : option (list (string * mlir_attr)) :=
  do attrs <- import_attributes_loop l [];
  Some (dict_set attrs "name" (StringAttr (append "onnx." op_type))).
(** count_regions, onnx l.489-494. *)
Definition count_regions (l : list attribute) : nat :=
  length (filter (fun a => match a_type a with T_GRAPH => true | _ => false end) l).

(** * Opset metadata *)
(** [m.opset_import] as domains with versions, onnx l.312-342. *)
Fixpoint opset_loop (l : list (string * Z)) (default : Z) (versions : list (string * Z)) : Z * list (string * Z) :=
  match l with
  | [] => (default, versions)
  | (domain, version) :: r =>
      if String.eqb domain "" then opset_loop r version versions else opset_loop r default (dict_set versions domain version)
  end.
(** The two attributes, when present. *)
Definition opset_attributes (l : list (string * Z)) : option Z * option (list (string * Z)) :=
  let '(default, versions) := opset_loop l 0 [] in
  (if default =? 0 then None else Some default, match versions with [] => None | _ => Some versions end).
(** The version used for a node, onnx l.427-430: the first match; with none, the variable is unbound. *)
Definition node_opset (l : list (string * Z)) (domain : string) : option Z := lookup l domain.
