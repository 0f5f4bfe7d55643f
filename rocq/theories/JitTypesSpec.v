(** What imported types, tensors and positions should be, for [JitTypesModel]. *)
From Coq Require Import ZArith Bool String List.
From Verif Require Import DtypeModel TypesModel TypesSpec JitTypesModel.
Import ListNotations.
Open Scope string_scope.
Open Scope list_scope.
Open Scope Z_scope.

(** Scalar types that the importer knows *)
Definition importable (s : scalar_type) : Prop :=
  In s [Bool; Byte; Char; Short; Int; Long; Half; BFloat16; Float; Double; ComplexHalf; ComplexFloat; ComplexDouble; QInt8; QUInt8].
(** The element type is the one that the dialect has for the scalar type. *)
Definition element_is (s : option scalar_type) (d : option dtype) : Prop :=
  match s, d with
  | None, None => True
  | Some s, Some (Builtin t) => importable s /\ getTypeForScalarType s = Some t
  | _, _ => False
  end.
Definition size_is (d : option Z) (n : Z) : Prop := match d with Some m => n = m | None => n = -1 end.
Definition sizes_are (s : option (list (option Z))) (z : option (list Z)) : Prop :=
  match s, z with None, None => True | Some l, Some m => Forall2 size_is l m | _, _ => False end.
Definition dict_key (t : ty) : Prop := In t [Atom AnyA; Atom IntA; Atom BoolA; Atom FloatA; Atom StringA] \/ exists x, t = Tens x.

(** The type of the dialect for a type of TorchScript; [u] are the options inside unions. *)
Inductive means (u : options) : options -> jit -> ty -> Prop :=
| means_unknown o s z : ignore_shapes_and_dtypes o = true ->
    means u o (JTensor s z) (Tens {| value_semantics := assume_value_semantics o; sizes := None; elt := None; sparsity := None |})
| means_tensor o s z d n : ignore_shapes_and_dtypes o = false -> element_is s d -> sizes_are z n ->
    means u o (JTensor s z) (Tens {| value_semantics := assume_value_semantics o; sizes := n; elt := d; sparsity := None |})
| means_int o : means u o JInt (Atom IntA)
| means_float o : means u o JFloat (Atom FloatA)
| means_bool o : means u o JBool (Atom BoolA)
| means_number o : means u o JNumber (Atom NumberA)
| means_string o : means u o JString (Atom StringA)
| means_none o : means u o JNone (Atom NoneA)
| means_any o : means u o JAny (Atom AnyA)
| means_device o : means u o JDevice (Atom DeviceA)
| means_generator o : means u o JGenerator (Atom GeneratorA)
| means_optional o j t : means u o j t -> means u o (JOptional j) (Optional t)
| means_list o j t : means u o j t -> means u o (JList j) (List_ t)
| means_tuple o l ts : Forall2 (means u o) l ts -> means u o (JTuple l) (Tuple ts)
| means_union o l ts : Forall2 (means u u) l ts -> means u o (JUnion l) (Union ts)
| means_dict o k v k' v' : means u o k k' -> means u o v v' -> dict_key k' -> means u o (JDict k v) (Dict k' v')
| means_class o n : means u o (JClass (Some n) false) (Module n)
| means_unnamed o b : means u o (JClass None b) (Module "unnamed class")
| means_linear o : means u o (JClass (Some "__torch__.torch.classes.quantized.LinearPackedParamsBase") true) (Atom LinearParamsA).
(** No union has a tensor inside. *)
Fixpoint tensor_free (j : jit) : bool :=
  match j with
  | JTensor _ _ => false
  | JOptional t | JList t => tensor_free t
  | JTuple l | JUnion l => forallb tensor_free l
  | JDict k v => tensor_free k && tensor_free v
  | _ => true
  end.
Fixpoint unions_tensor_free (j : jit) : bool :=
  match j with
  | JOptional t | JList t => unions_tensor_free t
  | JTuple l => forallb unions_tensor_free l
  | JUnion l => forallb tensor_free l
  | JDict k v => unions_tensor_free k && unions_tensor_free v
  | _ => true
  end.

(** How PyTorch stores a scalar, and what the C types hold *)
Inductive representation := SignedR (bits : Z) | UnsignedR (bits : Z) | FloatR (bits : Z) | BrainR | TruthR.
Definition stored (s : scalar_type) : option representation :=
  match s with
  | Bool => Some TruthR | Byte | QUInt8 => Some (UnsignedR 8) | Char | QInt8 => Some (SignedR 8) | Short => Some (SignedR 16) | Int => Some (SignedR 32) | Long => Some (SignedR 64)
  | Half => Some (FloatR 16) | Float => Some (FloatR 32) | Double => Some (FloatR 64) | BFloat16 => Some BrainR | _ => None
  end.
Definition holds (c : c_type) : representation :=
  match c with
  | Int32C => SignedR 32 | Int64C => SignedR 64 | FloatC => FloatR 32 | DoubleC => FloatR 64 | BoolC => TruthR | Int8C => SignedR 8 | UInt8C => UnsignedR 8 | BFloat16C => BrainR | Float16C => FloatR 16
  end.
(** The element type of a literal holds what is stored. *)
Definition literal_type (r : representation) : mlir_type :=
  match r with SignedR n => IntT n Signed | UnsignedR n => IntT n Unsigned | TruthR => IntT 1 Signless | BrainR => FloatT BF16 | FloatR n => FloatT (if n =? 16 then F16 else if n =? 32 then F32 else F64) end.

(** What a node says of its source: a position, or frames, the innermost first *)
Inductive said := Nowhere | Position (file : string) (line col : Z) | Frames (l : list (string * Z * string)).
Definition source (n : node_source) : said :=
  match stack n with
  | Some ([], _, _) => Nowhere
  | Some (files, lines, functions) => Frames (rev (combine (combine files lines) functions))
  | None => match range n with Some (f, l, c) => Position f l c | None => Nowhere end
  end.
(** The frames of a location *)
Fixpoint frames (l : location) : list (string * Z * string) :=
  match l with
  | CallSite (Named g (FileLineCol f n _)) r => (f, n, g) :: frames r
  | Named g (FileLineCol f n _) => [(f, n, g)]
  | _ => []
  end.
