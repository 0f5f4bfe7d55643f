(** Model of how compiled programs are called and fed: lib/RefBackend/RefBackend.cpp (below: rbc), refbackend.py (rbp),
    the test configurations configs/utils.py (cu), configs/fx_importer_backend.py (fxb) and configs/onnx_backend.py (onb), all of
    projects/pt1/python/torch_mlir_e2e_test, utils.py there (e2u), compiler_utils.py (cpu) of python/torch_mlir and torchscript.py (tsc)
    of projects/pt1/python/torch_mlir. A raised exception or a failed pass is [None]. Memory is a list of bit patterns; numbers are
    their bit patterns. *)
From Coq Require Import ZArith Bool Ascii String List.
From Verif Require Import Prelude DtypeModel AsStridedModel.
Import ListNotations.
Open Scope string_scope.
Open Scope list_scope.
Open Scope Z_scope.

(** ** The calling convention of compiled functions *)
(** Types of arguments and results: elements, memrefs, unranked memrefs. *)
Inductive rty := Elem (t : mlir_type) | MemRef (shape : list Z) (t : mlir_type) | Unranked (t : mlir_type).
(** isArgMemRefTypeValid, rbc l.75-98. *)
Definition valid_arg (t : rty) : bool :=
  match t with
  | MemRef _ (FloatT (F16 | F32 | F64)) => true
  | MemRef _ (IntT w Signless) => (w =? 64) || (w =? 32) || (w =? 16) || (w =? 8) || (w =? 1)
  | MemRef _ (IntT w Signed) => w =? 8
  | MemRef _ (ComplexT (FloatT (F32 | F64))) => true
  | _ => false
  end.
(** getAbiTypeForMemRef, rbc l.104-106, applied to the memrefs only, l.196. *)
Definition abi (t : rty) : rty := match t with MemRef _ e => Unranked e | _ => t end.
Definition float_width (f : float_type) : Z :=
  match f with F16 | BF16 => 16 | F32 => 32 | F64 => 64 | F4E2M1FN => 4 | _ => 8 end.
(** getTypeToken, rbc l.111-125; [None]: llvm_unreachable. *)
Definition width_token (w : Z) : string := string_of_nat (Z.to_nat w).
Definition elem_token (t : mlir_type) : option string :=
  match t with
  | IntT w Signless => Some ("i" ++ width_token w)%string
  | FloatT f => Some ("f" ++ width_token (float_width f))%string
  | ComplexT (FloatT f) => Some ("c" ++ width_token (float_width f))%string
  | ComplexT (IntT w _) => Some ("c" ++ width_token w)%string
  | _ => None
  end.
Definition type_token (t : rty) : option string :=
  match t with
  | Elem e => elem_token e
  | Unranked e => do s <- elem_token e; Some ("mr" ++ s)%string
  | MemRef _ _ => None
  end.
(** getConsumeReturnFunctionNameForReturnTypes, rbc l.127-136. *)
Definition accumulate (l : list string) : string :=
  fold_left (fun a b => if String.eqb a "" then b else (a ++ "_" ++ b)%string) l "".
Definition consume_name (ts : list rty) : option string :=
  do l <- mapM type_token ts; Some (accumulate ("refbackend_consume_func_return" :: l)).
(** mungeFunction, rbc l.149-219. [table]: invokedConsumeFuncReturnFuncs, a std::map, i.e. sorted by name. *)
Record func := { f_name : string; f_private : bool; f_args : list rty; f_results : list rty }.
Record mfunc := { m_name : string; m_private : bool; m_args : list rty; m_consumer : option string }.
Definition table := list (string * list rty).
Fixpoint insert_absent (k : string) (v : list rty) (t : table) : table :=
  match t with
  | [] => [(k, v)]
  | (k', v') :: r =>
      if String.eqb k k' then t
      else if String.ltb k k' then (k, v) :: t
      else (k', v') :: insert_absent k v r
  end.
Definition munge_function (s : table * list mfunc) (f : func) : option (table * list mfunc) :=
  let '(t, done) := s in
  if f_private f then Some (t, done ++ [{| m_name := f_name f; m_private := true; m_args := f_args f; m_consumer := None |}])
  else
    assert forallb valid_arg (f_args f);
    let types := map abi (f_results f) in
    do n <- consume_name types;
    Some (insert_absent n types t, done ++ [{| m_name := f_name f; m_private := false; m_args := map abi (f_args f); m_consumer := Some n |}]).
(** MungeCallingConventions, rbc l.222-243: the new declarations come first. *)
Definition munge (fs : list func) : option (table * list mfunc) := foldM munge_function fs ([], []).
Definition symbols (m : table * list mfunc) : list string := map fst (fst m) ++ map m_name (snd m).

(** memref_type_to_np_dtype and elemental_type_to_ctype, rbp l.41-59. *)
Definition memref_type_to_np_dtype (s : string) : option scalar_type :=
  match find (fun p => String.eqb (fst p) s)
    [("mrf16", Half); ("mrf32", Float); ("mrf64", Double); ("mri1", Bool); ("mri8", Char); ("mri16", Short); ("mri32", Int);
     ("mri64", Long); ("mrc32", ComplexFloat); ("mrc64", ComplexDouble)] with
  | Some p => Some (snd p) | None => None end.
Inductive ctype := CBool | CByte | CInt | CFloat | CDouble.
Definition elemental_type_to_ctype (s : string) : option ctype :=
  match find (fun p => String.eqb (fst p) s) [("i1", CBool); ("i8", CByte); ("i64", CInt); ("f32", CFloat); ("f64", CDouble)] with
  | Some p => Some (snd p) | None => None end.
Definition PREFIX : string := "refbackend_consume_func_return_".
(** get_return_funcs, rbp l.65-75. *)
Definition get_return_funcs (names : list string) : list string := filter (fun n => String.prefix PREFIX n) names.
(** str.split("_"). *)
Fixpoint split (s : string) : list string :=
  match s with
  | EmptyString => [""]
  | String c r => if Ascii.eqb c "_" then "" :: split r
                  else match split r with [] => [String c ""] | h :: t => String c h :: t end
  end.
Fixpoint drop (n : nat) (s : string) : string := match n, s with O, _ => s | S m, String _ r => drop m r | S _, EmptyString => "" end.
(** get_ctype_func, rbp l.78-90: the types of the callback's parameters, and the words. *)
Definition parameter_ctype (s : string) : option (option ctype) :=
  match elemental_type_to_ctype s with
  | Some c => Some (Some c)
  | None => match memref_type_to_np_dtype s with Some _ => Some None | None => None end
  end.
Definition get_ctype_func (name : string) : option (list (option ctype) * list string) :=
  let ret_types := split (drop (String.length PREFIX) name) in
  do cs <- mapM parameter_ctype ret_types;
  Some (cs, ret_types).
(** RefBackendInvoker.__init__, rbp l.94-119. The closures share the variable [ret_types], whose value is that of the last iteration. *)
Record invoker := { i_registered : list (string * list (option ctype)); i_ret_types : list string }.
Definition load (names : list string) : option invoker :=
  foldM (fun inv n => do (cs, ret) <- get_ctype_func n; Some {| i_registered := i_registered inv ++ [(n, cs)]; i_ret_types := ret |})
    (get_return_funcs names) {| i_registered := []; i_ret_types := [] |}.
(** What compiled code passes to a callback: a number, or a pointer to a descriptor of memory holding elements of a type. *)
Inductive rv := RNum (t : mlir_type) (z : Z) | RMem (t : mlir_type) (shape bits : list Z).
(** What Python sees: a number, an array of a dtype reading memory that holds elements of a type, a raw pointer. *)
Inductive pyv := PNum (z : Z) | PArr (d : scalar_type) (t : mlir_type) (shape bits : list Z) | PPointer.
(** ctypes' conversion of a callback's argument: c_int reads 32 bits. *)
Definition signed32 (z : Z) : Z := (z + 2147483648) mod 4294967296 - 2147483648.
Definition receive (c : option ctype) (v : rv) : option rv :=
  match c, v with
  | Some CInt, RNum t z => Some (RNum t (signed32 z))
  | Some _, RNum t z => Some (RNum t z)
  | None, RMem t s b => Some v
  | _, _ => None
  end.
(** consume_return_funcs, rbp l.103-117; an exception in a callback is printed and leaves no result. *)
Definition consume_one (v : rv) (type : string) : option pyv :=
  match elemental_type_to_ctype type with
  | Some _ => match v with RNum _ z => Some (PNum z) | RMem _ _ _ => Some PPointer end
  | None =>
      do d <- memref_type_to_np_dtype type;
      match v with RMem t s b => Some (PArr d t s b) | RNum _ _ => None end
  end.
Inductive result := One (v : pyv) | Tuple (l : list pyv).
Definition consume (inv : invoker) (args : list rv) : option result :=
  do l <- mapM (fun p => consume_one (fst p) (snd p)) (combine args (i_ret_types inv));
  Some (match l with [v] => One v | _ => Tuple l end).
Fixpoint zipM {A B C} (f : A -> B -> option C) (l : list A) (r : list B) : option (list C) :=
  match l, r with
  | [], [] => Some []
  | a :: l, b :: r => do c <- f a b; do cs <- zipM f l r; Some (c :: cs)
  | _, _ => None
  end.
(** assert_arg_type_is_supported, rbp l.23-38. *)
Definition supported_arg (d : scalar_type) : bool :=
  match d with Half | Float | Double | Byte | Char | Short | Int | Long | Bool | ComplexFloat | ComplexDouble => true | _ => false end.
(** invoke, rbp l.121-136. [body]: what the compiled function computes, from arrays to the values of its return. *)
Definition array := (scalar_type * list Z * list Z)%type.
Definition invoke (body : string -> list array -> option (list rv)) (m : table * list mfunc) (inv : invoker) (name : string) (args : list array) : option result :=
  assert forallb (fun a => supported_arg (fst (fst a))) args;
  do f <- find (fun f => String.eqb (m_name f) name) (snd m);
  assert negb (m_private f);
  do c <- m_consumer f;
  do vs <- body name args;
  do cs <- find (fun p => String.eqb (fst p) c) (i_registered inv);
  do received <- zipM receive (snd cs) vs;
  consume inv received.

(** ** Structures of tensors *)
(** The dtypes that numpy has as well. *)
Definition numpy_dtype (d : scalar_type) : bool := supported_arg d.
Inductive obj :=
| OTensor (d : scalar_type) (data : list Z) | OArray (d : scalar_type) (data : list Z)
| OTuple (l : list obj) | OList (l : list obj) | ODict (l : list (string * obj))
| OStr (s : string) | OFloat (z : Z) | OInt (z : Z) | OBool (b : bool) | ONone.
Section Traverse.
  Variable leaf : obj -> option obj.
  Fixpoint traverse (o : obj) : option obj :=
    match o with
    | OTuple l => do l <- (fix go l := match l with [] => Some [] | x :: r => do y <- traverse x; do ys <- go r; Some (y :: ys) end) l; Some (OTuple l)
    | OList l => do l <- (fix go l := match l with [] => Some [] | x :: r => do y <- traverse x; do ys <- go r; Some (y :: ys) end) l; Some (OList l)
    | ODict l => do l <- (fix go l := match l with [] => Some [] | (k, x) :: r => do y <- traverse x; do ys <- go r; Some ((k, y) :: ys) end) l; Some (ODict l)
    | _ => leaf o
    end.
End Traverse.
(** recursively_convert_to_numpy, cu l.12-28. *)
Definition to_numpy_leaf (o : obj) : option obj :=
  match o with
  | OTensor d x => assert numpy_dtype d; Some (OArray d x)
  | OStr _ | OFloat _ | OInt _ | OBool _ => Some o
  | _ => None
  end.
Definition to_numpy : obj -> option obj := traverse to_numpy_leaf.
(** recursively_convert_from_numpy, cu l.31-47. *)
Definition from_numpy_leaf (o : obj) : option obj :=
  match o with
  | OArray d x => assert numpy_dtype d; Some (OTensor d x)
  | OStr _ | OFloat _ | OInt _ | OBool _ => Some o
  | _ => None
  end.
Definition from_numpy : obj -> option obj := traverse from_numpy_leaf.
(** refine_result_type, fxb l.30-38. *)
Fixpoint refine_result_type (o : obj) : option obj :=
  match o with
  | OTuple l => do l <- (fix go l := match l with [] => Some [] | x :: r => do y <- refine_result_type x; do ys <- go r; Some (y :: ys) end) l; Some (OTuple l)
  | OArray d x => assert numpy_dtype d; Some (OTensor d x)
  | OBool _ | OInt _ | OFloat _ => Some o
  | _ => None
  end.
(** The user's outputs, fxb l.155-166. *)
Inductive output_kind := UserOutput | OtherOutput.
Definition user_outputs (specs : list output_kind) (o : obj) : obj :=
  match o with
  | OTuple l | OList l => OTuple (map fst (filter (fun p => match snd p with UserOutput => true | _ => false end) (combine l specs)))
  | _ => o
  end.

(** ** Placeholders and example arguments *)
Record placeholder := { p_shape : list Z; p_dtype : scalar_type }.
(** TensorPlaceholder.like, cpu l.46-63. *)
Fixpoint like_shape (i : Z) (shape dynamic_axes : list Z) : list Z :=
  match shape with
  | [] => []
  | d :: r => (if existsb (Z.eqb i) dynamic_axes then -1 else d) :: like_shape (i + 1) r dynamic_axes
  end.
Definition like (shape : list Z) (d : scalar_type) (dynamic_axes : option (list Z)) : placeholder :=
  {| p_shape := like_shape 0 shape (match dynamic_axes with Some l => l | None => [] end); p_dtype := d |}.
(** Example arguments: a tensor (its shape, dtype and contents), a placeholder, something else. *)
Inductive example := ETensor (shape : list Z) (d : scalar_type) (data : list Z) | EPlaceholder (p : placeholder) | EOther.
Inductive example_args := ESingle (e : example) | ESequence (l : list example).
(** ExampleArgs._canonicalize_args, tsc l.75-88. *)
Definition canonicalize_args (a : example_args) : option (list example) :=
  let l := match a with ESingle e => [e] | ESequence l => l end in
  assert forallb (fun e => match e with EOther => false | _ => true end) l;
  Some l.
(** ExampleArgs.add_method, tsc l.48-60, and get, l.62-73. *)
Definition methods := list (string * list example).
Definition add_method (m : methods) (name : string) (a : example_args) : option methods :=
  assert negb (existsb (fun p => String.eqb (fst p) name) m);
  do l <- canonicalize_args a;
  Some (m ++ [(name, l)]).
Definition get_example_args (a : example_args + methods) : option methods :=
  match a with inr m => Some m | inl a => add_method [] "forward" a end.
(** _get_for_annotation, tsc l.93-104. *)
Definition annotation_of (e : example) : option placeholder :=
  match e with EPlaceholder p => Some p | ETensor s d _ => Some (like s d None) | EOther => None end.
Definition get_for_annotation (m : methods) : option (list (string * list placeholder)) :=
  mapM (fun p => do l <- mapM annotation_of (snd p); Some (fst p, l)) m.
(** _get_for_tracing, tsc l.106-145; torch.ones(shape) holds ones, torch.tensor(1) is an int64 of rank 0. *)
Definition product (l : list Z) : Z := fold_right Z.mul 1 l.
Definition trace_example (ignore_traced_shapes : bool) (e : example) : option example :=
  match e with
  | EPlaceholder p =>
      assert ignore_traced_shapes;
      let shape := map (fun s => if s =? -1 then 7 else s) (p_shape p) in
      match shape with
      | [] => Some (ETensor [] Long [1])
      | _ => assert forallb (fun s => 0 <=? s) shape; Some (ETensor shape (p_dtype p) (repeat 1 (Z.to_nat (product shape))))
      end
  | ETensor _ _ _ => Some e
  | EOther => None
  end.
Definition get_for_tracing (use_tracing ignore_traced_shapes : bool) (m : methods) : option methods :=
  if use_tracing then mapM (fun p => do l <- mapM (trace_example ignore_traced_shapes) (snd p); Some (fst p, l)) m else Some m.
(** convert_annotations_to_placeholders, e2u l.10-24; an annotation of None cannot be subscripted. *)
Record annotation := { a_shape : list Z; a_dtype : scalar_type; a_value_semantics : bool }.
Definition convert_annotations (l : list (option annotation)) : option (list placeholder) :=
  mapM (fun a => do a <- a; assert a_value_semantics a; Some {| p_shape := a_shape a; p_dtype := a_dtype a |}) (tl l).
(** The dynamic dimension that is marked, fxb l.67-84. *)
Fixpoint first_dynamic (i : Z) (l : list Z) : option Z :=
  match l with [] => None | d :: r => if d =? -1 then Some i else first_dynamic (i + 1) r end.
Fixpoint dynamic_position (i : Z) (l : list (option annotation)) : option (option (Z * Z)) :=
  match l with
  | [] => Some None
  | a :: r =>
      do a <- a;
      assert a_value_semantics a;
      match first_dynamic 0 (a_shape a) with
      | Some j => Some (Some (i, j))
      | None => dynamic_position (i + 1) r
      end
  end.
Definition dynamic_argument (l : list (option annotation)) : option (option (Z * Z)) := dynamic_position 0 (tl l).
(** convert_onnx, onb l.62-83: examples, names and dynamic dimensions of the inputs. *)
Definition DYNAMIC_DIM_PLACEHOLDER : Z := 2.
Definition onnx_example (p : placeholder) : list Z * scalar_type :=
  (map (fun d => if 0 <=? d then d else DYNAMIC_DIM_PLACEHOLDER) (p_shape p), p_dtype p).
Definition onnx_input_name (i : nat) : string := ("input_" ++ string_of_nat i)%string.
Fixpoint onnx_input_names (i : nat) (l : list placeholder) : list string :=
  match l with [] => [] | _ :: r => onnx_input_name i :: onnx_input_names (S i) r end.
Fixpoint dynamic_dims (i : Z) (shape : list Z) : list Z :=
  match shape with [] => [] | d :: r => (if d <? 0 then [i] else []) ++ dynamic_dims (i + 1) r end.
Definition onnx_dynamic (p : placeholder) : option (list Z) :=
  match dynamic_dims 0 (p_shape p) with [] => None | l => Some l end.

(** ** Output types *)
(** OutputType, cpu l.141-188. *)
Inductive output_type := TORCH | LINALG_ON_TENSORS | TOSA | STABLEHLO | RAW.
Definition members : list (string * output_type) :=
  [("TORCH", TORCH); ("LINALG_ON_TENSORS", LINALG_ON_TENSORS); ("TOSA", TOSA); ("STABLEHLO", STABLEHLO); ("RAW", RAW)].
Definition upper (c : ascii) : ascii :=
  let n := nat_of_ascii c in if ((97 <=? n) && (n <=? 122))%nat then ascii_of_nat (n - 32) else c.
Definition dash (c : ascii) : ascii := if Ascii.eqb c "-" then "_"%char else c.
Fixpoint map_string (f : ascii -> ascii) (s : string) : string :=
  match s with EmptyString => EmptyString | String c r => String (f c) (map_string f r) end.
Definition output_type_get (spec : string + output_type) : option output_type :=
  match spec with
  | inr t => Some t
  | inl s => match find (fun p => String.eqb (fst p) (map_string dash (map_string upper s))) members with Some p => Some (snd p) | None => None end
  end.
(** lower_mlir_module, cpu l.191-241: the pipeline that runs on torch backend IR. *)
Definition bool_text (b : bool) : string := if b then "True" else "False".
Definition lower_mlir_module (t : output_type) (allow_non_finites : bool) : option (list string) :=
  match t with
  | TORCH => Some []
  | TOSA => Some ["builtin.module(torch-backend-to-tosa-backend-pipeline)"]
  | LINALG_ON_TENSORS => Some [("builtin.module(torch-backend-to-linalg-on-tensors-backend-pipeline{allow-non-finites=" ++ bool_text allow_non_finites ++ "})")%string]
  | STABLEHLO => Some [("builtin.module(torch-backend-to-stablehlo-backend-pipeline{allow-non-finites=" ++ bool_text allow_non_finites ++ "})")%string]
  | RAW => None
  end.
