(** The TableGen records that are generated for operators, and the printing and parsing of operations that they ask for.

    Sources: ods = /repo/projects/pt1/python/torch_mlir/jit_ir_importer/build_tools/torch_ods_gen.py;
    utils = /repo/lib/Dialect/Torch/IR/UtilsForODSGenerated.cpp.
    [None] is an exception, or a failure to parse.  The names of an operator (get_mlir_names) and its key are given; see RegistryModel. *)
From Coq Require Import Ascii String Bool Arith DecimalString List.
From Verif Require Import Prelude GenTextModel.
Import ListNotations.
Open Scope string_scope.
Open Scope list_scope.
Open Scope nat_scope.

Fixpoint text_eqb (a b : text) : bool :=
  match a, b with [], [] => true | x :: a, y :: b => Ascii.eqb x y && text_eqb a b | _, _ => false end.
(** The [get] of a dictionary *)
Fixpoint get (table : list (string * string)) (t : text) : option text :=
  match table with [] => None | (k, v) :: r => if text_eqb (txt k) t then Some (txt v) else get r t end.

(** TORCH_TYPE_TO_ODS_TYPE, ods l.20-52 *)
Definition torch_type_to_ods_type : list (string * string) :=
  [("Tensor", "AnyTorchTensorType"); ("Tensor?", "AnyTorchOptionalTensorType"); ("Tensor?[]", "AnyTorchListOfOptionalTensorType");
   ("Tensor[]", "AnyTorchListOfTensorType"); ("Scalar", "AnyTorchScalarType"); ("Scalar?", "AnyTorchOptionalScalarType");
   ("int", "Torch_IntType"); ("int[]", "AnyTorchListOfTorchIntType"); ("int?", "AnyTorchOptionalIntType");
   ("int[]?", "AnyTorchOptionalListOfTorchIntType"); ("bool", "Torch_BoolType"); ("bool[]", "AnyTorchListOfTorchBoolType");
   ("bool?", "AnyTorchOptionalBoolType"); ("float", "Torch_FloatType"); ("float?", "AnyTorchOptionalFloatType");
   ("float[]", "AnyTorchListOfTorchFloatType"); ("float[]?", "AnyTorchOptionalListOfTorchFloatType"); ("t[]", "AnyTorchListType");
   ("t", "AnyTorchType"); ("t1", "AnyTorchType"); ("t2", "AnyTorchType"); ("Any", "AnyTorchType"); ("Device", "Torch_DeviceType");
   ("Device?", "AnyTorchOptionalDeviceType"); ("Generator", "Torch_GeneratorType"); ("Generator?", "AnyTorchOptionalGeneratorType");
   ("str", "Torch_StringType"); ("str?", "AnyTorchOptionalStringType"); ("str[]", "AnyTorchListOfTorchStringType"); ("Dict", "Torch_DictType");
   ("__torch__.torch.classes.quantized.LinearPackedParamsBase", "Torch_LinearParamsType")].
(** TORCH_NON_VALUE_TYPE_TO_ODS_TYPE, ods l.54-59 *)
Definition torch_non_value_type_to_ods_type : list (string * string) :=
  [("Tensor", "Torch_NonValueTensorType"); ("Tensor?", "AnyTorchOptionalNonValueTensorType");
   ("Tensor?[]", "AnyTorchListOfOptionalNonValueTensorType"); ("Tensor[]", "AnyTorchListOfNonValueTensorType")].
(** get_ods_type, ods l.62-84 *)
Definition get_ods_type (type : text) (non_value is_result : bool) : option text :=
  let type := if is_result && text_eqb type (txt "Tensor") then txt "Tensor?" else type in
  let type := if starts (txt "Dict(") type then txt "Dict" else type in
  if non_value then match get torch_non_value_type_to_ods_type type with Some t => Some t | None => get torch_type_to_ods_type type end
  else get torch_type_to_ods_type type.

(** What raw_emit_op uses of an operator: its names, its key, and the types and names of its arguments and results (no name: empty). *)
Record operator := { op_name : text; cpp_class_name : text; unique_key : text; is_vararg : bool; is_varret : bool;
                     arguments : list (text * text); returns : list (text * text) }.
Definition str (n : nat) : text := txt (NilZero.string_of_uint (Nat.to_uint n)).
(** generic_result_name, ods l.148-150 *)
Definition generic_result_name (o : operator) (i : nat) : text :=
  txt "result" ++ (if 1 <? length (returns o) then str i else []).
Definition result_name (o : operator) (e : nat) (ret : text * text) : text :=
  match snd ret with [] => generic_result_name o e | n => n end.
Fixpoint enumerate_from {A} (n : nat) (l : list A) : list (nat * A) :=
  match l with [] => [] | x :: r => (n, x) :: enumerate_from (S n) r end.
Definition enumerate {A} (l : list A) : list (nat * A) := enumerate_from 0 l.
Definition comma_newline : text := [","%char; newline].
(** ods l.163-175 and l.176-189: the declarations of operands and of results. *)
Definition operands_text (o : operator) (non_value : bool) : option text :=
  if is_vararg o then Some (txt "Variadic<AnyTorchType>:$operands")
  else do decls <- mapM (fun arg => do t <- get_ods_type (fst arg) non_value false; Some (t ++ txt ":$" ++ snd arg)) (arguments o);
       Some (join comma_newline decls).
Definition results_text (o : operator) (non_value : bool) : option text :=
  if is_varret o then Some (txt "Variadic<AnyTorchType>:$results")
  else do decls <- mapM (fun er => do t <- get_ods_type (fst (snd er)) non_value true; Some (t ++ txt ":$" ++ result_name o (fst er) (snd er))) (enumerate (returns o));
       Some (join comma_newline decls).
Definition nonempty (t : text) : bool := match t with [] => false | _ => true end.
(** ods l.192-213 *)
Definition assembly_format (o : operator) : text :=
  let commas := txt " `,` " in
  let qualified n := txt "qualified(type($" ++ n ++ txt "))" in
  let operands := if is_vararg o then txt "`(` $operands `)`" else join commas (map (fun a => txt "$" ++ snd a) (arguments o)) in
  let operand_types := if is_vararg o then txt "qualified(type($operands))" else join commas (map (fun a => qualified (snd a)) (arguments o)) in
  let result_types := if is_varret o then txt "qualified(type($results))"
                      else join commas (map (fun er => qualified (result_name o (fst er) (snd er))) (enumerate (returns o))) in
  let maybe_arrow := if nonempty operand_types && nonempty result_types then txt " `->` " else [] in
  operands ++ txt " attr-dict `:` " ++ operand_types ++ maybe_arrow ++ result_types.
(** ods l.216-226 *)
Definition hooks (o : operator) : text :=
  let nl := [newline] in
  let counts := str (length (arguments o)) ++ txt ", " ++ str (length (returns o)) in
  txt "let extraClassDefinition = [{" ++ nl ++
  txt "  ParseResult " ++ cpp_class_name o ++ txt "::parse(OpAsmParser &parser, OperationState &result) {" ++ nl ++
  txt "    return parseDefaultTorchOp(parser, result, " ++ counts ++ txt ");" ++ nl ++
  txt "  }" ++ nl ++
  txt "  void " ++ cpp_class_name o ++ txt "::print(OpAsmPrinter &printer) {" ++ nl ++
  txt "    printDefaultTorchOp(printer, *this, " ++ counts ++ txt ");" ++ nl ++
  txt "  }" ++ nl ++ txt "}];" ++ nl.
(** raw_emit_op, ods l.128-235 *)
Definition raw_emit_op (o : operator) (traits : list text) (has_folder has_canonicalizer has_verifier : bool) : option text :=
  let non_value := existsb (text_eqb (txt "IsTrailingUnderscoreInplaceVariant")) traits in
  do ins <- operands_text o non_value;
  do outs <- results_text o non_value;
  Some (print 0 (txt "def Torch_" ++ cpp_class_name o ++ txt " : Torch_Op<" ++ quote (op_name o) ++ txt ", [") ++
        print 2 (join comma_newline traits) ++
        print 1 (txt "]> {") ++
        print 1 (txt "let summary = " ++ quote (txt "Generated op for `" ++ unique_key o ++ txt "`") ++ txt ";") ++
        print 1 (txt "let arguments = (ins") ++
        print 2 ins ++
        print 1 (txt ");") ++
        print 1 (txt "let results = (outs") ++
        print 2 outs ++
        print 1 (txt ");") ++
        (if is_vararg o || is_varret o then print 1 (txt "let assemblyFormat = " ++ quote (assembly_format o) ++ txt ";")
         else print 1 (txt "let hasCustomAssemblyFormat = 1;") ++ print 1 (hooks o)) ++
        (if has_folder then print 1 (txt "let hasFolder = 1;") else []) ++
        (if has_canonicalizer then print 1 (txt "let hasCanonicalizer = 1;") else []) ++
        (if has_verifier then print 1 (txt "let hasVerifier = 1;") else []) ++
        print 0 (txt "}") ++
        print 0 [newline]).

(** ** Printing and parsing operations *)
Section Operations.
Context {V A T : Type}.
(** The tokens of an operation after its name; attributes are printed and parsed elsewhere, as one token if there are any. *)
Inductive token := Operand (v : V) | Comma | Attributes (a : A) | Colon | Arrow | Type_ (t : T).
Record operation := { operands : list V; attributes : option A; operand_types : list T; result_types : list T }.
(** llvm::interleaveComma *)
Fixpoint interleave {X} (f : X -> token) (l : list X) : list token :=
  match l with [] => [] | [x] => [f x] | x :: r => f x :: Comma :: interleave f r end.
(** printDefaultTorchOp, utils l.63-77 *)
Definition print_op (num_operands num_results : nat) (op : operation) : list token :=
  (if 0 <? num_operands then interleave Operand (operands op) else []) ++
  (match attributes op with Some a => [Attributes a] | None => [] end) ++
  [Colon] ++
  (if 0 <? num_operands then interleave Type_ (operand_types op) else []) ++
  (if (0 <? num_operands) && (0 <? num_results) then [Arrow] else []) ++
  (if 0 <? num_results then interleave Type_ (result_types op) else []).
(** MLIR's comma-separated lists of operands (which may be empty) and of types (which may not), with what follows. *)
Fixpoint more {X} (get : token -> option X) (s : list token) : option (list X * list token) :=
  match s with
  | Comma :: r => match r with
                  | t :: r => do x <- get t; do l <- more get r; Some (x :: fst l, snd l)
                  | [] => None
                  end
  | _ => Some ([], s)
  end.
Definition get_operand (t : token) : option V := match t with Operand v => Some v | _ => None end.
Definition get_type (t : token) : option T := match t with Type_ v => Some v | _ => None end.
Definition operand_list (required : nat) (s : list token) : option (list V * list token) :=
  match s with
  | Operand v :: r => do l <- more get_operand r; assert S (length (fst l)) =? required; Some (v :: fst l, snd l)
  | _ => assert required =? 0; Some ([], s)
  end.
Definition type_list (s : list token) : option (list T * list token) :=
  match s with Type_ t :: r => do l <- more get_type r; Some (t :: fst l, snd l) | _ => None end.
(** parseDefaultTorchOp, utils l.34-61; with what is left. *)
Definition parse_op (num_operands num_results : nat) (s : list token) : option (operation * list token) :=
  do l <- operand_list num_operands s;
  let s := snd l in
  let (attrs, s) := match s with Attributes a :: r => (Some a, r) | _ => (None, s) end in
  do s <- match s with Colon :: r => Some r | _ => None end;
  do ts <- (if 0 <? num_operands
            then do ts <- type_list s; assert length (fst l) =? length (fst ts); Some ts
            else Some ([], s));
  let s := snd ts in
  do s <- (if (0 <? num_operands) && (0 <? num_results) then match s with Arrow :: r => Some r | _ => None end else Some s);
  do rs <- (if 0 <? num_results then type_list s else Some ([], s));
  Some ({| operands := fst l; attributes := attrs; operand_types := fst ts; result_types := fst rs |}, snd rs).
End Operations.
Arguments token : clear implicits.
Arguments operation : clear implicits.
