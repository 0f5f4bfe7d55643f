(** What the records of operators should say, and the types of the schemas of operators. *)
From Coq Require Import Ascii String Bool Arith DecimalString List.
From Verif Require Import GenTextSpec.
Import ListNotations.
Open Scope string_scope.
Open Scope list_scope.
Open Scope nat_scope.

(** Types of schemas: names, and options and lists of types *)
Inductive base := Tensor | Scalar | Int | Bool | Float | Device | Generator | Str | Any | Var | Var1 | Var2 | Dict | PackedParams.
Inductive ttype := Base (b : base) | Optional (t : ttype) | ListOf (t : ttype).
Definition base_name (b : base) : string :=
  match b with
  | Tensor => "Tensor" | Scalar => "Scalar" | Int => "int" | Bool => "bool" | Float => "float" | Device => "Device"
  | Generator => "Generator" | Str => "str" | Any => "Any" | Var => "t" | Var1 => "t1" | Var2 => "t2" | Dict => "Dict"
  | PackedParams => "__torch__.torch.classes.quantized.LinearPackedParamsBase"
  end.
Fixpoint show (t : ttype) : list ascii :=
  match t with
  | Base b => list_ascii_of_string (base_name b)
  | Optional t => show t ++ ["?"%char]
  | ListOf t => show t ++ ["["%char; "]"%char]
  end.
(** The ODS constraint that a type is declared with, piece by piece.  [non_value]: tensors must be non-value tensors. *)
Definition capital (b : base) : string :=
  match b with Int => "Int" | Bool => "Bool" | Float => "Float" | Str => "String" | Dict => "Dict" | PackedParams => "LinearParams" | b => base_name b end.
Definition tensor (non_value : bool) : string := if non_value then "NonValueTensor" else "Tensor".
Fixpoint inner (within_list nv : bool) (t : ttype) : string :=
  match t with
  | Base Tensor => tensor nv
  | Base b => (if within_list then "Torch" else "") ++ capital b
  | ListOf t => "ListOf" ++ inner true nv t
  | Optional t => "Optional" ++ inner false nv t
  end.
Definition constraint (nv : bool) (t : ttype) : string :=
  match t with
  | Base Tensor => if nv then "Torch_NonValueTensorType" else "AnyTorchTensorType"
  | Base Scalar => "AnyTorchScalarType"
  | Base (Any | Var | Var1 | Var2) => "AnyTorchType"
  | Base b => "Torch_" ++ capital b ++ "Type"
  | Optional t => "AnyTorchOptional" ++ inner false nv t ++ "Type"
  | ListOf (Base Var) => "AnyTorchListType"
  | ListOf t => "AnyTorchListOf" ++ inner true nv t ++ "Type"
  end.
(** The types for which there is one *)
Definition supported (t : ttype) : bool :=
  match t with
  | Base _ => true
  | Optional (Base (Tensor | Scalar | Int | Bool | Float | Device | Generator | Str)) => true
  | Optional (ListOf (Base (Int | Float))) => true
  | ListOf (Base (Tensor | Int | Bool | Float | Str | Var)) => true
  | ListOf (Optional (Base Tensor)) => true
  | _ => false
  end.
(** Results that are tensors may be None. *)
Definition as_result (t : ttype) : ttype := match t with Base Tensor => Optional (Base Tensor) | t => t end.

(** Names in records have no quotation mark, backslash or newline. *)
Definition plain (s : list ascii) : Prop := ~ In """"%char s /\ ~ In "\"%char s /\ ~ In (ascii_of_nat 10) s.
Definition ascii_text (s : string) : list ascii := list_ascii_of_string s.
(** Items one to a line, with commas between them, behind [n] blanks *)
Fixpoint listing (n : nat) (items : list (list ascii)) : list (list ascii) :=
  match items with
  | [] => []
  | [x] => [repeat " "%char n ++ x]
  | x :: r => (repeat " "%char n ++ x ++ [","%char]) :: listing n r
  end.

(** A schema: names and types of arguments, and types of results with their names if they have one. *)
Record schema := { s_args : list (ttype * list ascii); s_rets : list (ttype * option (list ascii)) }.
(** The names of results: those without one are called result, or by their place if there are several. *)
Definition decimal (n : nat) : list ascii := ascii_text (DecimalString.NilZero.string_of_uint (Nat.to_uint n)).
Definition name_of_result (several : bool) (place : nat) (name : option (list ascii)) : list ascii :=
  match name with Some n => n | None => if several then ascii_text "result" ++ decimal place else ascii_text "result" end.
Definition names_of_results (s : schema) : list (list ascii) :=
  map (fun i => name_of_result (1 <? length (s_rets s)) i (match nth_error (s_rets s) i with Some r => snd r | None => None end)) (seq 0 (length (s_rets s))).
Definition declaration (constr : string) (name : list ascii) : list ascii := ascii_text constr ++ ascii_text ":$" ++ name.
Definition two : list ascii := ascii_text "  ".
Definition inplace : list ascii := ascii_text "IsTrailingUnderscoreInplaceVariant".
(** The lines of a record with operands [ins], results [outs] and a format of assembly [format] *)
Definition record_lines (name class key : list ascii) (traits ins outs format : list (list ascii)) (folder canonicalizer verifier : bool) : list (list ascii) :=
  [ascii_text "def Torch_" ++ class ++ ascii_text " : Torch_Op<""" ++ name ++ ascii_text """, ["] ++
  listing 4 traits ++
  [two ++ ascii_text "]> {";
   two ++ ascii_text "let summary = ""Generated op for `" ++ key ++ ascii_text "`"";";
   two ++ ascii_text "let arguments = (ins"] ++
  listing 4 ins ++
  [two ++ ascii_text ");"; two ++ ascii_text "let results = (outs"] ++
  listing 4 outs ++
  [two ++ ascii_text ");"] ++
  format ++
  (if folder then [two ++ ascii_text "let hasFolder = 1;"] else []) ++
  (if canonicalizer then [two ++ ascii_text "let hasCanonicalizer = 1;"] else []) ++
  (if verifier then [two ++ ascii_text "let hasVerifier = 1;"] else []) ++
  [ascii_text "}"; []].
Definition operand_declarations (s : schema) (non_value : bool) : list (list ascii) :=
  map (fun a => declaration (constraint non_value (fst a)) (snd a)) (s_args s).
Definition result_declarations (s : schema) (non_value : bool) : list (list ascii) :=
  map (fun rn => declaration (constraint non_value (as_result (fst (fst rn)))) (snd rn)) (combine (s_rets s) (names_of_results s)).
(** The functions that print and parse, which are told how many operands and results there are *)
Definition functions (class : list ascii) (args rets : nat) : list (list ascii) :=
  [two ++ ascii_text "let hasCustomAssemblyFormat = 1;";
   two ++ ascii_text "let extraClassDefinition = [{";
   two ++ two ++ ascii_text "ParseResult " ++ class ++ ascii_text "::parse(OpAsmParser &parser, OperationState &result) {";
   two ++ two ++ two ++ ascii_text "return parseDefaultTorchOp(parser, result, " ++ decimal args ++ ascii_text ", " ++ decimal rets ++ ascii_text ");";
   two ++ two ++ ascii_text "}";
   two ++ two ++ ascii_text "void " ++ class ++ ascii_text "::print(OpAsmPrinter &printer) {";
   two ++ two ++ two ++ ascii_text "printDefaultTorchOp(printer, *this, " ++ decimal args ++ ascii_text ", " ++ decimal rets ++ ascii_text ");";
   two ++ two ++ ascii_text "}";
   two ++ ascii_text "}];"].
Definition record (s : schema) (name class key : list ascii) (traits : list (list ascii)) (non_value folder canonicalizer verifier : bool) : list (list ascii) :=
  record_lines name class key traits (operand_declarations s non_value) (result_declarations s non_value)
    (functions class (length (s_args s)) (length (s_rets s))) folder canonicalizer verifier.
(** Declarations and formats of operators with any number of operands ([None]) or results ([None]) *)
Fixpoint between (sep : string) (l : list (list ascii)) : list ascii :=
  match l with [] => [] | [x] => x | x :: r => x ++ ascii_text sep ++ between sep r end.
Definition type_of (name : list ascii) : list ascii := ascii_text "qualified(type($" ++ name ++ ascii_text "))".
Definition variadic_format (args rets : option (list (list ascii))) : list ascii :=
  (match args with None => ascii_text "`(` $operands `)`" | Some l => between " `,` " (map (cons "$"%char) l) end) ++ ascii_text " attr-dict `:` " ++
  (match args with None => type_of (ascii_text "operands") | Some l => between " `,` " (map type_of l) end) ++
  (match args, rets with Some [], _ => [] | _, Some [] => [] | _, _ => ascii_text " `->` " end) ++
  (match rets with None => type_of (ascii_text "results") | Some l => between " `,` " (map type_of l) end).
Definition unbroken (s : list ascii) : Prop := ~ In (ascii_of_nat 10) s.
