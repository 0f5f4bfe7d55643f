(** Import of TorchScript graphs: nodes, blocks and functions.

    Sources: ni = /repo/projects/jit_ir_common/csrc/jit_ir_importer/node_importer.cpp, fi = function_importer.cpp and tu = torch_to_mlir_utils.cpp beside it.
    A TorchScript value is a number (its address); a value of MLIR is a number and a type.  Where a block is built, the operations are returned in order.
    Locations are left out (see JitTypesModel).  A constant list or tuple is imported by importIValue (see IValueModel): here it is one operation of a type that is given.
    The type of a function constant is written Any: it is never adjusted.  [None] is an exception, a failed assertion, or undefined behaviour. *)
From Coq Require Import ZArith Bool String List.
From Verif Require Import Prelude DtypeModel TypesModel JitTypesModel.
From Verif Require RegistryModel.
Import ListNotations.
Open Scope string_scope.
Open Scope list_scope.
Open Scope nat_scope.

(** Builtin operations without schema, and their unqualified names (PyTorch) *)
Inductive prim := Enter | Exit | ListUnpack | ListConstruct | CreateObject | TupleConstruct | DictConstruct | Load | Store | GetAttr | SetAttr.
Definition unqual (p : prim) : string :=
  match p with
  | Enter => "Enter" | Exit => "Exit" | ListUnpack => "ListUnpack" | ListConstruct => "ListConstruct" | CreateObject => "CreateObject" | TupleConstruct => "TupleConstruct"
  | DictConstruct => "DictConstruct" | Load => "Load" | Store => "Store" | GetAttr => "GetAttr" | SetAttr => "SetAttr"
  end.
(** What a prim::Constant holds, by the type of its output; a double and the contents of a tensor are numbers here *)
Inductive constant :=
| CNone | CBool (b : bool) | CInt (z : Z) | CFloat (d : Z) | CStr (s : string) | CTensor (s : scalar_type) (dims : list Z) (contents : Z) | CDevice (s : string)
| CFunction (qualified_name : string) (arguments returns : list jit) | CObject (x : nat) | COther.
Definition output := (nat * jit)%type.
Inductive node :=
| NSchema (name overload : RegistryModel.text) (inputs : list nat) (outputs : list output)
| NPrim (p : prim) (name : string) (inputs : list nat) (outputs : list output)
| NConstant (c : constant) (result : output)
| NLoop (inputs : list nat) (outputs : list output) (body : block)
| NIf (inputs : list nat) (outputs : list output) (then_block else_block : block)
| NCallMethod (method : string) (arguments returns : list jit) (inputs : list nat) (outputs : list output)
| NCallFunction (function : string) (parameters : list jit) (inputs : list nat) (outputs : list output)
| NUnknown
with block := Block (params : list output) (nodes : list node) (returns : list nat).

(** MLIR *)
Definition value := (nat * ty)%type.
Inductive attribute := NoAttr | NameAttr (s : string) | BoolAttr (b : bool) | IntAttr (z : Z) | FloatAttr (d : Z) | StrAttr (s : string) | DenseAttr (shape : list Z) (element : mlir_type) (contents : Z) | SymbolAttr (s : string).
Inductive opcode := MSchema (c : created) | MNamed (name : string) (a : attribute) | MObject (x : nat) | MCast (a : adjustment).
Inductive mop := MOp (o : opcode) (operands results : list value) (regions : list mblock)
with mblock := MBlock (args : list value) (body : list mop).

(** NodeImporter, ni l.31-54 *)
Record state := { next : nat; value_map : list (nat * value) }.
Definition fresh_state : state := {| next := 0; value_map := [] |}.
(** A value of each type *)
Fixpoint fresh (ts : list ty) (st : state) : list value * state :=
  match ts with
  | [] => ([], st)
  | t :: r => let '(vs, st') := fresh r {| next := S (next st); value_map := value_map st |} in ((next st, t) :: vs, st')
  end.
(** mapValue, mapResults, lookupMappedValue(s), ni l.397-426 *)
Definition find_value (st : state) (j : nat) : option value := option_map snd (find (fun p => fst p =? j) (value_map st)).
Definition map_value (j : nat) (v : value) (st : state) : option state :=
  match find_value st j with None => Some {| next := next st; value_map := (j, v) :: value_map st |} | Some _ => None end.
Fixpoint map_results (outs : list output) (results : list value) (st : state) : option state :=
  match outs, results with
  | [], [] => Some st
  | (j, _) :: outs, v :: results => do st <- map_value j v st; map_results outs results st
  | _, _ => None
  end.
Fixpoint lookup_values (st : state) (l : list nat) : option (list value) :=
  match l with [] => Some [] | j :: r => do v <- find_value st j; do vs <- lookup_values st r; Some (v :: vs) end.
(** adjustStaticInformationForValues, tu l.473-508: operations, and the adjusted values *)
Fixpoint adjust_values (vs : list value) (desired : list ty) (user_allows_refinement : bool) (st : state) : option (list mop * list value * state) :=
  match vs, desired with
  | [], [] => Some ([], [], st)
  | v :: vs, d :: desired =>
      do a <- adjust (snd v) d user_allows_refinement;
      match a with
      | Same => do (ops, ws, st) <- adjust_values vs desired user_allows_refinement st; Some (ops, v :: ws, st)
      | _ =>
          do (ops, ws, st') <- adjust_values vs desired user_allows_refinement {| next := S (next st); value_map := value_map st |};
          Some (MOp (MCast a) [v] [(next st, d)] [] :: ops, (next st, d) :: ws, st')
      end
  | _, _ => None
  end.
(** rearrangeDictConstructInputs, ni l.60-81 *)
Fixpoint deal {A} (l : list A) : option (list A * list A) :=
  match l with
  | [] => Some ([], [])
  | k :: v :: r => do (ks, vs) <- deal r; Some (k :: ks, v :: vs)
  | [_] => None
  end.
Definition rearrange {A} (l : list A) : option (list A) := do (ks, vs) <- deal l; Some (ks ++ vs).

Section Importer.
Context (opts : options) (registered : RegistryModel.text -> bool) (object_type : nat -> option ty).

Definition output_types (outs : list output) : option (list ty) := types_from_values opts (map snd outs).
(** createMlirOperationAtEnd and mapResults: an operation with a result for each output *)
Definition create_and_map (o : opcode) (operands : list value) (types : list ty) (outs : list output) (st : state) : option (list mop * state) :=
  let '(results, st) := fresh types st in
  do st <- map_results outs results st;
  Some ([MOp o operands results []], st).
(** The operation and the result type of a prim::Constant, ni l.170-257 *)
Definition constant_op (c : constant) : option (opcode * ty) :=
  match c with
  | CNone => Some (MNamed "torch.constant.none" NoAttr, Atom NoneA)
  | CBool b => Some (MNamed "torch.constant.bool" (BoolAttr b), Atom BoolA)
  | CInt z => Some (MNamed "torch.constant.int" (IntAttr z), Atom IntA)
  | CFloat d => Some (MNamed "torch.constant.float" (FloatAttr d), Atom FloatA)
  | CStr s => Some (MNamed "torch.constant.str" (StrAttr s), Atom StringA)
  | CTensor s dims contents =>
      do (element, _) <- elements_attr s;
      let name := if assume_value_semantics opts then "torch.vtensor.literal" else "torch.tensor.literal" in
      Some (MNamed name (DenseAttr dims element contents), Tens (tensor (assume_value_semantics opts) (Some dims) (Some element)))
  | CDevice s => Some (MNamed "torch.constant.device" (StrAttr s), Atom DeviceA)
  | CFunction name args rets => do _ <- function_type opts args rets; Some (MNamed "func.constant" (SymbolAttr name), Atom AnyA)
  | CObject x => do t <- object_type x; Some (MObject x, t)
  | COther => None
  end.
(** createBlockFor, ni l.369-395: the arguments have the types given, or those of the parameters *)
Fixpoint map_params (params : list output) (args : list value) (types : list ty) (st : state) : option (list mop * state) :=
  match params, args, types with
  | [], [], [] => Some ([], st)
  | (j, _) :: params, v :: args, t :: types =>
      do (ops, ws, st) <- adjust_values [v] [t] false st;
      match ws with
      | [w] => do st <- map_value j w st; do (ops', st) <- map_params params args types st; Some (ops ++ ops', st)
      | _ => None
      end
  | _, _, _ => None
  end.
Definition create_block (params : list output) (arg_types : option (list ty)) (st : state) : option (list value * list mop * state) :=
  do types <- output_types params;
  let arg_types := match arg_types with None => types | Some l => l end in
  assert (List.length arg_types =? List.length types);
  let '(args, st) := fresh arg_types st in
  do (ops, st) <- map_params params args types st;
  Some (args, ops, st).
(** The terminators of loops, conditionals and functions: ni l.276-283, l.300-306, fi l.64-70 *)
Definition create_terminator (name : string) (types : list ty) (yielded : list value) (st : state) : option (list mop * state) :=
  do (ops, vs, st) <- adjust_values yielded types false st;
  Some (ops ++ [MOp (MNamed name NoAttr) vs [] []], st).

(** importNode, ni l.83-353, and importBlock, ni l.355-367 *)
Fixpoint import_node (n : node) (st : state) {struct n} : option (list mop * state) :=
  match n with
  | NSchema name overload ins outs =>
      do types <- output_types outs;
      do vs <- lookup_values st ins;
      do c <- create_operation registered name overload;
      create_and_map (MSchema c) vs types outs st
  | NPrim p name ins outs =>
      let op_name := String.append "torch.prim." (unqual p) in
      match p with
      | Enter | Exit | ListUnpack | ListConstruct | CreateObject =>
          do vs <- lookup_values st ins;
          do types <- output_types outs;
          create_and_map (MNamed op_name NoAttr) vs types outs st
      | TupleConstruct =>
          match outs with
          | [(_, JTuple contained)] =>
              do contained <- types_from_values opts contained;
              do vs <- lookup_values st ins;
              do types <- output_types outs;
              do (casts, vs, st) <- adjust_values vs contained true st;
              do (ops, st) <- create_and_map (MNamed op_name NoAttr) vs types outs st;
              Some (casts ++ ops, st)
          | _ => None
          end
      | DictConstruct =>
          do vs <- lookup_values st ins;
          do types <- output_types outs;
          do vs <- rearrange vs;
          create_and_map (MNamed op_name NoAttr) vs types outs st
      | Load | Store | GetAttr | SetAttr =>
          do types <- output_types outs;
          do vs <- lookup_values st ins;
          create_and_map (MNamed op_name (NameAttr name)) vs types outs st
      end
  | NConstant c out =>
      do (o, t) <- constant_op c;
      create_and_map o [] [t] [out] st
  | NLoop ins outs body =>
      do types <- output_types outs;
      match ins with
      | max :: cond :: iters =>
          do vs <- lookup_values st [max; cond];
          do ws <- lookup_values st iters;
          do (casts, ws, st) <- adjust_values ws types false st;
          let '(results, st) := fresh types st in
          do st <- map_results outs results st;
          do (b, st) <- import_block body None "torch.prim.Loop.condition" (Atom BoolA :: types) st;
          Some (casts ++ [MOp (MNamed "torch.prim.Loop" NoAttr) (vs ++ ws) results [b]], st)
      | _ => None
      end
  | NIf ins outs then_block else_block =>
      do types <- output_types outs;
      match ins with
      | [cond] =>
          do v <- find_value st cond;
          let '(results, st) := fresh types st in
          do st <- map_results outs results st;
          do (b, st) <- import_block then_block None "torch.prim.If.yield" types st;
          do (b', st) <- import_block else_block None "torch.prim.If.yield" types st;
          Some ([MOp (MNamed "torch.prim.If" NoAttr) [v] results [b; b']], st)
      | _ => None
      end
  | NCallMethod method args rets ins outs =>
      do (expected, _) <- function_type opts args rets;
      do types <- output_types outs;
      do vs <- lookup_values st ins;
      do (casts, vs, st) <- adjust_values vs expected false st;
      do (ops, st) <- create_and_map (MNamed "torch.prim.CallMethod" (NameAttr method)) vs types outs st;
      Some (casts ++ ops, st)
  | NCallFunction function parameters ins outs =>
      do expected <- types_from_values opts parameters;
      do types <- output_types outs;
      match ins with
      | callee :: ins =>
          do vs <- lookup_values st ins;
          do (casts, vs, st) <- adjust_values vs expected false st;
          do (ops, st) <-
            (if String.eqb function "__torch_mlir_internal_promote_dtypes" then create_and_map (MNamed "torch.promote_dtypes" NoAttr) vs types outs st
             else do v <- find_value st callee; create_and_map (MNamed "func.call_indirect" NoAttr) (v :: vs) types outs st);
          Some (casts ++ ops, st)
      | [] => None
      end
  | NUnknown => None
  end
with import_block (b : block) (arg_types : option (list ty)) (terminator : string) (types : list ty) (st : state) {struct b} : option (mblock * state) :=
  match b with
  | Block params nodes returns =>
      do (args, casts, st) <- create_block params arg_types st;
      do (ops, st) <-
        (fix import_nodes (l : list node) (st : state) : option (list mop * state) :=
           match l with
           | [] => Some ([], st)
           | n :: r => do (ops, st) <- import_node n st; do (ops', st) <- import_nodes r st; Some (ops ++ ops', st)
           end) nodes st;
      do yielded <- lookup_values st returns;
      do (last, st) <- create_terminator terminator types yielded st;
      Some (MBlock args (casts ++ ops ++ last), st)
  end.
(** importJitFunctionAsFuncOp, fi l.23-76, without the attributes (see JitTypesModel): name, type, body *)
Definition import_function (name : string) (arguments returns : list jit) (graph : block) : option (string * (list ty * list ty) * mblock) :=
  do (inputs, results) <- function_type opts arguments returns;
  do (b, _) <- import_block graph (Some inputs) "func.return" results fresh_state;
  Some (name, (inputs, results), b).
End Importer.
