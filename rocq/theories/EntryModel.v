(** The entry points that lower a program: fx.py (fx) and compiler_utils.py (cpu) of python/torch_mlir, torchscript.py (tsc) of projects/pt1/python/torch_mlir and configs/torchdynamo.py (td) of projects/pt1/python/torch_mlir_e2e_test.

    Simplified: modules are not modelled but the pipelines that run on them; texts are bytes; exporting, importing and decomposing are steps of a plan. *)
From Coq Require Import Bool PeanoNat Ascii String List.
From Verif Require Import Prelude.
From Verif Require RunModel.
Import ListNotations.
Open Scope string_scope.
Open Scope list_scope.
Open Scope nat_scope.

Definition join (sep : string) (l : list string) : string := String.concat sep l.
(** str.split with a separator of one character *)
Fixpoint split (c : ascii) (s : string) : list string :=
  match s with
  | EmptyString => [EmptyString]
  | String d r =>
      if Ascii.eqb c d then EmptyString :: split c r
      else match split c r with
           | w :: ws => String d w :: ws
           | [] => [String d EmptyString]
           end
  end.
Definition newline : ascii := ascii_of_nat 10.
(** str < str *)
Fixpoint sltb (a b : string) : bool :=
  match a, b with
  | _, EmptyString => false
  | EmptyString, String _ _ => true
  | String x a, String y b => (nat_of_ascii x <? nat_of_ascii y) || ((nat_of_ascii x =? nat_of_ascii y) && sltb a b)
  end.
(** sorted(set(l)), tsc l.225, td l.113 *)
Fixpoint insert (x : string) (l : list string) : list string :=
  match l with
  | [] => [x]
  | y :: r => if String.eqb x y then l else if sltb x y then x :: l else y :: insert x r
  end.
Definition sorted_set (l : list string) : list string := fold_right insert [] l.
Definition or_default {A} (o : option A) (d : A) : A := match o with Some x => x | None => d end.
(** _module_lowering, fx l.61-78 *)
Definition fx_options (legal : option (list string)) (library : option string) : string :=
  let ops := match legal with
             | Some (o :: l) => String.append "backend-legal-ops=" (join "," (o :: l))
             | _ => ""
             end in
  String.append "{" (String.append ops (String.append " extra-library=" (String.append (or_default library "") "}"))).
(** fx l.57-86 *)
Definition module_lowering (t : RunModel.output_type) (legal : option (list string)) (library : option string) (allow_non_finites : bool) : option (list string) :=
  match t with
  | RunModel.RAW => Some []
  | _ =>
      do ps <- RunModel.lower_mlir_module t allow_non_finites ;
      Some (String.append "builtin.module(func.func(torch-match-quantized-custom-ops), torchdynamo-export-to-torch-backend-pipeline" (String.append (fx_options legal library) ")") :: ps)
  end.
(** export_and_import, fx l.89-154: what is done, in order *)
Inductive step := Export (dynamic_shapes : bool) | Decompose (table : list string) | PrintGraph | Warn | ImportProgram | ImportFrozen | ImportStateless | Pipeline (p : string).
Record fx_args := { is_program : bool; fx_output : string + RunModel.output_type; table : option (list string); mutation : bool; print_graph : bool; fx_legal : option (list string); allow : bool }.
(** torch.__version__ is a TorchVersion, so that both comparisons (fx l.117 and l.130) are of versions and not of texts: they are parameters *)
Definition export_and_import (at_least_2_2 before_2_3_dev : string -> bool) (default_table : list string) (torch_version : string) (a : fx_args) : list step * bool :=
  let steps :=
    (if is_program a then [] else [Export (at_least_2_2 torch_version)])
    ++ match or_default (table a) default_table with [] => [] | t => [Decompose t] end
    ++ (if print_graph a then [PrintGraph] else [])
    ++ (if mutation a then (if before_2_3_dev torch_version then [Warn] else []) ++ [ImportProgram] else [ImportFrozen]) in
  match (do t <- RunModel.output_type_get (fx_output a) ; module_lowering t (fx_legal a) None (allow a)) with
  | Some ps => (steps ++ map Pipeline ps, true)
  | None => (steps, false)
  end.
(** stateless_fx_import, fx l.157-187 *)
Definition stateless_fx_import (a : fx_args) : list step * bool :=
  let steps := (if print_graph a then [PrintGraph] else []) ++ [ImportStateless] in
  match (do t <- RunModel.output_type_get (fx_output a) ; module_lowering t (fx_legal a) None (allow a)) with
  | Some ps => (steps ++ map Pipeline ps, true)
  | None => (steps, false)
  end.
(** compile, tsc l.221-227 and l.299-316: the pipelines after the import *)
Definition ts_options (legal : list string) (library : string) : string :=
  String.append "{backend-legal-ops=" (String.append (join "," legal) (String.append " extra-library=" (String.append library "}"))).
Definition ts_lowering (t : RunModel.output_type) (legal : option (list string)) (library : string) : option (list string) :=
  match t with
  | RunModel.RAW => Some []
  | _ =>
      do ps <- RunModel.lower_mlir_module t true ;
      Some (String.append "builtin.module(torchscript-module-to-torch-backend-pipeline" (String.append (ts_options (match legal with Some l => sorted_set l | None => [] end) library) ")") :: ps)
  end.
(** jit, td l.95-166: the option string of l.150-156 is not used *)
Definition is_torch (t : RunModel.output_type) : bool := match t with RunModel.TORCH => true | _ => false end.
Definition dynamo_lowering (t : RunModel.output_type) (legal : option (list string)) (library : string) : option (list string) :=
  assert match legal with Some _ => is_torch t | None => true end ;
  do ps <- RunModel.lower_mlir_module t true ;
  Some ("builtin.module(torch-lower-to-backend-contract)" :: ps).
(** ** FX graphs in the dynamo configuration *)
Inductive arg := ANode (n : nat) | AConst | AEmpty.
Inductive kind := CallFunction (target : string) | Output | OtherNode.
Record fnode := { op : kind; args : list arg; no_kwargs : bool }.
(** _returns_empty_tuple, td l.50-57; None if the assertion fails *)
Fixpoint returns_empty_tuple (g : list fnode) : option bool :=
  match g with
  | [] => Some true
  | n :: g =>
      match op n with
      | Output =>
          match args n with
          | [AEmpty] => returns_empty_tuple g
          | [_] => Some false
          | _ => None
          end
      | _ => returns_empty_tuple g
      end
  end.
(** scalarize_tensor_ops_on_scalars, td l.69-92 *)
Definition scalar_second (n : fnode) : bool :=
  match args n with
  | [_; ANode _] => false
  | [_; _] => no_kwargs n
  | _ => false
  end.
Definition scalarize_node (n : fnode) : fnode :=
  match op n with
  | CallFunction t =>
      if scalar_second n then
        if (t =? "aten.add.Tensor")%string then {| op := CallFunction "aten.add.Scalar" ; args := args n ; no_kwargs := no_kwargs n |}
        else if (t =? "aten.mul.Tensor")%string then {| op := CallFunction "aten.mul.Scalar" ; args := args n ; no_kwargs := no_kwargs n |}
        else n
      else n
  | _ => n
  end.
Definition scalarize (g : list fnode) : list fnode := map scalarize_node g.
(** ** run_pipeline_with_repro_report, cpu l.89-138 *)
Definition whitespace (c : ascii) : bool := let n := nat_of_ascii c in (n =? 32) || ((9 <=? n) && (n <=? 13)) || ((28 <=? n) && (n <=? 31)).
Fixpoint lstrip (s : string) : string := match s with String c r => if whitespace c then lstrip r else s | EmptyString => EmptyString end.
Definition trim (m : string) : string := join (String newline "") (map lstrip (split newline m)).
Definition line (s : string) : string := String.append "            " (String.append s (String newline "")).
Definition message (description diagnostics exception pipeline filename : string) : string :=
  String.concat "" [line (String.append description " failed with the following diagnostics:"); line diagnostics; String newline ""; line (String.append "python exception: " exception); String newline "";
    line "For Torch-MLIR developers, the error can be reproduced with:"; line (String.append "$ torch-mlir-opt -pass-pipeline='" (String.append pipeline (String.append "' " filename)));
    line "Add '-mlir-print-ir-after-all -mlir-disable-threading' to get the IR dump for debugging purpose."; "            "].
(** printing the module may fail, as parsing or running the pipeline may; a report has a file with the module and a message *)
Inductive report := Ran | CompilerError (file contents message : string) | Unbound (file : string).
Record outcome := { reported : report; stderr : nat }.
Definition run_pipeline (tempdir : string) (module_name : option string) (asm : option string) (run : string -> option (string * string)) (pipeline description : string) (stderr0 : nat) : outcome :=
  let name := or_default module_name "UnnammedModule" in
  let file := String.append tempdir (String.append "/" (String.append name ".mlir")) in
  match asm with
  | None => {| reported := Unbound file ; stderr := stderr0 |}
  | Some text =>
      match run pipeline with
      | None => {| reported := Ran ; stderr := stderr0 |}
      | Some (diagnostics, exception) =>
          let d := if (description =? "")%string then String.append name " compile" else description in
          {| reported := CompilerError file text (trim (message d diagnostics exception pipeline file)) ; stderr := stderr0 |}
      end
  end.
