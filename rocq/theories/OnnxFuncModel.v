(** The ONNX importer: operators defined by functions.

    Source under /repo: onnx = python/torch_mlir/extras/onnx_importer.py. ONNX itself gives the schemas and
    the bodies of functions; they are parameters here. [repr] of a key is taken to be injective. [None] is an
    exception. *)
From Coq Require Import ZArith Bool String List.
From Verif Require Import Prelude OnnxModel.
Import ListNotations.
Open Scope string_scope.
Open Scope list_scope.
Open Scope Z_scope.

(** * Choosing a function *)
(** Config, onnx l.82-132: allowed (or [None] for all) and denied operators by domain. *)
Record config := { allowlists : option (list (string * list string)); denylists : list (string * list string) }.
(** The default, onnx l.100-131. *)
Definition default_config : config :=
  {| allowlists := Some [("", ["MeanVarianceNormalization"])]; denylists := [("", ["CastLike"; "Range"])] |}.
Definition listed (lists : list (string * list string)) (domain op : string) : bool :=
  match lookup lists domain with Some l => existsb (String.eqb op) l | None => false end.
(** The filters, onnx l.981-990. *)
Definition may_expand (c : config) (domain op : string) : bool :=
  match allowlists c with Some l => listed l domain op | None => true end && negb (listed (denylists c) domain op).
(** Opset versions with a body that does not depend on the context, and with one that does. *)
Record schema := { function_opset_versions : list Z; context_dependent_function_opset_versions : list Z }.
(** [max(filter(f, l), default=None)], onnx l.1002-1010. *)
Definition newest (l : list Z) (opset : Z) : option Z :=
  fold_left (fun m v => match m with Some x => Some (Z.max x v) | None => Some v end) (filter (fun v => v <=? opset) l) None.
(** The version and whether it depends on the context, onnx l.1011-1021. *)
Definition choose_version (s : schema) (opset : Z) : option (Z * bool) :=
  match newest (function_opset_versions s) opset, newest (context_dependent_function_opset_versions s) opset with
  | None, None => None
  | Some n, None => Some (n, false)
  | Some n, Some c => if c <? n then Some (n, false) else Some (c, true)
  | None, Some c => Some (c, true)
  end.

Section Functions.
(** Types, attributes of a node, and the rest of a node. *)
Context {TP A N : Type}.
(** A use of an operator. *)
Record request := { r_op : string; r_domain : string; r_opset : Z; r_inputs : list TP; r_outputs : list TP; r_attributes : list A; r_rest : N }.
(** The key, onnx l.1027-1044. *)
Inductive key := Key (op domain : string) (opset : Z) (ins outs : list TP) (attributes : list A) (rest : option N).
Definition key_of (r : request) (context_dependent : bool) : key :=
  Key (r_op r) (r_domain r) (r_opset r) (r_inputs r) (r_outputs r) (r_attributes r) (if context_dependent then Some (r_rest r) else None).
Context (key_eq_dec : forall a b : key, {a = b} + {a <> b}).
(** onnx.defs.get_schema, and the uses of operators in the specialised body of a function; either may fail. *)
Context (get_schema : string -> string -> Z -> option schema) (body : key -> Z -> bool -> option (list request)).
(** A function in the module: the key it is named by, and the version it was made from. Functions are known by their
    position. *)
Record func := { f_key : key; f_version : Z; f_context_dependent : bool }.
Record cache := { functions : list func; operator_function_map : list (key * nat) }.
Definition cache0 : cache := {| functions := []; operator_function_map := [] |}.
Fixpoint cached (l : list (key * nat)) (k : key) : option nat :=
  match l with [] => None | (x, f) :: r => if key_eq_dec x k then Some f else cached r k end.
(** get_operator_function, onnx l.965-1092. [Some None]: not expanded. The function is defined in the module
    before its body is imported; the model adds it afterwards. Bodies are imported with the default configuration (ModelInfo's default, onnx l.138 and
    l.1081). [fuel] bounds the nesting of functions. *)
Fixpoint get_operator_function (fuel : nat) (c : config) (st : cache) (r : request) {struct fuel} : option (option nat * cache) :=
  match fuel with
  | O => None
  | S fuel =>
      if may_expand c (r_domain r) (r_op r) then
        do s <- get_schema (r_op r) (r_domain r) (r_opset r);
        match choose_version s (r_opset r) with
        | None => Some (None, st)
        | Some (v, cd) =>
            let k := key_of r cd in
            match cached (operator_function_map st) k with
            | Some f => Some (Some f, st)
            | None =>
                do uses <- body k v cd;
                do st' <- foldM (fun st u => do (_, st') <- get_operator_function fuel default_config st u; Some st') uses st;
                let f := length (functions st') in
                Some (Some f, {| functions := functions st' ++ [{| f_key := k; f_version := v; f_context_dependent := cd |}];
                                 operator_function_map := (k, f) :: operator_function_map st' |})
            end
        end
      else Some (None, st)
  end.
(** A sequence of uses. *)
Fixpoint run_requests (fuel : nat) (c : config) (st : cache) (l : list request) : option (list (option nat) * cache) :=
  match l with
  | [] => Some ([], st)
  | r :: l => do (f, st) <- get_operator_function fuel c st r; do (fs, st) <- run_requests fuel c st l; Some (f :: fs, st)
  end.
End Functions.
Arguments request : clear implicits. Arguments key : clear implicits. Arguments func : clear implicits. Arguments cache : clear implicits.

(** * Specialising a body *)
Section Specialise.
Context {V TP : Type}.
(** An attribute: its name, the attribute of the function it refers to (or ""), its value, and the references to
    attributes of the function inside its graph ([g_refs]) and its list of graphs. *)
Record fattr := { fa_name : string; ref_attr_name : string; fa_value : V; g_refs : list string; graphs_refs : list (list string) }.
(** _bind_attribute, onnx l.817-872. [Some None]: the attribute is dropped. [defaults]: the attributes of the schema, with
    the default value if there is one. Binding inside graphs fails: onnx l.809 uses a name that is not
    defined. *)
Definition bind_attribute (caller : list fattr) (defaults : list (string * option fattr)) (old : fattr) : option (option fattr) :=
  if String.eqb (ref_attr_name old) "" then
    match graphs_refs old with
    | [] => Some (Some old) (** [not old_attribute.g or len(old_attribute.graphs) == 0], onnx l.833 *)
    | _ => None
    end
  else
    let rename := fun a => {| fa_name := fa_name old; ref_attr_name := ref_attr_name a; fa_value := fa_value a; g_refs := g_refs a; graphs_refs := graphs_refs a |} in
    match find (fun a => String.eqb (fa_name a) (ref_attr_name old)) caller with
    | Some a => Some (Some (rename a))
    | None =>
        do d <- lookup defaults (ref_attr_name old);
        Some (option_map rename d)
    end.
(** _bind_attributes_on_node, onnx l.788-883. *)
Fixpoint bind_attributes (caller : list fattr) (defaults : list (string * option fattr)) (old : list fattr) : option (list fattr) :=
  match old with
  | [] => Some []
  | a :: r =>
      do n <- bind_attribute caller defaults a;
      do r' <- bind_attributes caller defaults r;
      Some (match n with Some x => x :: r' | None => r' end)
  end.
(** The inputs and outputs of the specialised graph, onnx l.911-923; output_proto is only bound in the loop over inputs. *)
Definition specialise_signature (ins outs : list string) (in_types out_types : list TP) : option (list (string * TP) * list (string * TP)) :=
  let inputs := combine ins in_types in
  let outputs := combine outs out_types in
  match inputs, outputs with
  | [], _ :: _ => None
  | _, _ => Some (inputs, outputs)
  end.
End Specialise.
Arguments fattr : clear implicits.
