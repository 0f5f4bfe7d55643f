(** Model of build_tools/autogen_ltc_backend.py (below: ltc): which operators the lazy tensor backend gets code for, the
    bodies of the generated Lower functions, and when the code is generated again.
    Python sets are lists read by membership. The text of generated code is the list of its statements. The operators of
    GeneratedTorchOps.td (found by rg or grep, ltc l.221-236), torchgen's parsing of native_functions.yaml and the lists of the
    configuration file are inputs. *)
From Coq Require Import Bool Ascii String List.
From Verif Require Import Prelude.
Import ListNotations.
Open Scope string_scope.
Open Scope list_scope.

(** ** Lower functions, ltc l.45-107 *)
(** LazyArgument of torchgen: name, is_lazy_value, and whether its type is an OptionalCType. *)
Record larg := { l_name : string; is_lazy : bool; is_optional : bool }.
(** LazyIrSchema: arguments, properties LowerDeclOnly and Lower, and the number of results. *)
Record schema := { positional_args : list larg; keyword_args : list larg; LowerDeclOnly : bool; Lower : bool; n_returns : nat }.
Definition keyword_values (s : schema) : list larg := filter is_lazy (keyword_args s).
Definition keyword_scalars (s : schema) : list larg := filter (fun a => negb (is_lazy a)) (keyword_args s).
(** What is put in the vectors of arguments: [operand(i++)], [has_x ? operand(i++) : nullptr], and the constant [x] under the name "x". *)
Inductive item := NextOperand | NextOperandIf (x : string) | Constant (x : string).
(** ltc l.56-67 *)
Definition emplace_arguments (s : schema) : list item :=
  map (fun a => if is_lazy a then if is_optional a then NextOperandIf (l_name a) else NextOperand else Constant (l_name a))
    (positional_args s).
(** ltc l.71-81, with the name given to each. *)
Definition emplace_kwarguments (s : schema) : list (string * item) :=
  map (fun a => (l_name a, NextOperand)) (keyword_values s) ++ map (fun a => (l_name a, Constant (l_name a))) (keyword_scalars s).
Definition counts (i : item) : bool := match i with NextOperand | NextOperandIf _ => true | Constant _ => false end.
(** The generated text: nothing, a declaration, or a body with the reserved sizes, whether it declares the counter [i], the two lists
    and the checked number of results. *)
Inductive code :=
| Nothing
| Declared
| Body (reserve kwreserve : nat) (counter : bool) (args : list item) (kwargs : list (string * item)) (results : nat).
(** lowering_function, ltc l.45-107 *)
Definition lowering_function (s : schema) : code :=
  if LowerDeclOnly s then Declared
  else if negb (Lower s) then Nothing
  else Body (length (emplace_arguments s)) (length (emplace_kwarguments s))
         (existsb counts (emplace_arguments s) || existsb (fun e => counts (snd e)) (emplace_kwarguments s))
         (emplace_arguments s) (emplace_kwarguments s) (n_returns s).

(** ** Lists of operators, ltc l.163-302 *)
Definition memb (x : string) (l : list string) : bool := existsb (String.eqb x) l.
(** A native function: its full and base name, has_composite_implicit_autograd_kernel, in-place, and the operators generated from
    it with their overload names. *)
Record native := { n_name : string; n_base : string; composite : bool; inplace : bool; autogen : list (string * string) }.
(** The configuration file, ltc l.207-218, 265-271. *)
Record config := { blacklist : list string; c_supported : list string; whitelist : list string; additional_ops : list string }.
(** The dictionary by names, ltc l.190-192: of two functions with a name the later one. *)
Definition native_of (fs : list native) (op : string) : option native :=
  find (fun f => String.eqb (n_name f) op) (rev fs).
(** str.startswith, str.endswith and [in]. *)
Fixpoint starts (p s : string) : bool :=
  match p, s with
  | EmptyString, _ => true
  | String a p', String b s' => Ascii.eqb a b && starts p' s'
  | String _ _, EmptyString => false
  end.
Fixpoint ends (p s : string) : bool :=
  String.eqb p s || match s with EmptyString => false | String _ s' => ends p s' end.
Fixpoint contains (p s : string) : bool :=
  starts p s || match s with EmptyString => false | String _ s' => contains p s' end.
Definition creates (o : string) : bool := starts "new_" o || ends "_like" o.
(** The body of the loop, ltc l.243-262: operators to add to [ops] and to [composite_implicit]. *)
Definition classify (fs : list native) (c : config) (op : string) : list string * list string :=
  match native_of fs op with
  | None => ([], [])
  | Some f =>
    let base := n_base f in
    if memb base (blacklist c) || memb op (blacklist c) then ([], [])
    else if memb base (c_supported c) || memb op (c_supported c) then ([], [])
    else if creates base || creates op then ([], [])
    else if composite f then ([], [op])
    else if inplace f then (map fst (filter (fun a => contains "functional" (snd a)) (autogen f)), [])
    else ([op], [])
  end.
Record lists := { full_codegen : list string; supported : list string; composite_implicit : list string; skipped : list string }.
(** ltc l.239-300 *)
Definition native_lists (fs : list native) (c : config) (torch_ops : list string) : lists :=
  let ops := flat_map (fun op => fst (classify fs c op)) torch_ops in
  let ci := flat_map (fun op => snd (classify fs c op)) torch_ops in
  {| full_codegen := ops ++ whitelist c;
     supported := c_supported c ++ additional_ops c;
     composite_implicit := ci;
     skipped := filter (fun op => negb (memb op ops || memb op (c_supported c) || memb op ci)) torch_ops |}.
(** generate_shape_inference looks every operator up, ltc l.378-382: a KeyError for names that are not native functions. *)
Definition functions_to_generate (fs : list native) (ops : list string) : option (list native) := mapM (native_of fs) ops.

(** ** Shape inference functions, ltc l.361-461 *)
(** Sets of signatures: those declared here, upstream, and defined by hand; the first three assertions. *)
Definition missing_defs (decls upstream defs : list string) : option (list string) :=
  assert negb (Nat.eqb (length (nodup string_dec decls)) 0);
  assert negb (Nat.eqb (length (nodup string_dec upstream)) 0);
  assert Nat.ltb (length (nodup string_dec defs)) (length (nodup string_dec decls));
  Some (filter (fun s => negb (memb s upstream) && negb (memb s defs)) decls).
Definition unnecessary_defs (decls defs : list string) : list string := filter (fun s => negb (memb s decls)) defs.

(** ** Generating again, ltc l.143-161 and 492-505 *)
Section Hash.
Variable H : Type.
Variable sha256 : string -> H.
Variable eqb : H -> H -> bool.
(** The files that are hashed: this script, its configuration, GeneratedTorchOps.td, the generated list of operators, shape_inference.cpp and
    three files of torchgen; [None]: it does not exist. [natives]: native_functions.yaml, from which the list is also made. *)
Record files := { script : option string; config_path : option string; torch_ops_file : option string; source_yaml : option string;
  shape_inference : option string; lazy_ir : option string; lazy_py : option string; model_py : option string; natives : string }.
(** Running the generator: the contents of the list of operators it writes, from the script, the configuration, the operators and the native functions. *)
Variable generate : option string -> option string -> option string -> string -> string.
Definition text (f : option string) : string := match f with Some c => c | None => "" end.
(** calculate_hash: the contents of the files that exist, one after the other. *)
Definition calculate_hash (f : files) : H :=
  sha256 (fold_right String.append "" (map text [script f; config_path f; torch_ops_file f; source_yaml f; shape_inference f;
    lazy_ir f; lazy_py f; model_py f])).
(** The state: the files and the recorded hash. *)
Definition state := (files * option H)%type.
Definition generated (f : files) : files :=
  {| script := script f; config_path := config_path f; torch_ops_file := torch_ops_file f;
     source_yaml := Some (generate (script f) (config_path f) (torch_ops_file f) (natives f));
     shape_inference := shape_inference f; lazy_ir := lazy_ir f; lazy_py := lazy_py f; model_py := model_py f; natives := natives f |}.
(** main, ltc l.492-505: whether the generator runs, and the state afterwards. The hash is taken before it runs. *)
Definition run (force : bool) (st : state) : bool * state :=
  let (f, prev) := st in
  let new_hash := calculate_hash f in
  if force || negb (match prev with Some h => eqb new_hash h | None => false end) then (true, (generated f, Some new_hash)) else (false, st).
End Hash.
