(** The ONNX importer: graphs, nodes, subgraphs and value names.

    Source under /repo: onnx = python/torch_mlir/extras/onnx_importer.py. Python dictionaries from names are
    association lists. Types are modelled in OnnxTypesModel.v. Operators that are expanded into functions
    (get_operator_function, onnx l.965-1092) are modelled in OnnxFuncModel.v; here no operator is expanded. *)
From Coq Require Import ZArith Bool Ascii String List.
From Verif Require Import Prelude.
Import ListNotations.
Open Scope string_scope.
Open Scope list_scope.

Section Onnx.
(** [D] is the data of tensors, [Op] an operator with its attributes other than graphs, [T] a type. *)
Context {D Op T : Type}.

(** * Python dictionaries *)
Fixpoint lookup {A} (l : list (string * A)) (k : string) : option A :=
  match l with [] => None | (x, v) :: r => if String.eqb x k then Some v else lookup r k end.
(** [d[k] = v] keeps the position of an existing key. *)
Fixpoint dict_set {A} (d : list (string * A)) (k : string) (v : A) : list (string * A) :=
  match d with
  | [] => [(k, v)]
  | (x, w) :: r => if String.eqb x k then (x, v) :: r else (x, w) :: dict_set r k v
  end.
(** [{n.name: n for n in l}], onnx l.163-174 *)
Definition dict {A} (l : list (string * A)) : list (string * A) := fold_left (fun d p => dict_set d (fst p) (snd p)) l [].
Definition has_key {A} (l : list (string * A)) (k : string) : bool := match lookup l k with Some _ => true | None => false end.

(** * Graphs *)
(** A Constant node with a tensor for [value] (with the name of that tensor), or any other node with its domain,
    operator, inputs, outputs and graph attributes. *)
Inductive node_ (G : Type) :=
| NConst (outs : list string) (iname : string) (d : D)
| NOp (domain : string) (op : Op) (ins outs : list string) (subs : list (string * G)).
Arguments NConst {G}. Arguments NOp {G}.
Inductive graph := Graph (inputs : list (string * T)) (inits : list (string * D)) (nodes : list (node_ graph)) (outputs : list string).
Definition g_inputs (g : graph) := let 'Graph i _ _ _ := g in i.
Definition g_inits (g : graph) := let 'Graph _ i _ _ := g in i.
Definition g_nodes (g : graph) := let 'Graph _ _ n _ := g in n.
Definition g_outputs (g : graph) := let 'Graph _ _ _ o := g in o.

(** * What is emitted. Results are numbered; a region may reuse numbers of a sibling. *)
Inductive iop_ (B : Type) :=
| IConst (r : nat) (d : D) (** torch.operator "onnx.Constant" *)
| INone (r : nat) (** torch.constant.none *)
| IOp (rs : list nat) (op : Op) (ins : list nat) (regs : list (option B)). (** regions without a block are [None] *)
Arguments IConst {B}. Arguments INone {B}. Arguments IOp {B}.
Inductive block := Block (args : list nat) (ops : list (iop_ block)) (outs : list nat).

(** _nv_map. The newest binding comes first. *)
Definition names := list (string * nat).
(** The domains of model_proto.opset_import. *)
Context (opsets : list string).

(** * import_initializer, onnx l.531-550 *)
Definition init_name (extern iname : string) : string := if String.eqb extern "" then iname else extern.

(** Sorted keys, onnx l.504; [sorted] orders strings by their characters. *)
Fixpoint insert_key (k : string) (l : list string) : list string :=
  match l with [] => [k] | x :: r => if String.leb k x then k :: l else x :: insert_key k r end.
Definition sort_keys (l : list string) : list string := fold_right insert_key [] l.
(** import_regions, onnx l.496-529: the regions of the operation in order, given those of each attribute. There are
    as many as graph attributes (count_regions, l.457-463). *)
Definition arrange {B} (subs : list (string * option B)) : option (list (option B)) :=
  let attr_map := dict subs in
  do blocks <- mapM (fun k => obind (lookup attr_map k) (fun b => b)) (sort_keys (map fst attr_map));
  Some (map Some blocks ++ repeat None (length subs - length blocks)).

(** The state: operations so far, names, next number. *)
Definition state := (list (iop_ block) * names * nat)%type.
Section Rec.
  (** import_all of a subgraph. *)
  Context (rec : graph -> names -> nat -> option (list (iop_ block) * list nat)).
  (** onnx l.504-529: the names of the enclosing graph are copied over those of the block arguments. *)
  Definition import_region (outer : names) (next : nat) (g : graph) : option block :=
    let block_names := map fst (g_inputs g) in
    assert forallb (fun k => negb (has_key (g_inits g) k)) block_names; (** GraphInfo, onnx l.188-196 *)
    let args := seq next (length block_names) in
    do body <- rec g (outer ++ rev (combine block_names args)) (next + length block_names);
    Some (Block args (fst body) (snd body)).
  (** zip(output_names, custom_op.results), onnx l.456-458 *)
  Definition bind_outputs (outs : list string) (rs : list nat) (env : names) : names :=
    fold_left (fun e p => if String.eqb (fst p) "" then e else p :: e) (combine outs rs) env.
  (** import_node, onnx l.383-458 and _handle_node_Constant, l.573-587 *)
  Definition import_node (none : nat) (st : state) (n : node_ graph) : option state :=
    let '(ops, env, next) := st in
    match n with
    | NConst outs iname d =>
        match outs with
        | [out] => Some (ops ++ [IConst next d], (init_name out iname, next) :: env, S next)
        | _ => None
        end
    | NOp domain op ins outs subs =>
        do vals <- mapM (fun i => if String.eqb i "" then Some none else lookup env i) ins;
        assert existsb (String.eqb domain) opsets; (** opset_version is unbound otherwise, onnx l.427-430 *)
        let rs := seq next (length outs) in
        do regs <- arrange (map (fun p => (fst p, import_region env (next + length outs) (snd p))) subs);
        Some (ops ++ [IOp rs op vals regs], bind_outputs outs rs env, (next + length outs)%nat)
    end.
  Fixpoint import_nodes (none : nat) (l : list (node_ graph)) (st : state) : option state :=
    match l with [] => Some st | n :: r => do st' <- import_node none st n; import_nodes none r st' end.
End Rec.
(** import_initializer for each entry of the map, onnx l.348-349 *)
Definition import_inits (l : list (string * D)) (st : state) : state :=
  fold_left (fun '(ops, env, next) p => (ops ++ [IConst next (snd p)], (fst p, next) :: env, S next)) l st.
(** import_all, onnx l.344-367: initializers, the none value, nodes, outputs. *)
Fixpoint import_all (g : graph) (env : names) (next : nat) {struct g} : option (list (iop_ block) * list nat) :=
  match g with
  | Graph _ inits nodes outs =>
      let '(ops, env, next) := import_inits (dict inits) ([], env, next) in
      do st <- import_nodes import_all next nodes (ops ++ [INone next], env, S next);
      let '(ops, env, _) := st in
      do rs <- mapM (lookup env) outs;
      Some (ops, rs)
  end.
(** GraphInfo.input_map of a main graph, onnx l.176-196 *)
Definition input_map (elide : bool) (g : graph) : option (list (string * T)) :=
  let declared := dict (g_inputs g) in
  if elide then Some (filter (fun p => negb (has_key (g_inits g) (fst p))) declared)
  else assert forallb (fun p => negb (has_key (g_inits g) (fst p))) declared; Some declared.
(** define_function and import_all, onnx l.266-310: the arguments with their types, and the body. *)
Definition import_main (elide : bool) (g : graph) : option (list (string * T) * block) :=
  do inputs <- input_map elide g;
  let args := seq 0 (length inputs) in
  do body <- import_all g (rev (combine (map fst inputs) args)) (length inputs);
  Some (inputs, Block args (fst body) (snd body)).
End Onnx.
Arguments NConst {D Op G}. Arguments NOp {D Op G}. Arguments IConst {D Op B}. Arguments INone {D Op B}. Arguments IOp {D Op B}.
Arguments node_ : clear implicits. Arguments graph : clear implicits. Arguments iop_ : clear implicits. Arguments block : clear implicits.
