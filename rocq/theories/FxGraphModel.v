(** Model of the FX node importer, python/torch_mlir/extras/fx_importer.py:
    the value table of GraphNodeImporter, argument import, operator emission, getitem,
    lazy parameters and producer hooks. A raised exception is [None].
    Simplifications: locations are dropped; hooks are the default FxImporterHooks except
    that [store_produced_value] emits a store; an operation wrapped in torch.operator is
    identified with the operation it names (l.2647-2669); FX nodes are identified by their
    (unique) names. *)
From Coq Require Import String ZArith Bool List.
From Verif Require Import Prelude.
Import ListNotations.
Open Scope Z_scope.

(** JIT schema types inspected by the importer (l.2218-2281, 2351-2376). *)
Inductive jt := JTensor | JInt | JFloat | JNumber | JBool | JString | JDevice
| JList (e : jt) | JOpt (e : jt).

(** IR types of values (l.1128-1134, 2763-2791): !torch.none, bool, int, float, str,
    Device, vtensor, tensor, list<e>, list<optional<e>>. Sizes/dtypes are dropped. *)
Inductive ty := TyNone | TyBool | TyInt | TyFloat | TyStr | TyDevice | TyVTensor | TyTensor
| TyList (e : ty) | TyListOpt (e : ty).
Fixpoint ty_eqb (a b : ty) : bool :=
  match a, b with
  | TyNone, TyNone | TyBool, TyBool | TyInt, TyInt | TyFloat, TyFloat | TyStr, TyStr
  | TyDevice, TyDevice | TyVTensor, TyVTensor | TyTensor, TyTensor => true
  | TyList x, TyList y | TyListOpt x, TyListOpt y => ty_eqb x y
  | _, _ => false
  end.

(** Python literals that occur as arguments or attributes. [LTensor id b]: the tensor
    object [id], [b] = its dtype is bool. [LEnum c]: a dtype/layout/memory_format whose
    code table gives [c] ([None] = KeyError). Floats are opaque bit patterns. *)
Inductive lit := LNone | LBool (b : bool) | LInt (z : Z) | LFloat (f : Z) | LStr (s : string)
| LTensor (id : nat) (isbool : bool) | LEnum (c : option Z) | LDevice (s : string).

(** FX arguments: fx.Node, literal, immutable_list, tuple. *)
Inductive arg := ANode (n : string) | ALit (l : lit) | AList (l : list arg)
| ATuple (l : list arg).

(** torch.FunctionSchema: parameters with JIT type and default, number of returns. *)
Inductive dflt := DLit (l : lit) | DList (l : list lit).
Record param := P { p_name : string; p_type : jt; p_default : option dflt }.
Record schema := Sch { s_op : string; s_params : list param; s_returns : nat }.

Inductive target :=
| TGetitem                       (* operator.getitem *)
| TOverload (s : schema)         (* TorchOpOverload *)
| TConcrete (s : schema)         (* symbolic op, already mapped to its concrete overload *)
| TAuto (s : schema)             (* auto_functionalized(op_overload) *)
| TUnsupported.                  (* NotImplementedError, l.1626 *)
Inductive nodeop := Placeholder | GetAttr (obj : option lit) | Call (t : target) | Output
| OtherOp.

(** [n_ty] = node_val_to_type(node), [n_tys] = [value_info_to_type(v) for v in
    meta["val"]] ([None] = raises); [n_scalar] = meta["val"] is an int/float/symbolic
    scalar; [n_zeros] = the only user is baddbmm; [n_arg0_fp] = args[0]'s dtype is
    floating point (both read by the canonicalisers). *)
Record node := Nd { n_name : string; n_op : nodeop; n_args : list arg;
  n_kwargs : list (string * arg); n_ty : option ty; n_tys : option (list ty);
  n_scalar : bool; n_zeros : bool; n_arg0_fp : bool }.
Definition graph := list node.
Definition find_node (g : graph) (n : string) : option node :=
  find (fun x => String.eqb (n_name x) n) g.

(** Emitted IR: values with types; operations. *)
Record val := V { vid : nat; vty : ty }.
Inductive opk :=
| KConst (l : lit)               (* torch.constant.* and torch.vtensor.literal *)
| KConstU8 (id : nat)            (* torch.vtensor.literal of tensor.to(uint8) *)
| KTorch (name : string)
| KListConstruct | KListUnpack   (* torch.prim.ListConstruct / ListUnpack *)
| KNumToTensor                   (* torch.prim.NumToTensor.Scalar *)
| KFloatBool | KIntBool          (* torch.aten.Float.bool / Int.bool *)
| KCopy | KOverwrite             (* torch.copy.to_vtensor / overwrite.tensor.contents *)
| KStore (buf : string).         (* emitted by the store_produced_value hook *)
Record op := Op { o_kind : opk; o_args : list nat; o_res : list nat }.

(** l.1424-1437: the importer's tables. *)
Inductive binding := BVal (v : val) | BLazy (l : lit) | BNone.
Inductive hook := HOverwrite (m : nat) | HStore (buf : string).
Record st := ST { s_ops : list op; s_next : nat; s_vals : list ((string * nat) * binding);
  s_hooks : list (string * hook); s_multi : list string;
  s_unpack : list (string * list val) }.

Definition keyb (a b : string * nat) : bool :=
  String.eqb (fst a) (fst b) && Nat.eqb (snd a) (snd b).
Fixpoint vget (l : list ((string * nat) * binding)) (k : string * nat) : option binding :=
  match l with
  | [] => None
  | (k', b) :: r => if keyb k' k then Some b else vget r k
  end.
Fixpoint sget {A} (l : list (string * A)) (k : string) : option A :=
  match l with
  | [] => None
  | (k', b) :: r => if String.eqb k' k then Some b else sget r k
  end.
Definition memb (n : string) (l : list string) : bool := existsb (String.eqb n) l.

Definition set_vals v s := ST (s_ops s) (s_next s) v (s_hooks s) (s_multi s) (s_unpack s).
Definition set_hooks h s := ST (s_ops s) (s_next s) (s_vals s) h (s_multi s) (s_unpack s).
Definition set_multi m s := ST (s_ops s) (s_next s) (s_vals s) (s_hooks s) m (s_unpack s).
Definition set_unpack u s := ST (s_ops s) (s_next s) (s_vals s) (s_hooks s) (s_multi s) u.

(** Operation.create at the end of the block (InsertionPoint(self._b)). *)
Fixpoint mkvals (n : nat) (tys : list ty) : list val :=
  match tys with [] => [] | t :: r => V n t :: mkvals (S n) r end.
Definition emit (k : opk) (args : list val) (tys : list ty) (s : st) : list val * st :=
  let rs := mkvals (s_next s) tys in
  (rs, ST (s_ops s ++ [Op k (map vid args) (map vid rs)]) (s_next s + length tys)
          (s_vals s) (s_hooks s) (s_multi s) (s_unpack s)).
Definition emit1 (k : opk) (args : list val) (t : ty) (s : st) : val * st :=
  (V (s_next s) t, snd (emit k args [t] s)).

(** bind_node_value, l.1439-1456: assert unbound, record, fire the producer hook (whose
    operand must be an IR value: a lazy callback or None makes Operation.create raise). *)
Definition fire (h : hook) (b : binding) (s : st) : option st :=
  match b with
  | BVal v =>
      match h with
      | HOverwrite m => Some (snd (emit KOverwrite [v; V m TyTensor] [] s))
      | HStore buf => Some (snd (emit (KStore buf) [v] [] s))
      end
  | _ => None
  end.
Definition bind (n : string) (i : nat) (b : binding) (s : st) : option st :=
  match vget (s_vals s) (n, i) with
  | Some _ => None
  | None =>
      let s1 := set_vals (((n, i), b) :: s_vals s) s in
      match sget (s_hooks s1) n with
      | None => Some s1
      | Some h => fire h b s1
      end
  end.

(** The literal converters, l.2732-2790. *)
Definition lit_ty (l : lit) : ty :=
  match l with
  | LNone => TyNone | LBool _ => TyBool | LInt _ => TyInt | LFloat _ => TyFloat
  | LStr _ => TyStr | LTensor _ _ => TyVTensor | LEnum _ => TyInt | LDevice _ => TyDevice
  end.
Definition import_const (l : lit) (s : st) : option (val * st) :=
  match l with
  | LEnum None => None
  | LEnum (Some c) => Some (emit1 (KConst (LInt c)) [] TyInt s)
  | _ => Some (emit1 (KConst l) [] (lit_ty l) s)
  end.

Definition bool_code : Z := 11.   (* TORCH_DTYPE_TO_INT[torch.bool], l.229 *)
Definition convert_elt : string := "torch.prims.convert_element_type".
(** _import_literal, l.2292-2321 (no user hook): a bool tensor is imported as uint8 and
    converted back. *)
Definition import_literal (l : lit) (s : st) : option (val * st) :=
  match l with
  | LTensor id true =>
      let '(c, s1) := emit1 (KConstU8 id) [] TyVTensor s in
      let '(d, s2) := emit1 (KConst (LInt bool_code)) [] TyInt s1 in
      Some (emit1 (KTorch convert_elt) [c; d] TyVTensor s2)
  | _ => import_const l s
  end.

(** resolve_node_value, l.1458-1472. *)
Fixpoint vset (l : list ((string * nat) * binding)) (k : string * nat) (b : binding) :=
  match l with
  | [] => []
  | (k', b') :: r => if keyb k' k then (k', b) :: r else (k', b') :: vset r k b
  end.
Definition resolve (n : string) (i : nat) (s : st) : option (val * st) :=
  match vget (s_vals s) (n, i) with
  | None => None
  | Some (BVal v) => Some (v, s)
  | Some BNone => None
  | Some (BLazy l) =>
      do (v, s1) <- import_literal l s;
      Some (v, set_vals (vset (s_vals s1) (n, i) (BVal v)) s1)
  end.

(** _convert_type, l.2253-2290, for a JIT expected type. *)
Definition convert_type (v : val) (e : option jt) (s : st) : val * st :=
  match vty v, e with
  | TyBool, Some JFloat => emit1 KFloatBool [v] TyFloat s
  | TyBool, Some JInt | TyBool, Some JNumber => emit1 KIntBool [v] TyInt s
  | _, _ => (v, s)
  end.

(** _import_scalar_as_tensor, l.2336-2348 (torch.tensor(arg) needs a scalar). *)
Definition import_scalar_as_tensor (l : lit) (s : st) : option (val * st) :=
  match l with
  | LBool _ | LInt _ | LFloat _ =>
      do (c, s1) <- import_const l s;
      Some (emit1 KNumToTensor [c] TyVTensor s1)
  | _ => None
  end.

(** _import_list_argument, l.2364-2391: element type and optionality; [None] = the
    assertion, KeyError, or (expected type None) the unbound local of l.2423. *)
Definition elem_type (e : option jt) : option (jt * bool) :=
  let elt t := match t with
    | JInt | JFloat | JString | JBool | JTensor => Some t | _ => None end in
  let inner t := match t with JOpt u => option_map (fun x => (x, true)) (elt u)
                         | _ => option_map (fun x => (x, false)) (elt t) end in
  match e with
  | Some (JList (JList t)) => inner t
  | Some (JList t) => inner t
  | Some (JOpt (JList t)) => inner t
  | _ => None
  end.
(** TORCH_TYPE_TO_PY_TYPE / SCALAR_TYPE_TO_TORCH_MLIR_TYPE, l.2794-2838. *)
Definition jt_ty (t : jt) : ty :=
  match t with
  | JInt => TyInt | JFloat => TyFloat | JString => TyStr | JBool => TyBool
  | _ => TyVTensor
  end.
(** ["vtensor" in str(type)], l.2411. *)
Fixpoint has_vtensor (t : ty) : bool :=
  match t with TyVTensor => true | TyList e | TyListOpt e => has_vtensor e | _ => false end.
Definition node_elem_ok (t : jt) (v : val) : bool :=
  match t with JTensor => has_vtensor (vty v) | _ => ty_eqb (vty v) (jt_ty t) end.
Definition lit_elem_ok (t : jt) (optional : bool) (l : lit) : bool :=
  match l, t with
  | LInt _, JInt | LFloat _, JFloat | LStr _, JString | LBool _, JBool => true
  | LNone, _ => optional
  | _, _ => false
  end.

Section WithGraph.
(** The get_attr nodes of the graph (with the attribute's literal value, [None] if the
    module has no such attribute or it is not a literal), and metadata of nodes. *)
Variable attr_of : string -> option (option lit).
Variable scalar_meta : string -> bool.
(** torch.ops lookup of a schema by MLIR operation name. *)
Variable registry : string -> option schema.

(** get_attr operand not yet bound: import its attribute and bind it (l.2225-2233,
    2403-2410). *)
Definition bind_attr (n : string) (obj : option lit) (s : st) : option st :=
  match obj with
  | None => None
  | Some l => do (v, s1) <- import_literal l s; bind n 0 (BVal v) s1
  end.

(** One element of a list argument, l.2396-2421. *)
Definition import_elem (t : jt) (optional : bool) (a : arg) (s : st) : option (val * st) :=
  match a with
  | ANode n =>
      if memb n (s_multi s) then None
      else
        do s1 <- match attr_of n with
                 | Some obj => match vget (s_vals s) (n, 0%nat) with
                               | None => bind_attr n obj s
                               | Some _ => Some s
                               end
                 | None => Some s
                 end;
        do (v, s2) <- resolve n 0 s1;
        assert (node_elem_ok t v);
        Some (v, s2)
  | ALit l => assert (lit_elem_ok t optional l); import_const l s
  | _ => None
  end.
Fixpoint import_elems (t : jt) (optional : bool) (l : list arg) (s : st)
  : option (list val * st) :=
  match l with
  | [] => Some ([], s)
  | a :: r => do (v, s1) <- import_elem t optional a s;
              do (vs, s2) <- import_elems t optional r s1;
              Some (v :: vs, s2)
  end.
(** _import_list_argument, l.2364-2437. *)
Definition import_list (e : option jt) (l : list arg) (s : st) : option (val * st) :=
  do (t, optional) <- elem_type e;
  do (vs, s1) <- import_elems t optional l s;
  Some (emit1 KListConstruct vs
          (if (optional : bool) then TyListOpt (jt_ty t) else TyList (jt_ty t)) s1).

(** _import_argument, l.2218-2251. The get_attr test looks up [(arg.target, 0)], which is
    never a key of the table, so the node is bound again on every direct use. *)
Definition import_arg (e : option jt) (a : arg) (s : st) : option (val * st) :=
  match a with
  | ANode n =>
      if memb n (s_multi s) then None
      else
        do s1 <- match attr_of n with Some obj => bind_attr n obj s | None => Some s end;
        do (v, s2) <- resolve n 0 s1;
        Some (convert_type v e s2)
  | AList l => do (v, s1) <- import_list e l s; Some (convert_type v e s1)
  | ATuple _ => None
  | ALit l =>
      match e, l with
      | Some JTensor, LTensor _ _ =>
          do (v, s1) <- import_literal l s; Some (convert_type v e s1)
      | Some JTensor, _ =>
          do (v, s1) <- import_scalar_as_tensor l s; Some (convert_type v e s1)
      | _, _ => do (v, s1) <- import_literal l s; Some (convert_type v e s1)
      end
  end.

(** _import_default_value, l.2439-2452. *)
Definition import_default (e : jt) (d : dflt) (s : st) : option (val * st) :=
  match d with
  | DLit l => import_const l s
  | DList l => import_list (Some e) (map ALit l) s
  end.

(** Operand list of a call, l.2124-2145. [parameter.default_value] is None when the
    schema has no default. *)
Fixpoint import_params (i : nat) (ps : list param) (args : list arg)
    (kw : list (string * arg)) (s : st) : option (list val * st) :=
  match ps with
  | [] => Some ([], s)
  | p :: r =>
      do (v, s1) <-
        match nth_error args i with
        | Some a => import_arg (Some (p_type p)) a s
        | None =>
            match sget kw (p_name p) with
            | Some a => import_arg (Some (p_type p)) a s
            | None => import_default (p_type p)
                        (match p_default p with Some d => d | None => DLit LNone end) s
            end
        end;
      do (vs, s2) <- import_params (S i) r args kw s1;
      Some (v :: vs, s2)
  end.

(** l.2151-2153: bind every result. *)
Fixpoint bind_results (n : string) (i : nat) (vs : list val) (s : st) : option st :=
  match vs with
  | [] => Some s
  | v :: r => do s1 <- bind n i (BVal v) s; bind_results n (S i) r s1
  end.

(** TENSOR_SCALAR_OP_CONVERTER, l.2843-2849. *)
Definition scalar_variant (name : string) : option string :=
  if String.eqb name "torch.aten.mul.Tensor" then Some "torch.aten.mul.Scalar"%string
  else if String.eqb name "torch.aten.div.Tensor" then Some "torch.aten.div.Scalar"%string
  else if String.eqb name "torch.aten.add.Tensor" then Some "torch.aten.add.Scalar"%string
  else if String.eqb name "torch.aten.sub.Tensor" then Some "torch.aten.sub.Scalar"%string
  else if String.eqb name "torch.aten.floor_divide"
    then Some "torch.aten.floor_divide.Scalar"%string
  else None.
(** is_scalar_arg, l.469-476 (bool is a subclass of int). *)
Definition is_scalar_arg (a : arg) : bool :=
  match a with
  | ALit (LBool _) | ALit (LInt _) | ALit (LFloat _) => true
  | ANode n => scalar_meta n
  | _ => false
  end.
(** l.2102-2116. *)
Definition pick_schema (sch : schema) (args : list arg) : option schema :=
  match scalar_variant (s_op sch) with
  | None => Some sch
  | Some v =>
      match nth_error args 1 with
      | None => None                       (* node.args[1]: IndexError *)
      | Some a => if is_scalar_arg a then registry v else Some sch
      end
  end.

(** node_canonicalize, l.2854-2942: the new (args, kwargs, schema); [Some None] = the node
    is dropped, [None] = it raises. *)
Definition embedding_bag_args : list (string * lit) :=
  [("scale_grad_by_freq", LBool false); ("mode", LInt 0); ("sparse", LBool false);
   ("per_sample_weights", LNone); ("include_last_offset", LBool false);
   ("padding_idx", LNone)]%string.
Fixpoint add_missing (kw : list (string * arg)) (d : list (string * lit)) :=
  match d with
  | [] => kw
  | (k, v) :: r => add_missing (match sget kw k with
                                | Some _ => kw | None => kw ++ [(k, ALit v)] end) r
  end.
Definition canonicalize (n : node) (sch : schema)
  : option (option (list arg * list (string * arg) * schema)) :=
  let keep := Some (Some (n_args n, n_kwargs n, sch)) in
  let retarget name := do sch' <- registry name; Some (Some (n_args n, n_kwargs n, sch')) in
  let name := s_op sch in
  if String.eqb name "torch.aten.lift_fresh_copy" then
    do a <- nth_error (n_args n) 0;
    do sch' <- registry "torch.aten.clone"%string;
    Some (Some ([a], [("memory_format"%string, ALit LNone)], sch'))
  else if String.eqb name "torch.aten.lift_fresh_copy.out" then
    None             (* node.args is shortened before node.args[1] is read *)
  else if String.eqb name "torch.aten.empty.memory_format" then
    if n_zeros n then retarget "torch.aten.zeros"%string else keep
  else if String.eqb name "torch.aten._local_scalar_dense" then
    do a <- nth_error (n_args n) 0;
    do sch' <- registry (if n_arg0_fp n then "torch.aten.Float.Tensor"
                         else "torch.aten.Int.Tensor")%string;
    Some (Some ([a], n_kwargs n, sch'))
  else if String.eqb name "torch.aten._assert_async.msg" then Some None
  else if String.eqb name "torch.aten._unsafe_index_put" then
    retarget "torch.aten._unsafe_index_put.hacked_twin"%string
  else if String.eqb name "torch.aten._embedding_bag_forward_only" then
    do sch' <- registry "torch.aten.embedding_bag.padding_idx"%string;
    Some (Some (n_args n,
      add_missing (n_kwargs n)
        (slice_from embedding_bag_args (zlen (n_args n) - 3)), sch'))
  else keep.

(** _unpack_node_result_types, l.2490-2512. *)
Definition result_types (n : node) (sch : schema) : option (list ty) :=
  match s_returns sch with
  | 1%nat => option_map (fun t => [t]) (n_ty n)
  | 0%nat => Some []
  | _ => n_tys n
  end.

(** _import_torch_op_overload, l.2075-2153, after canonicalisation. *)
Definition import_call (n : node) (args : list arg) (kw : list (string * arg))
    (sch0 : schema) (s : st) : option st :=
  if String.eqb (s_op sch0) "torch.aten.as_strided" then None
  else
    do sch <- pick_schema sch0 args;
    do tys <- result_types n sch;
    let s0 := if (1 <? length tys)%nat then set_multi (n_name n :: s_multi s) s else s in
    do (vs, s1) <- import_params 0 (s_params sch) args kw s0;
    let '(rs, s2) := emit (KTorch (s_op sch)) vs tys s1 in
    bind_results (n_name n) 0 rs s2.

(** _import_hop_auto_functionalized, l.1874-1926: arguments by name only. *)
Fixpoint import_named (ps : list param) (kw : list (string * arg)) (s : st)
  : option (list val * st) :=
  match ps with
  | [] => Some ([], s)
  | p :: r =>
      do a <- sget kw (p_name p);
      do (v, s1) <- import_arg (Some (p_type p)) a s;
      do (vs, s2) <- import_named r kw s1;
      Some (v :: vs, s2)
  end.
Definition import_auto (n : node) (sch : schema) (s : st) : option st :=
  do tys <- n_tys n;
  let none := Nat.eqb (s_returns sch) 0 in
  do irtys <- (if none then match tys with TyNone :: r => Some r | _ => None end
               else Some tys);
  do (vs, s1) <- import_named (s_params sch) (n_kwargs n) s;
  let '(rs, s2) := emit (KTorch (s_op sch)) vs irtys s1 in
  let s3 := set_multi (n_name n :: s_multi s2) s2 in
  if none then do s4 <- bind (n_name n) 0 BNone s3; bind_results (n_name n) 1 rs s4
  else bind_results (n_name n) 0 rs s3.

(** TORCH_LIST_TYPES, l.2819-2821. *)
Definition is_list_ty (t : ty) : bool :=
  match t with
  | TyList e | TyListOpt e =>
      match e with
      | TyInt | TyFloat | TyStr | TyBool | TyTensor | TyVTensor => true | _ => false
      end
  | _ => false
  end.
(** _import_getitem, l.2454-2488. *)
Definition import_getitem (g : graph) (n : node) (s : st) : option st :=
  match n_args n with
  | [ANode r; ALit (LInt i)] =>
      if memb r (s_multi s) then
        if i <? 0 then None                      (* KeyError: keys are non-negative *)
        else do (v, s1) <- resolve r (Z.to_nat i) s; bind (n_name n) 0 (BVal v) s1
      else
        do s1 <- match sget (s_unpack s) r with
                 | Some _ => Some s
                 | None =>
                     do (v, s1) <- resolve r 0 s;
                     if is_list_ty (vty v) then
                       do tys <- obind (find_node g r) n_tys;
                       let '(rs, s2) := emit KListUnpack [v] tys s1 in
                       Some (set_unpack ((r, rs) :: s_unpack s2) s2)
                     else Some s1
                 end;
        do vs <- sget (s_unpack s1) r;
        do v <- pyidx vs i;
        bind (n_name n) 0 (BVal v) s1
  | _ => None
  end.

(** Operands of func.return, l.1638. *)
Fixpoint import_outs (l : list arg) (s : st) : option (list val * st) :=
  match l with
  | [] => Some ([], s)
  | a :: r => do (v, s1) <- import_arg None a s;
              do (vs, s2) <- import_outs r s1;
              Some (v :: vs, s2)
  end.

(** One iteration of import_nodes, l.1598-1641. [args]: remaining block arguments. *)
Definition import_node (g : graph) (skip_io : bool) (n : node) (args : list val) (s : st)
  : option (list val * option (list val) * st) :=
  match n_op n with
  | Placeholder =>
      if skip_io then Some (args, None, s)
      else match args with
           | [] => None
           | v :: r => do s1 <- bind (n_name n) 0 (BVal v) s; Some (r, None, s1)
           end
  | Call TGetitem => do s1 <- import_getitem g n s; Some (args, None, s1)
  | Call (TOverload sch) =>
      do c <- canonicalize n sch;
      match c with
      | None => Some (args, None, s)
      | Some (a, kw, sch') => do s1 <- import_call n a kw sch' s; Some (args, None, s1)
      end
  | Call (TConcrete sch) =>
      do s1 <- import_call n (n_args n) (n_kwargs n) sch s; Some (args, None, s1)
  | Call (TAuto sch) => do s1 <- import_auto n sch s; Some (args, None, s1)
  | Call TUnsupported => None
  | Output =>
      if skip_io then Some (args, None, s)
      else
        do out <- nth_error (n_args n) 0;
        let outs := match out with AList l | ATuple l => l | a => [a] end in
        do (vs, s1) <- import_outs outs s; Some (args, Some vs, s1)
  | GetAttr _ | OtherOp => Some (args, None, s)
  end.

(** import_nodes, l.1584-1643: nodes in order; the operands of func.return. *)
Fixpoint import_nodes (g : graph) (skip_io : bool) (ns : list node) (args : list val)
    (s : st) : option (option (list val) * st) :=
  match ns with
  | [] => Some (None, s)
  | n :: r =>
      do (args1, ret, s1) <- import_node g skip_io n args s;
      do (ret', s2) <- import_nodes g skip_io r args1 s1;
      Some (match ret' with Some _ => ret' | None => ret end, s2)
  end.

End WithGraph.

Definition g_attr (g : graph) (n : string) : option (option lit) :=
  match find_node g n with
  | Some x => match n_op x with GetAttr o => Some o | _ => None end
  | None => None
  end.
Definition g_scalar (g : graph) (n : string) : bool :=
  match find_node g n with Some x => n_scalar x | None => false end.

(** import_stateless_graph, l.1040-1091 (after rewrite_as_strided): block arguments typed
    by the placeholders, then import_nodes. *)
Definition placeholders (g : graph) : list node :=
  filter (fun n => match n_op n with Placeholder => true | _ => false end) g.
Definition empty_st (nargs : nat) : st := ST [] nargs [] [] [] [].
Definition import_stateless (registry : string -> option schema) (g : graph)
  : option (list op * option (list val)) :=
  do tys <- mapM n_ty (placeholders g);
  do (ret, s) <- import_nodes (g_attr g) (g_scalar g) registry g false g
                    (mkvals 0 tys) (empty_st (length tys));
  Some (s_ops s, ret).
