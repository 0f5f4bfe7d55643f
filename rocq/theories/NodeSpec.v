(** What graphs and their imports compute, for [NodeModel].  A world says what the operators, primitives, calls and literals do; loops run for at most [fuel] rounds, or have no result. *)
From Coq Require Import ZArith Bool String List.
From Verif Require Import Prelude DtypeModel TypesModel JitTypesModel JitTypesSpec NodeModel.
From Verif Require RegistryModel.
Import ListNotations.
Open Scope string_scope.
Open Scope list_scope.
Open Scope nat_scope.

Inductive literal := LNone | LBool (b : bool) | LInt (z : Z) | LFloat (d : Z) | LStr (s : string) | LTensor (dims : list Z) (element : mlir_type) (contents : Z) | LDevice (s : string) | LFunction (name : string) | LObject (x : nat).
(** What a constant of the graph is *)
Definition literal_of (c : constant) : option literal :=
  match c with
  | CNone => Some LNone | CBool b => Some (LBool b) | CInt z => Some (LInt z) | CFloat d => Some (LFloat d) | CStr s => Some (LStr s)
  | CTensor s dims contents => match stored s with Some r => Some (LTensor dims (literal_type r) contents) | None => None end
  | CDevice s => Some (LDevice s) | CFunction name _ _ => Some (LFunction name) | CObject x => Some (LObject x) | COther => None
  end.
(** What a constant of MLIR is *)
Definition literal_read (name : string) (a : attribute) : option literal :=
  match a with
  | NoAttr => if string_dec name "torch.constant.none" then Some LNone else None
  | BoolAttr b => if string_dec name "torch.constant.bool" then Some (LBool b) else None
  | IntAttr z => if string_dec name "torch.constant.int" then Some (LInt z) else None
  | FloatAttr d => if string_dec name "torch.constant.float" then Some (LFloat d) else None
  | StrAttr s => if string_dec name "torch.constant.str" then Some (LStr s) else if string_dec name "torch.constant.device" then Some (LDevice s) else None
  | DenseAttr dims t c => if in_dec string_dec name ["torch.vtensor.literal"; "torch.tensor.literal"] then Some (LTensor dims t c) else None
  | SymbolAttr s => if string_dec name "func.constant" then Some (LFunction s) else None
  | NameAttr _ => None
  end.
(** Primitives: with a name, or without *)
Definition primitives : list (string * prim) :=
  [("torch.prim.Enter", Enter); ("torch.prim.Exit", Exit); ("torch.prim.ListUnpack", ListUnpack); ("torch.prim.ListConstruct", ListConstruct); ("torch.prim.CreateObject", CreateObject);
   ("torch.prim.TupleConstruct", TupleConstruct); ("torch.prim.DictConstruct", DictConstruct)].
Definition named_primitives : list (string * prim) :=
  [("torch.prim.Load", Load); ("torch.prim.Store", Store); ("torch.prim.GetAttr", GetAttr); ("torch.prim.SetAttr", SetAttr)].
Definition prim_of (table : list (string * prim)) (name : string) : option prim := option_map snd (find (fun p => String.eqb (fst p) name) table).
Definition has_name (p : prim) : bool := match p with Load | Store | GetAttr | SetAttr => true | _ => false end.
(** The keys and the values of a dictionary, one after the other *)
Fixpoint interleave {A} (ks vs : list A) : option (list A) :=
  match ks, vs with [], [] => Some [] | k :: ks, v :: vs => do r <- interleave ks vs; Some (k :: v :: r) | _, _ => None end.
Definition entries {A} (l : list A) : option (list A) := interleave (firstn (Nat.div2 (List.length l)) l) (skipn (Nat.div2 (List.length l)) l).

Section Semantics.
Context {val mem : Type}.
Record world := {
  jit_operator : RegistryModel.text -> RegistryModel.text -> list val -> mem -> option (list val * mem);
  torch_operator : created -> list val -> mem -> option (list val * mem);
  primitive : prim -> string -> list val -> mem -> option (list val * mem);
  literal_value : literal -> val;
  method_call : string -> list val -> mem -> option (list val * mem);
  value_call : val -> list val -> mem -> option (list val * mem);
  promote : list val -> mem -> option (list val * mem);
  truth : val -> option bool; count : val -> option Z; index : Z -> val }.
Context (w : world) (fuel : nat).
Definition env := list (nat * val).
Definition get (e : env) (k : nat) : option val := option_map snd (find (fun p => fst p =? k) e).
Fixpoint gets (e : env) (l : list nat) : option (list val) :=
  match l with [] => Some [] | k :: r => do x <- get e k; do xs <- gets e r; Some (x :: xs) end.
Fixpoint bind (ks : list nat) (xs : list val) (e : env) : option env :=
  match ks, xs with [], [] => Some e | k :: ks, x :: xs => bind ks xs ((k, x) :: e) | _, _ => None end.
(** A loop: the body gets the index and the values, and yields whether to go on and the values *)
Fixpoint iterate (body : list val -> mem -> option (list val * mem)) (f : nat) (i max : Z) (cond : bool) (xs : list val) (m : mem) : option (list val * mem) :=
  if cond && (i <? max)%Z then
    match f with
    | 0 => None
    | S f => do (ys, m) <- body (index w i :: xs) m; match ys with c :: ys => do b <- truth w c; iterate body f (i + 1)%Z max b ys m | [] => None end
    end
  else Some (xs, m).
Definition loop (body : list val -> mem -> option (list val * mem)) (xs : list val) (m : mem) : option (list val * mem) :=
  match xs with max :: cond :: xs => do k <- count w max; do b <- truth w cond; iterate body fuel 0%Z k b xs m | _ => None end.
Definition conditional (then_ else_ : mem -> option (list val * mem)) (xs : list val) (m : mem) : option (list val * mem) :=
  match xs with [c] => do b <- truth w c; if b then then_ m else else_ m | _ => None end.
Definition store (ks : list nat) (e : env) (r : option (list val * mem)) : option (env * mem) :=
  do (ys, m) <- r; do e <- bind ks ys e; Some (e, m).

(** TorchScript *)
Fixpoint jit_node (n : node) (e : env) (m : mem) {struct n} : option (env * mem) :=
  match n with
  | NSchema name overload ins outs => do xs <- gets e ins; store (map fst outs) e (jit_operator w name overload xs m)
  | NPrim p name ins outs => do xs <- gets e ins; store (map fst outs) e (primitive w p (if has_name p then name else "") xs m)
  | NConstant c out => do l <- literal_of c; store [fst out] e (Some ([literal_value w l], m))
  | NLoop ins outs body => do xs <- gets e ins; store (map fst outs) e (loop (fun xs m => jit_block body xs e m) xs m)
  | NIf ins outs b b' => do xs <- gets e ins; store (map fst outs) e (conditional (fun m => jit_block b [] e m) (fun m => jit_block b' [] e m) xs m)
  | NCallMethod method _ _ ins outs => do xs <- gets e ins; store (map fst outs) e (method_call w method xs m)
  | NCallFunction function _ ins outs =>
      match ins with
      | callee :: ins =>
          do xs <- gets e ins;
          if string_dec function "__torch_mlir_internal_promote_dtypes" then store (map fst outs) e (promote w xs m)
          else do f <- get e callee; store (map fst outs) e (value_call w f xs m)
      | [] => None
      end
  | NUnknown => None
  end
with jit_block (b : block) (args : list val) (e : env) (m : mem) {struct b} : option (list val * mem) :=
  match b with
  | Block params nodes returns =>
      do e <- bind (map fst params) args e;
      do (e, m) <- (fix jit_nodes l e m : option (env * mem) := match l with [] => Some (e, m) | n :: r => do (e, m) <- jit_node n e m; jit_nodes r e m end) nodes e m;
      do ys <- gets e returns;
      Some (ys, m)
  end.
(** MLIR: operations without regions *)
Definition run_leaf (name : string) (a : attribute) (xs : list val) (m : mem) : option (list val * mem) :=
  match prim_of primitives name, prim_of named_primitives name, a with
  | Some DictConstruct, _, NoAttr => do l <- entries xs; primitive w DictConstruct "" l m
  | Some p, _, NoAttr => primitive w p "" xs m
  | None, Some p, NameAttr s => primitive w p s xs m
  | None, None, NameAttr s => if string_dec name "torch.prim.CallMethod" then method_call w s xs m else None
  | None, None, NoAttr =>
      if string_dec name "torch.promote_dtypes" then promote w xs m
      else if string_dec name "func.call_indirect" then match xs with f :: xs => value_call w f xs m | [] => None end
      else do l <- literal_read name a; match xs with [] => Some ([literal_value w l], m) | _ => None end
  | None, None, a => do l <- literal_read name a; match xs with [] => Some ([literal_value w l], m) | _ => None end
  | _, _, _ => None
  end.
Fixpoint run_op (o : mop) (e : env) (m : mem) {struct o} : option (env * mem) :=
  match o with
  | MOp c ins outs regions =>
      do xs <- gets e (map fst ins);
      store (map fst outs) e
        (match c, regions with
         | MSchema c, [] => torch_operator w c xs m
         | MObject x, [] => Some ([literal_value w (LObject x)], m)
         | MCast _, [] => Some (xs, m)
         | MNamed name NoAttr, [b] => if string_dec name "torch.prim.Loop" then loop (fun xs m => run_block b "torch.prim.Loop.condition" xs e m) xs m else None
         | MNamed name NoAttr, [b; b'] => if string_dec name "torch.prim.If" then conditional (fun m => run_block b "torch.prim.If.yield" [] e m) (fun m => run_block b' "torch.prim.If.yield" [] e m) xs m else None
         | MNamed name a, [] => run_leaf name a xs m
         | _, _ => None
         end)
  end
with run_block (b : mblock) (terminator : string) (args : list val) (e : env) (m : mem) {struct b} : option (list val * mem) :=
  match b with
  | MBlock params ops =>
      do e <- bind (map fst params) args e;
      (fix run l e m : option (list val * mem) :=
         match l with
         | [] => None
         | [MOp (MNamed name NoAttr) ins [] []] => if string_dec name terminator then do ys <- gets e (map fst ins); Some (ys, m) else None
         | o :: r => do (e, m) <- run_op o e m; run r e m
         end) ops e m
  end.
(** The operators of the dialect do what those of the schemas do. *)
Definition faithful (registered : RegistryModel.text -> bool) : Prop :=
  forall name overload c xs m, create_operation registered name overload = Some c -> torch_operator w c xs m = jit_operator w name overload xs m.
End Semantics.
Arguments world : clear implicits.

(** Types: the operands of a terminator *)
Definition yields (b : mblock) : list ty :=
  match b with MBlock _ body => match rev body with MOp _ ins _ _ :: _ => map snd ins | [] => [] end end.
(** Operations whose operands have the right types *)
Inductive typed_op : mop -> Prop :=
| typed_cast a v t : adjust (snd v) (snd t) false = Some a \/ adjust (snd v) (snd t) true = Some a -> a <> Same -> typed_op (MOp (MCast a) [v] [t] [])
| typed_loop max cond iters results b : map snd iters = map snd results -> yields b = Atom BoolA :: map snd results -> typed_block b -> typed_op (MOp (MNamed "torch.prim.Loop" NoAttr) (max :: cond :: iters) results [b])
| typed_if c results b b' : yields b = map snd results -> yields b' = map snd results -> typed_block b -> typed_block b' -> typed_op (MOp (MNamed "torch.prim.If" NoAttr) [c] results [b; b'])
| typed_leaf o ins results : (forall a, o <> MCast a) -> typed_op (MOp o ins results [])
with typed_block : mblock -> Prop :=
| typed_body args body : Forall typed_op body -> typed_block (MBlock args body).
(** Values that operations define, everywhere inside *)
Fixpoint defined (o : mop) : list value :=
  match o with MOp _ _ results regions => results ++ flat_map (fun b => match b with MBlock args body => args ++ flat_map defined body end) regions end.
Definition defined_in (b : mblock) : list value := match b with MBlock args body => args ++ flat_map defined body end.
(** Operands are values that are visible: defined before, or around *)
Inductive scoped_op (visible : list value) : mop -> Prop :=
| scoped o ins results regions : incl ins visible -> Forall (scoped_block visible) regions -> scoped_op visible (MOp o ins results regions)
with scoped_ops (visible : list value) : list mop -> Prop :=
| scoped_nil : scoped_ops visible []
| scoped_cons o ins results regions l : scoped_op visible (MOp o ins results regions) -> scoped_ops (results ++ visible) l -> scoped_ops visible (MOp o ins results regions :: l)
with scoped_block (visible : list value) : mblock -> Prop :=
| scoped_body args body : scoped_ops (args ++ visible) body -> scoped_block visible (MBlock args body).
(** The same of graphs *)
Definition outputs_of (n : node) : list nat :=
  match n with NSchema _ _ _ l | NPrim _ _ _ l | NLoop _ l _ | NIf _ l _ _ | NCallMethod _ _ _ _ l | NCallFunction _ _ _ l => map fst l | NConstant _ out => [fst out] | NUnknown => [] end.
Inductive scoped_node (visible : list nat) : node -> Prop :=
| scoped_schema name overload ins outs : incl ins visible -> scoped_node visible (NSchema name overload ins outs)
| scoped_prim p name ins outs : incl ins visible -> scoped_node visible (NPrim p name ins outs)
| scoped_constant c out : scoped_node visible (NConstant c out)
| scoped_loop ins outs b : incl ins visible -> scoped_graph visible b -> scoped_node visible (NLoop ins outs b)
| scoped_if ins outs b b' : incl ins visible -> scoped_graph visible b -> scoped_graph visible b' -> scoped_node visible (NIf ins outs b b')
| scoped_method m a r ins outs : incl ins visible -> scoped_node visible (NCallMethod m a r ins outs)
| scoped_function f p ins outs : incl ins visible -> scoped_node visible (NCallFunction f p ins outs)
| scoped_unknown : scoped_node visible NUnknown
with scoped_nodes (visible : list nat) : list node -> list nat -> Prop :=
| scoped_end returns : incl returns visible -> scoped_nodes visible [] returns
| scoped_next n l returns : scoped_node visible n -> scoped_nodes (outputs_of n ++ visible) l returns -> scoped_nodes visible (n :: l) returns
with scoped_graph (visible : list nat) : block -> Prop :=
| scoped_params params nodes returns : scoped_nodes (map fst params ++ visible) nodes returns -> scoped_graph visible (Block params nodes returns).

(** Which graphs can be imported.  A context has the type of the import of each value; [convertible] is when a type can be adjusted to another. *)
Definition convertible (t d : ty) : Prop := t = d \/ both_tensors t d = true \/ isValidSubtype t d = true \/ isValidSubtype d t = true.
Definition context := list (nat * ty).
Definition uses (g : context) : list nat -> list ty -> Prop := Forall2 (fun j t => In (j, t) g).
Inductive binds (g : context) (outs : list output) (types : list ty) : context -> Prop :=
| binds_new : List.length outs = List.length types -> NoDup (map fst outs) -> (forall j, In j (map fst outs) -> ~ In j (map fst g)) -> binds g outs types (rev (combine (map fst outs) types) ++ g).
Section Importable.
Context (opts : options) (registered : RegistryModel.text -> bool) (object_type : nat -> option ty).
Definition types_of (l : list jit) (ts : list ty) : Prop := types_from_values opts l = Some ts.
Inductive constant_type : constant -> ty -> Prop :=
| of_none : constant_type CNone (Atom NoneA) | of_bool b : constant_type (CBool b) (Atom BoolA) | of_int z : constant_type (CInt z) (Atom IntA) | of_float d : constant_type (CFloat d) (Atom FloatA)
| of_str s : constant_type (CStr s) (Atom StringA) | of_device s : constant_type (CDevice s) (Atom DeviceA)
| of_tensor s dims c r : s <> Short -> stored s = Some r -> constant_type (CTensor s dims c) (Tens (tensor (assume_value_semantics opts) (Some dims) (Some (literal_type r))))
| of_function name a r i o : function_type opts a r = Some (i, o) -> constant_type (CFunction name a r) (Atom AnyA)
| of_object x t : object_type x = Some t -> constant_type (CObject x) t.
Inductive importable_node (g : context) : node -> context -> Prop :=
| can_schema name overload ins outs ts us c g' : types_of (map snd outs) ts -> uses g ins us -> create_operation registered name overload = Some c -> binds g outs ts g' -> importable_node g (NSchema name overload ins outs) g'
| can_prim p name ins outs ts us g' : p <> TupleConstruct -> (p = DictConstruct -> Nat.Even (List.length ins)) -> types_of (map snd outs) ts -> uses g ins us -> binds g outs ts g' -> importable_node g (NPrim p name ins outs) g'
| can_tuple name ins j l cs t us g' : types_of l cs -> types_of [JTuple l] [t] -> uses g ins us -> Forall2 convertible us cs -> binds g [(j, JTuple l)] [t] g' -> importable_node g (NPrim TupleConstruct name ins [(j, JTuple l)]) g'
| can_constant c out t g' : constant_type c t -> binds g [out] [t] g' -> importable_node g (NConstant c out) g'
| can_loop mx cond iters outs b ts us vs g1 g' : types_of (map snd outs) ts -> uses g [mx; cond] us -> uses g iters vs -> Forall2 convertible vs ts -> binds g outs ts g1 -> importable_block g1 b None (Atom BoolA :: ts) g' -> importable_node g (NLoop (mx :: cond :: iters) outs b) g'
| can_if cond outs b b' ts u g1 g2 g' : types_of (map snd outs) ts -> In (cond, u) g -> binds g outs ts g1 -> importable_block g1 b None ts g2 -> importable_block g2 b' None ts g' -> importable_node g (NIf [cond] outs b b') g'
| can_method m a r ins outs i o ts us g' : function_type opts a r = Some (i, o) -> types_of (map snd outs) ts -> uses g ins us -> Forall2 convertible us i -> binds g outs ts g' -> importable_node g (NCallMethod m a r ins outs) g'
| can_function f ps callee ins outs cs ts us g' : types_of ps cs -> types_of (map snd outs) ts -> uses g ins us -> Forall2 convertible us cs -> f = "__torch_mlir_internal_promote_dtypes" \/ (exists u, In (callee, u) g) -> binds g outs ts g' -> importable_node g (NCallFunction f ps (callee :: ins) outs) g'
with importable_nodes (g : context) : list node -> context -> Prop :=
| can_end : importable_nodes g [] g
| can_next n l g1 g' : importable_node g n g1 -> importable_nodes g1 l g' -> importable_nodes g (n :: l) g'
with importable_block (g : context) : block -> option (list ty) -> list ty -> context -> Prop :=
| can_block params nodes returns arg_types ps ts ys g1 g' : types_of (map snd params) ps -> Forall2 convertible (match arg_types with Some l => l | None => ps end) ps -> binds g params ps g1 -> importable_nodes g1 nodes g' -> uses g' returns ys -> Forall2 convertible ys ts -> importable_block g (Block params nodes returns) arg_types ts g'.
End Importable.
