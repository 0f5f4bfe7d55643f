(** What an FX graph computes, and what the emitted function computes, independently of the importer. *)
From Coq Require Import ZArith Bool Ascii String List.
From Verif Require Import Prelude DtypeModel TypesModel DynFxModel.
Import ListNotations.
Open Scope string_scope.
Open Scope list_scope.
Open Scope Z_scope.

(** ** Values; tensors are opaque *)
Inductive value :=
| VTensor (t : Z) | VNone | VBool (b : bool) | VInt (z : Z) | VFloat (f : Z) | VStr (s : string)
| VDevice (kind : string) (index : option Z) | VList (l : list value) | VTuple (l : list value).
Definition single (v : value) : Prop := match v with VTuple _ => False | _ => True end.
(** A value agrees with what tracing recorded about a node. *)
Definition matches (m : option meta) (v : value) : Prop :=
  match m with
  | Some (MTensor _) => single v
  | Some (MList l) => exists vs, v = VTuple vs /\ length vs = length l /\ Forall single vs
  | _ => False
  end.

(** ** The FX graph, by name *)
Definition bindings := list (nat * value).
Definition value_of (b : bindings) (n : nat) : option value := option_map snd (find (fun p => (fst p =? n)%nat) b).
(** Codes of enumerations: ScalarType as in the compiler (DtypeModel.code); Layout as in TorchUpstream.h l.164. *)
Definition layout_code (l : layout) : option Z :=
  match l with Strided => Some 0 | SparseCoo => Some 1 | SparseCsr => Some 2 | _ => None end.
Definition mkldnn_code : Z := 3.
Definition memory_format_code (m : memory_format) : Z :=
  match m with Contiguous => 0 | Preserve => 1 | ChannelsLast => 2 | ChannelsLast3d => 3 end.
Inductive means (b : bindings) : arg -> value -> Prop :=
| m_node n v : value_of b n = Some v -> means b (ANode n) v
| m_none : means b ANone VNone
| m_bool x : means b (ABool x) (VBool x)
| m_int z : means b (AInt z) (VInt z)
| m_float f : means b (AFloat f) (VFloat f)
| m_str s : means b (AStr s) (VStr s)
| m_dtype d : means b (ADtype d) (VInt (code d))
| m_device k i : means b (ADevice k i) (VDevice k i)
| m_memory_format m : means b (AMemoryFormat m) (VInt (memory_format_code m))
| m_layout l c : layout_code l = Some c -> means b (ALayout l) (VInt c)
| m_list l vs : Forall2 (means b) l vs -> means b (AList l) (VList vs).
(** Python's calling convention: by keyword, else by position, else the default. *)
Definition actual (n : node) (i : nat) (p : param) : option arg :=
  match find (fun k => String.eqb (fst k) (p_name p)) (n_kwargs n) with
  | Some k => Some (snd k)
  | None => match nth_error (n_args n) i with Some a => Some a | None => p_default p end
  end.
Section FX.
  (** [call]: an operator overload by qualified name and overload name; [index]: indexing something that is no tuple. *)
  Variable call : string -> string -> list value -> option value.
  Variable index : value -> Z -> option value.
  Inductive runs : list node -> list value -> bindings -> list value -> Prop :=
  | r_placeholder n g x xs b out :
      n_op n = Placeholder -> single x -> runs g xs ((n_id n, x) :: b) out -> runs (n :: g) (x :: xs) b out
  | r_call n sc g xs b args vs v out :
      n_op n = CallOverload sc ->
      (forall i p, nth_error (s_params sc) i = Some p -> exists a, nth_error args i = Some a /\ actual n i p = Some a) ->
      length args = length (s_params sc) ->
      Forall2 (means b) args vs -> call (s_name sc) (s_overload sc) vs = Some v -> matches (n_meta n) v ->
      runs g xs ((n_id n, v) :: b) out -> runs (n :: g) xs b out
  | r_getitem_tuple n g xs b m i rest vs v out :
      n_op n = CallGetitem -> n_args n = ANode m :: AInt i :: rest -> value_of b m = Some (VTuple vs) -> pyidx vs i = Some v ->
      matches (n_meta n) v -> runs g xs ((n_id n, v) :: b) out -> runs (n :: g) xs b out
  | r_getitem n g xs b m i rest w v out :
      n_op n = CallGetitem -> n_args n = ANode m :: AInt i :: rest -> value_of b m = Some w -> single w -> index w i = Some v ->
      matches (n_meta n) v -> runs g xs ((n_id n, v) :: b) out -> runs (n :: g) xs b out
  | r_output n l rest b out :
      n_op n = Output -> n_args n = ATuple l :: rest \/ n_args n = AList l :: rest -> Forall2 (means b) l out -> runs [n] [] b out.
End FX.

(** ** The emitted function *)
Section IR.
  (** [sem]: an operation of the torch dialect by name. *)
  Variable sem : string -> list value -> option value.
  (** Operations return tuples as several results. *)
  Definition components (v : value) : list value := match v with VTuple l => l | _ => [v] end.
  Definition results (k : kind) (xs : list value) : option (list value) :=
    match k with
    | KNone => Some [VNone] | KBool b => Some [VBool b] | KInt z => Some [VInt z] | KFloat f => Some [VFloat f]
    | KStr s => Some [VStr s] | KDevice s => Some [VDevice s None] | KList => Some [VList xs]
    | KTorch n => option_map components (sem n xs)
    end.
  Fixpoint exec (l : list op) (vals : list value) : option (list value) :=
    match l with
    | [] => Some vals
    | o :: r =>
        do xs <- mapM (nth_error vals) (o_operands o);
        do rs <- results (o_kind o) xs;
        assert (length rs =? length (o_types o))%nat;
        exec r (vals ++ rs)
    end.
  (** A block has one terminator. *)
  Definition invoke (f : func) (xs : list value) : option (list value) :=
    assert (length xs =? length (f_inputs f))%nat;
    do vals <- exec (f_ops f) xs;
    match f_returns f with [ids] => mapM (nth_error vals) ids | _ => None end.
End IR.

(** ** Graphs the importer is made for *)
(** Keyword arguments are only given for keyword-only parameters. *)
Definition keywords_ok (n : node) : Prop :=
  forall sc k, n_op n = CallOverload sc -> In k (n_kwargs n) ->
  forall p, In p (s_params sc) -> p_name p = fst k -> p_kwarg_only p = true.
(** Nodes that are used as arguments have one value; getitem is applied to nodes with several. *)
Inductive uses (P : nat -> Prop) (Q : arg -> Prop) : arg -> Prop :=
| u_node n : P n -> uses P Q (ANode n)
| u_list l : Forall (uses P Q) l -> uses P Q (AList l)
| u_other a : (forall n, a <> ANode n) -> (forall l, a <> AList l) -> Q a -> uses P Q a.
(** Enumerations that have a code, devices without an index. *)
Definition plain (a : arg) : Prop :=
  match a with ADevice _ (Some _) => False | ALayout l => layout_code l <> None | _ => True end.
Definition tensor_node (g : list node) (n : nat) : Prop := exists f, meta_of g n = Some (MTensor f).
Definition tuple_node (g : list node) (n : nat) : Prop := exists l, meta_of g n = Some (MList l).
Definition ordinary_node (g : list node) (n : node) : Prop :=
  keywords_ok n /\
  match n_op n with
  | Placeholder => tensor_node g (n_id n)
  | CallOverload sc => forall i p a, nth_error (s_params sc) i = Some p -> actual n i p = Some a -> uses (tensor_node g) plain a
  | CallGetitem => tensor_node g (n_id n) /\ forall m i rest, n_args n = ANode m :: AInt i :: rest -> tuple_node g m
  | Output => forall l, output_args n = Some l -> Forall (uses (tensor_node g) plain) l
  | _ => True
  end.
Definition ordinary_graph (g : list node) : Prop := NoDup (map n_id g) /\ Forall (ordinary_node g) g.

(** ** Types *)
(** The JIT types that have a counterpart in the dialect, and their counterparts. *)
Inductive counterpart : jt -> ty -> Prop :=
| c_bool : counterpart JBool (Atom BoolA)
| c_int : counterpart JInt (Atom IntA)
| c_float : counterpart JFloat (Atom FloatA)
| c_tensor : counterpart JTensor (Tens {| value_semantics := true; sizes := None; elt := None; sparsity := None |})
| c_list t u : counterpart t u -> counterpart (JList t) (List_ u)
| c_optional t u : counterpart t u -> counterpart (JOptional t) (Optional u).
(** ** Literals that can be imported *)
Inductive optional_of (t : jt) : jt -> Prop :=
| o_here : optional_of t t
| o_more u : optional_of t u -> optional_of t (JOptional u).
(** Elements of lists of anything but tensors. *)
Definition element (bound : nat -> Prop) (a : arg) : Prop :=
  match a with
  | ANode n => bound n
  | ANone | ABool _ | AInt _ | AFloat _ | AStr _ | ADevice _ _ => True
  | _ => False
  end.
Definition coded (d : scalar_type) : Prop :=
  In d [Byte; Char; Short; Int; Long; Half; Float; Double; ComplexFloat; ComplexDouble; Bool; QInt8; QUInt8; BFloat16].
Inductive importable (bound : nat -> Prop) (t : jt) : arg -> Prop :=
| i_node n : bound n -> importable bound t (ANode n)
| i_none : importable bound t ANone
| i_bool b : importable bound t (ABool b)
| i_int z : importable bound t (AInt z)
| i_float f : importable bound t (AFloat f)
| i_str s : importable bound t (AStr s)
| i_device k i : importable bound t (ADevice k i)
| i_dtype d : optional_of JInt t -> coded d -> importable bound t (ADtype d)
| i_memory_format m : optional_of JInt t -> importable bound t (AMemoryFormat m)
| i_layout l : optional_of JInt t -> importable bound t (ALayout l)
| i_tensors l : optional_of (JList JTensor) t -> Forall (fun a => exists n, a = ANode n /\ bound n) l -> importable bound t (AList l)
| i_list u c l : optional_of (JList u) t -> u <> JTensor -> counterpart u c -> Forall (element bound) l -> importable bound t (AList l).
(** Qualified names of operators. *)
Definition no_colon (s : string) : Prop := ~ In ":"%char (list_ascii_of_string s).
Definition dialect_name (ns base overload : string) : string :=
  ("torch." ++ ns ++ "." ++ base ++ (if String.eqb overload "" then "" else "." ++ overload))%string.
Definition qualified (s : schema) : Prop := exists ns base, s_name s = (ns ++ "::" ++ base)%string /\ no_colon ns.
(** Sizes and dtypes that can be written down. *)
Definition writable (f : fake) : Prop := Forall (fun d => 0 <= d) (fst f) /\ coded (snd f).
(** ** Graphs of the supported subset *)
Definition fakes (m : option meta) : list fake := match m with Some (MTensor f) => [f] | Some (MList l) => l | _ => [] end.
Definition traced (n : node) : Prop := exists m, n_meta n = Some m /\ m <> MOther.
Definition conforms (n : node) : Prop :=
  match n_op n with
  | Placeholder | CallGetitem => traced n
  | CallOverload sc =>
      traced n /\ Forall (eq JTensor) (s_returns sc) /\ (length (n_args n) <= length (s_params sc))%nat /\
      forall i p, (length (n_args n) <= i)%nat -> nth_error (s_params sc) i = Some p -> p_default p <> None \/ In (p_name p) (map fst (n_kwargs n))
  | Output => True
  | CallOther | OtherOp => False
  end.
(** What it takes to import a graph: every node is ready when its turn comes. [seen]: the nodes before it. *)
Definition ready (registered : string -> bool) (g seen : list node) (n : node) : Prop :=
  let bound := fun i => In i (map n_id seen) /\ tensor_node g i in
  match n_op n with
  | Placeholder => Forall writable (fakes (n_meta n)) /\ tensor_node g (n_id n)
  | CallOverload sc =>
      registered (mlir_op_name sc) = true /\ Forall writable (fakes (n_meta n)) /\ keywords_ok n /\
      forall i p, nth_error (s_params sc) i = Some p -> exists a, actual n i p = Some a /\ importable bound (p_type p) a
  | CallGetitem =>
      Forall writable (fakes (n_meta n)) /\ tensor_node g (n_id n) /\
      exists m i rest l, n_args n = ANode m :: AInt i :: rest /\ In m (map n_id seen) /\ meta_of g m = Some (MList l) /\ 0 <= i < zlen l
  | Output => exists l rest, (n_args n = AList l :: rest \/ n_args n = ATuple l :: rest) /\ Forall (fun a => exists i, a = ANode i /\ bound i) l
  | _ => False
  end.
(** The type of a tensor as traced. *)
Definition tensor_type (f : fake) (t : ty) : Prop :=
  exists d, getTypeForScalarType (snd f) = Some d /\ t = Tens {| value_semantics := true; sizes := Some (fst f); elt := Some (Builtin d); sparsity := None |}.
Definition first_fake (m : option meta) (f : fake) : Prop := exists r, fakes m = f :: r.
