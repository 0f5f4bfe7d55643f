(** Model of the TorchDynamo importer, projects/pt1/python/torch_mlir/_dynamo_fx_importer.py (below: dfi).
    A raised exception is [None]. Simplifications: locations (l.226-235) are dropped; FX nodes are numbers; the text of
    types is modelled as the tokens of TypesModel, read back with its parser (ir.Type.parse); floats are bit patterns;
    sizes are concrete integers; a list and a tuple of fake tensors are the same. *)
From Coq Require Import ZArith Bool Ascii String List.
From Verif Require Import Prelude DtypeModel TypesModel.
Import ListNotations.
Open Scope string_scope.
Open Scope list_scope.
Open Scope Z_scope.

(** JIT types tested by the importer, dfi l.98-119; [JOther]: any other class. *)
Inductive jt := JList (e : jt) | JBool | JInt | JFloat | JString | JTensor | JOptional (e : jt) | JNumber | JOther.
(** torch.memory_format and torch.layout, dfi l.204-220. *)
Inductive memory_format := Contiguous | Preserve | ChannelsLast | ChannelsLast3d.
Inductive layout := Strided | SparseCoo | SparseCsr | SparseCsc | SparseBsr | SparseBsc.
(** fx.node.Argument. *)
Inductive arg :=
| ANode (n : nat) | ANone | ABool (b : bool) | AInt (z : Z) | AFloat (f : Z) | AStr (s : string) | ADtype (d : scalar_type)
| ADevice (kind : string) (index : option Z) | AMemoryFormat (m : memory_format) | ALayout (l : layout)
| AList (l : list arg) | ATuple (l : list arg) | AOther.
(** Fake tensors and node.meta["val"]; [MOther]: present but neither a fake tensor nor a list of them. *)
Definition fake := (list Z * scalar_type)%type.
Inductive meta := MTensor (f : fake) | MList (l : list fake) | MOther.
(** torch.FunctionSchema. [p_default]: default_value if has_default_value(). *)
Record param := { p_name : string; p_type : jt; p_kwarg_only : bool; p_default : option arg }.
Record schema := { s_name : string; s_overload : string; s_params : list param; s_returns : list jt }.
Inductive opcode := Placeholder | CallOverload (s : schema) | CallGetitem | CallOther | Output | OtherOp.
Record node := { n_id : nat; n_op : opcode; n_args : list arg; n_kwargs : list (string * arg); n_meta : option meta }.

(** ** Verification of the subset *)
(** _is_valid_meta_val, dfi l.37-46, and _check_meta_val, l.51-57. *)
Definition is_valid_meta_val (m : option meta) : bool :=
  match m with Some (MTensor _) | Some (MList _) => true | _ => false end.
Definition has_kwarg (k : string) (l : list (string * arg)) : bool := existsb (fun p => String.eqb (fst p) k) l.
(** The checks of an operator overload, dfi l.69-87. *)
Definition check_overload (n : node) (s : schema) : bool :=
  forallb (fun t => match t with JTensor => true | _ => false end) (s_returns s) &&
  ((length (n_args n) =? length (s_params s))%nat ||
   ((length (n_args n) <? length (s_params s))%nat &&
    forallb (fun p => match p_default p with Some _ => true | None => has_kwarg (p_name p) (n_kwargs n) end)
            (skipn (length (n_args n)) (s_params s)))).
(** _verify_fx_graph_conforms_to_subset, dfi l.49-90. *)
Definition verify_node (n : node) : bool :=
  match n_op n with
  | Placeholder => is_valid_meta_val (n_meta n)
  | CallOverload s => is_valid_meta_val (n_meta n) && check_overload n s
  | CallGetitem => is_valid_meta_val (n_meta n)
  | Output => true
  | CallOther | OtherOp => false
  end.
Definition verify_graph (g : list node) : bool := forallb verify_node g.

(** ** Types *)
(** ir.Type.parse of a torch type: the whole text must be read. *)
Definition any_encoding (_ : encoding) (_ : list Z) (_ : dtype) : bool := true.
Definition parse_type (l : list token) : option ty :=
  match parse any_encoding (length l) l with Some (t, []) => Some t | _ => None end.
(** _torch_type_to_mlir_type_string, dfi l.98-119. *)
Fixpoint type_string (t : jt) : option (list token) :=
  match t with
  | JList e => do s <- type_string e; Some ([Word "list"; Less] ++ s ++ [Greater])
  | JBool => Some [Word "bool"]
  | JInt => Some [Word "int"]
  | JFloat => Some [Word "float"]
  | JString => Some [Word "string"]
  | JTensor => Some [Word "vtensor"]
  | JOptional e => do s <- type_string e; Some ([Word "optional"; Less] ++ s ++ [Greater])
  | JNumber | JOther => None
  end.
(** _torch_type_to_mlir_type, dfi l.122-123. *)
Definition torch_type_to_mlir_type (t : jt) : option ty := do s <- type_string t; parse_type s.
(** _convert_dtype_to_mlir_type, dfi l.126-157. *)
Definition convert_dtype (d : scalar_type) : option mlir_type :=
  match d with
  | Half => Some (FloatT F16) | BFloat16 => Some (FloatT BF16) | Float => Some (FloatT F32) | Double => Some (FloatT F64)
  | Byte => Some (IntT 8 Unsigned) | Char => Some (IntT 8 Signed) | Short => Some (IntT 16 Signed)
  | Int => Some (IntT 32 Signed) | Long => Some (IntT 64 Signed) | Bool => Some (IntT 1 Signless)
  | QInt8 => Some QInt8T | QUInt8 => Some QUInt8T
  | ComplexFloat => Some (ComplexT (FloatT F32)) | ComplexDouble => Some (ComplexT (FloatT F64))
  | _ => None
  end.
(** _import_fake_tensor_as_mlir_type, dfi l.160-166. *)
Fixpoint join_sizes (l : list Z) : list token :=
  match l with [] => [] | [d] => [Int_ d] | d :: r => Int_ d :: Comma :: join_sizes r end.
Definition import_fake_tensor (f : fake) : option ty :=
  do t <- convert_dtype (snd f);
  parse_type ([Word "vtensor"; Less; LSquare] ++ join_sizes (fst f) ++ [RSquare; Comma; Type_ (Builtin t); Greater]).
(** _mlir_types_for_node, dfi l.169-172; a missing meta["val"] is a KeyError. *)
Definition types_for_node (m : option meta) : option (list ty) :=
  match m with
  | Some (MList l) => mapM import_fake_tensor l
  | Some (MTensor f) => do t <- import_fake_tensor f; Some [t]
  | _ => None
  end.
Definition first_type (m : option meta) : option ty := do l <- types_for_node m; hd_error l.
(** _extract_function_type_from_graph, dfi l.175-189; an argument that is no node is no type (FunctionType.get raises). *)
Definition meta_of (g : list node) (i : nat) : option meta :=
  do n <- find (fun n => (n_id n =? i)%nat) g; n_meta n.
Definition input_types (g : list node) : option (list ty) :=
  mapM (fun n => first_type (n_meta n)) (filter (fun n => match n_op n with Placeholder => true | _ => false end) g).
Definition output_args (n : node) : option (list arg) :=
  match n_args n with (AList l | ATuple l) :: _ => Some l | _ => None end.
Definition result_types_of (g : list node) (n : node) : option (list ty) :=
  do l <- output_args n; mapM (fun a => match a with ANode i => first_type (meta_of g i) | _ => None end) l.
Fixpoint result_types (g g' : list node) (last : option (list ty)) : option (list ty) :=
  match g' with
  | [] => last
  | n :: r =>
      match n_op n with
      | Output => do t <- result_types_of g n; result_types g r (Some t)
      | _ => result_types g r last
      end
  end.

(** ** Emitted operations *)
(** DTYPE_TO_INT, MEMORY_FORMAT_TO_INT, LAYOUT_TO_INT, dfi l.196-220; a missing key is a KeyError. *)
Definition DTYPE_TO_INT (d : scalar_type) : option Z :=
  match d with
  | Byte => Some 0 | Char => Some 1 | Short => Some 2 | Int => Some 3 | Long => Some 4 | Half => Some 5 | Float => Some 6
  | Double => Some 7 | ComplexFloat => Some 9 | ComplexDouble => Some 10 | Bool => Some 11 | QInt8 => Some 12
  | QUInt8 => Some 13 | BFloat16 => Some 15
  | _ => None
  end.
Definition MEMORY_FORMAT_TO_INT (m : memory_format) : Z :=
  match m with Contiguous => 0 | Preserve => 1 | ChannelsLast => 2 | ChannelsLast3d => 3 end.
Definition LAYOUT_TO_INT (l : layout) : Z :=
  match l with Strided => 0 | SparseCoo => 1 | SparseCsr => 2 | SparseCsc => 3 | SparseBsr => 4 | SparseBsc => 5 end.
(** Operations: values are numbered in order of definition, the block arguments first. *)
Inductive kind :=
| KNone | KBool (b : bool) | KInt (z : Z) | KFloat (f : Z) | KStr (s : string) | KDevice (s : string)
| KList | KTorch (name : string).
Record op := { o_kind : kind; o_operands : list nat; o_types : list ty }.
Record st := { s_ops : list op; s_next : nat }.
Definition emit (k : kind) (xs : list nat) (ts : list ty) (s : st) : list nat * st :=
  (seq (s_next s) (length ts),
   {| s_ops := s_ops s ++ [{| o_kind := k; o_operands := xs; o_types := ts |}]; s_next := s_next s + length ts |}).
Definition emit1 (k : kind) (xs : list nat) (t : ty) (s : st) : nat * st :=
  (s_next s, snd (emit k xs [t] s)).
(** self._env, dfi l.249. *)
Definition env := list ((nat * Z) * nat).
Definition get (e : env) (n : nat) (i : Z) : option nat :=
  option_map snd (find (fun p => (fst (fst p) =? n)%nat && (snd (fst p) =? i)) e).

(** ** Arguments *)
(** The expected type: a JIT type, or (for list elements, dfi l.392) an MLIR type, which is no instance of any JIT class. *)
Inductive expected := EJit (t : jt) | EMlir (t : ty).
(** Optional types are unwrapped by the recursive call of dfi l.354-355. *)
Fixpoint unwrap (t : jt) : jt := match t with JOptional e => unwrap e | _ => t end.
Definition is_int (e : expected) : bool := match e with EJit t => match unwrap t with JInt => true | _ => false end | _ => false end.
Definition list_element (e : expected) : option jt :=
  match e with EJit t => match unwrap t with JList u => Some u | _ => None end | _ => None end.
Definition tensor_element (g : list node) (e : env) (a : arg) : option nat :=
  match a with ANode n => assert is_valid_meta_val (meta_of g n); get e n 0 | _ => None end.
(** _import_argument and _import_literal, dfi l.330-404. *)
Section Import.
  Variables (g : list node) (e : env).
  Fixpoint import_argument (a : arg) (ex : option expected) (s : st) {struct a} : option (nat * st) :=
    match a with
    | ANode n => do v <- get e n 0; Some (v, s)
    | _ =>
        do ex <- ex;
        match a with
        | ANode _ => None
        | ANone => Some (emit1 KNone [] (Atom NoneA) s)
        | ABool b => Some (emit1 (KBool b) [] (Atom BoolA) s)
        | AInt z => Some (emit1 (KInt z) [] (Atom IntA) s)
        | AFloat f => Some (emit1 (KFloat f) [] (Atom FloatA) s)
        | AStr w => Some (emit1 (KStr w) [] (Atom StringA) s)
        | ADtype d => assert is_int ex; do z <- DTYPE_TO_INT d; Some (emit1 (KInt z) [] (Atom IntA) s)
        | ADevice k _ => Some (emit1 (KDevice k) [] (Atom DeviceA) s)
        | AMemoryFormat m => assert is_int ex; Some (emit1 (KInt (MEMORY_FORMAT_TO_INT m)) [] (Atom IntA) s)
        | ALayout l => assert is_int ex; Some (emit1 (KInt (LAYOUT_TO_INT l)) [] (Atom IntA) s)
        | AList l =>
            do t <- list_element ex;
            do (els, s') <- (match t with
                             | JTensor => do els <- mapM (tensor_element g e) l; Some (els, s)
                             | _ =>
                                 do u <- torch_type_to_mlir_type t;
                                 (fix go l s := match l with
                                  | [] => Some ([], s)
                                  | b :: r => do (v, s) <- import_argument b (Some (EMlir u)) s; do (vs, s) <- go r s; Some (v :: vs, s)
                                  end) l s
                             end);
            do u <- torch_type_to_mlir_type (JList t);
            Some (emit1 KList els u s')
        | ATuple _ | AOther => None
        end
    end.
  Fixpoint import_arguments (l : list (arg * option expected)) (s : st) : option (list nat * st) :=
    match l with
    | [] => Some ([], s)
    | (a, ex) :: r => do (v, s) <- import_argument a ex s; do (vs, s) <- import_arguments r s; Some (v :: vs, s)
    end.
End Import.

(** ** Nodes *)
(** str.partition("::"), dfi l.294. *)
Fixpoint partition (s : string) : string * string :=
  match s with
  | String ":"%char (String ":"%char r) => ("", r)
  | String c r => let '(a, b) := partition r in (String c a, b)
  | EmptyString => ("", "")
  end.
(** dfi l.293-297. *)
Definition mlir_op_name (s : schema) : string :=
  let '(ns, name) := partition (s_name s) in
  let base := ("torch." ++ ns ++ "." ++ name)%string in
  if String.eqb (s_overload s) "" then base else (base ++ "." ++ s_overload s)%string.
Definition find_kwarg (k : string) (l : list (string * arg)) : option arg :=
  option_map snd (find (fun p => String.eqb (fst p) k) l).
(** The operands, dfi l.310-318; the default_value of a parameter without one is None. *)
Definition operand_for (n : node) (i : nat) (p : param) : arg :=
  match (if p_kwarg_only p then find_kwarg (p_name p) (n_kwargs n) else None) with
  | Some a => a
  | None => match nth_error (n_args n) i with
            | Some a => a
            | None => match p_default p with Some a => a | None => ANone end
            end
  end.
Fixpoint operands_for (n : node) (i : nat) (ps : list param) : list (arg * option expected) :=
  match ps with [] => [] | p :: r => (operand_for n i p, Some (EJit (p_type p))) :: operands_for n (S i) r end.
Fixpoint number (i : Z) (n : nat) (vs : list nat) : env :=
  match vs with [] => [] | v :: r => ((n, i), v) :: number (i + 1) n r end.
(** _import_op_overload_call, dfi l.286-326. *)
Definition import_op_overload_call (registered : string -> bool) (g : list node) (n : node) (sc : schema) (s : st) (e : env) : option (st * env) :=
  assert registered (mlir_op_name sc);
  do ts <- types_for_node (n_meta n);
  do (xs, s) <- import_arguments g e (operands_for n 0 (s_params sc)) s;
  let '(vs, s) := emit (KTorch (mlir_op_name sc)) xs ts s in
  Some (s, number 0 (n_id n) vs ++ e).
(** One turn of the loop of import_graph, dfi l.266-283. *)
Record state := { i_st : st; i_env : env; i_seen : nat; i_returns : list (list nat) }.
Definition import_node (registered : string -> bool) (g : list node) (num_args : nat) (x : state) (n : node) : option state :=
  match n_op n with
  | Placeholder =>
      assert (i_seen x <? num_args)%nat;
      Some {| i_st := i_st x; i_env := ((n_id n, 0), i_seen x) :: i_env x; i_seen := S (i_seen x); i_returns := i_returns x |}
  | CallGetitem =>
      match n_args n with
      | ANode b :: AInt i :: _ =>
          do v <- get (i_env x) b i;
          Some {| i_st := i_st x; i_env := ((n_id n, 0), v) :: i_env x; i_seen := i_seen x; i_returns := i_returns x |}
      | _ => None
      end
  | CallOverload sc =>
      do (s, e) <- import_op_overload_call registered g n sc (i_st x) (i_env x);
      Some {| i_st := s; i_env := e; i_seen := i_seen x; i_returns := i_returns x |}
  | CallOther => None
  | Output =>
      do l <- output_args n;
      do (vs, s) <- import_arguments g (i_env x) (map (fun a => (a, None)) l) (i_st x);
      Some {| i_st := s; i_env := i_env x; i_seen := i_seen x; i_returns := i_returns x ++ [vs] |}
  | OtherOp => Some x
  end.
(** import_fx_graph_as_func, dfi l.407-424, with _FXGraphImporter.__init__ and import_graph, l.239-284. *)
Record func := { f_name : string; f_inputs : list ty; f_results : list ty; f_ops : list op; f_returns : list (list nat) }.
Definition import_fx_graph_as_func (registered : string -> bool) (g : list node) (func_name : string) : option func :=
  assert verify_graph g;
  do ins <- input_types g;
  do outs <- result_types g g None;
  do x <- foldM (import_node registered g (length ins)) g
            {| i_st := {| s_ops := []; s_next := length ins |}; i_env := []; i_seen := 0; i_returns := [] |};
  Some {| f_name := func_name; f_inputs := ins; f_results := outs; f_ops := s_ops (i_st x); f_returns := i_returns x |}.
