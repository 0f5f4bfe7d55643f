(** Smaller parts of the FX importer: symbolic scalar operators, while loops, identity tracking, type dispatch,
    sparse encodings, function names and the tensor type cache.

    Source under /repo: fx = python/torch_mlir/extras/fx_importer.py. *)
From Coq Require Import ZArith Bool DecimalString Ascii String List.
From Verif Require Import Prelude.
Import ListNotations.
Open Scope string_scope.
Open Scope list_scope.
Open Scope Z_scope.

(** * Symbolic scalar operators, fx l.1645-1722 *)
(** Keys of PY_BUILTIN_TO_TORCH_OP, fx l.285-299. *)
Inductive pyop := truediv | mul | add | sub | lt | le | ge | ne | gt | mod_ | eq | floordiv | neg.
(** The torch operator each is mapped to. *)
Inductive torch_op := aten_div | aten_mul | aten_add | aten_sub | aten_lt | aten_le | aten_ge | aten_ne | aten_gt | aten_fmod | aten_eq
| aten_floordiv | aten_neg.
Definition PY_BUILTIN_TO_TORCH_OP (o : pyop) : torch_op :=
  match o with
  | truediv => aten_div | mul => aten_mul | add => aten_add | sub => aten_sub | lt => aten_lt | le => aten_le | ge => aten_ge
  | ne => aten_ne | gt => aten_gt | mod_ => aten_fmod | eq => aten_eq | floordiv => aten_floordiv | neg => aten_neg
  end.
Inductive overload := ov_int | ov_float | ov_float_int.
Inductive pytype := PyInt | PyFloat | PyBool.
Section Scalars.
  (** [F] are the floats and [of_int] is [float()]. *)
  Context {F : Type} (of_int : Z -> F).
  (** An argument is a node with its Python type, or a literal. *)
  Inductive sarg := SNode (n : Z) (t : pytype) | SInt (z : Z) | SFloat (f : F) | SBool (b : bool)
  | SPromoted (n : Z). (** the temporary node aten.Float.Scalar(n), fx l.1645-1658 *)
  Definition arg_type (a : sarg) : pytype :=
    match a with SNode _ t => t | SInt _ => PyInt | SFloat _ => PyFloat | SBool _ => PyBool | SPromoted _ => PyFloat end.
  Definition is_int (t : pytype) : bool := match t with PyInt => true | _ => false end.
  Definition is_float (t : pytype) : bool := match t with PyFloat => true | _ => false end.
  (** [target.__name__ in (...)], fx l.1681 *)
  Definition has_float_int (o : pyop) : bool := match o with add | lt | ge | ne | gt => true | _ => false end.
  Definition promote (a : sarg) : sarg :=
    match a with SNode n _ => SPromoted n | SInt z => SFloat (of_int z) | _ => a end.
  (** fx l.1668-1722: the operator, its overload and its arguments. *)
  Definition import_symbolic (o : pyop) (args : list sarg) : option (torch_op * overload * list sarg) :=
    let ints := map (fun a => is_int (arg_type a)) args in
    if forallb (fun b => b) ints then Some (PY_BUILTIN_TO_TORCH_OP o, ov_int, args)
    else if existsb (fun b => b) ints then
      if has_float_int o then
        do a1 <- nth_error args 1;
        do a0 <- nth_error args 0;
        Some (PY_BUILTIN_TO_TORCH_OP o, ov_float_int, if is_float (arg_type a1) then [a1; a0] else args)
      else
        match args with
        | [a0; a1] =>
            if is_int (arg_type a0) then Some (PY_BUILTIN_TO_TORCH_OP o, ov_float, [promote a0; a1])
            else Some (PY_BUILTIN_TO_TORCH_OP o, ov_float, [a0; promote a1])
        | _ => None
        end
    else Some (PY_BUILTIN_TO_TORCH_OP o, ov_float, args).
End Scalars.

(** * While loops, fx l.1742-1876 *)
Definition int64_max : Z := 2 ^ 63 - 1.
Inductive warg (V : Type) := WTuple (l : list V) | WValue (v : V).
Arguments WTuple {V}. Arguments WValue {V}.
(** The metadata of the node: a tensor, or a tuple of that many tensors. *)
Inductive node_val := ValTensor | ValTuple (n : nat).
(** What is emitted: the initial call of the condition, the loop, and the two calls in its body. Operands of the
    calls in the body are indices of block arguments or of results of the call of the body. *)
Record loop_ir (V : Type) := {
  initial_callee : string; initial_operands : list V;
  max_iterations : Z; loop_operands : list V; result_count : nat; block_args : nat;
  body_callee : string; body_operands : list nat; body_results : nat;
  cond_callee : string; cond_operands : list nat; yielded : list nat }.
Arguments initial_callee {V}. Arguments initial_operands {V}. Arguments max_iterations {V}. Arguments loop_operands {V}. Arguments result_count {V}.
Arguments block_args {V}. Arguments body_callee {V}. Arguments body_operands {V}. Arguments body_results {V}. Arguments cond_callee {V}.
Arguments cond_operands {V}. Arguments yielded {V}.
Definition flatten_carries {V} (carries : list (warg V)) : list V :=
  flat_map (fun c => match c with WTuple l => l | WValue v => [v] end) carries.
(** [None] is the failure of value_info_to_type on a tuple of length 0 or 1, fx l.1782-1787 and l.1229-1275. *)
Definition while_results (v : node_val) : option nat :=
  match v with
  | ValTuple n => if (1 <? n)%nat then Some n else None
  | ValTensor => Some 1%nat
  end.
Definition import_while {V} (cond_fn body_fn : string) (carries : list (warg V)) (v : node_val) : option (loop_ir V) :=
  let values := flatten_carries carries in
  do n <- while_results v;
  Some {| initial_callee := cond_fn; initial_operands := values;
          max_iterations := int64_max; loop_operands := values; result_count := n; block_args := 1 + n;
          body_callee := body_fn; body_operands := seq 1 n; body_results := n;
          cond_callee := cond_fn; cond_operands := seq 0 n; yielded := seq 0 n |}.

(** * RefTracker, fx l.2672-2725 *)
(** Objects are numbered in order of allocation; [live] gives the object at an address. A mapping remembers the
    object it was made for. *)
Record heap := { live : list (Z * nat); next : nat; refs : list (Z * nat) }.
Fixpoint assoc {A} (k : Z) (l : list (Z * A)) : option A :=
  match l with [] => None | (x, v) :: r => if x =? k then Some v else assoc k r end.
Fixpoint remove {A} (k : Z) (l : list (Z * A)) : list (Z * A) :=
  match l with [] => [] | (x, v) :: r => if x =? k then remove k r else (x, v) :: remove k r end.
Inductive event := Alloc (addr : Z) | Free (addr : Z) | Track (addr : Z).
Definition heap0 : heap := {| live := []; next := O; refs := [] |}.
(** RefTracker.track of the object at an address: the object the returned mapping was made for. *)
Definition track (h : heap) (addr : Z) : option (nat * heap) :=
  do o <- assoc addr (live h);
  match assoc addr (refs h) with
  | Some m => Some (m, h)
  | None => Some (o, {| live := live h; next := next h; refs := (addr, o) :: refs h |})
  end.
(** [None]: the event is impossible. *)
Definition step (h : heap) (e : event) : option heap :=
  match e with
  | Alloc a => match assoc a (live h) with Some _ => None | None => Some {| live := (a, next h) :: live h; next := S (next h); refs := refs h |} end
  | Free a => do _ <- assoc a (live h); Some {| live := remove a (live h); next := next h; refs := refs h |}
  | Track a => do p <- track h a; Some (snd p)
  end.

(** * TypeSubclassMap, fx l.2593-2624 *)
Section Subclass.
  Context {C V : Type} (C_eqb : C -> C -> bool) (issubclass : C -> C -> bool).
  Record subclass_map := { mapping : list (C * V); cache : list (C * option V) }.
  Definition map0 : subclass_map := {| mapping := []; cache := [] |}.
  Definition cache_get (l : list (C * option V)) (t : C) : option (option V) :=
    option_map snd (find (fun p => C_eqb (fst p) t) l).
  Definition sm_map (m : subclass_map) (t : C) (v : V) : subclass_map :=
    {| mapping := mapping m ++ [(t, v)]; cache := (t, Some v) :: cache m |}.
  Definition sm_lookup (m : subclass_map) (t : C) : option V * subclass_map :=
    match cache_get (cache m) t with
    | Some r => (r, m)
    | None =>
        match find (fun p => issubclass t (fst p)) (mapping m) with
        | Some (_, v) => (Some v, {| mapping := mapping m; cache := (t, Some v) :: cache m |})
        | None => (None, {| mapping := mapping m; cache := (t, None) :: cache m |})
        end
    end.
  Inductive sm_event := MapTo (t : C) (v : V) | Lookup (t : C).
  Definition sm_step (m : subclass_map) (e : sm_event) : subclass_map :=
    match e with MapTo t v => sm_map m t v | Lookup t => snd (sm_lookup m t) end.
End Subclass.

(** * sparsity_encoding, fx l.401-457 *)
Inductive layout := Coo | Csr | Csc | Bsr | Bsc.
Inductive level := Dim (d : Z) | Floordiv (d k : Z) | Mod (d k : Z).
Inductive format := Batch | Dense | Compressed | CompressedNonunique | SingletonNonuniqueSoa | SingletonSoa.
(** [blocksize] are the two sizes of a block; the text of the encoding lists the levels in this order. *)
Definition sparse_levels (l : layout) (batch_dim sparse_dim : Z) (blocksize : Z * Z) : option (list (level * format)) :=
  let '(m, n) := blocksize in
  match l with
  | Coo =>
      assert 2 <=? sparse_dim;
      let trail_dim := batch_dim + sparse_dim - 1 in
      Some ([(Dim batch_dim, CompressedNonunique)] ++
            map (fun d => (Dim d, SingletonNonuniqueSoa)) (zrange (batch_dim + 1) trail_dim) ++
            [(Dim trail_dim, SingletonSoa)])
  | Csr => assert sparse_dim =? 2; Some [(Dim batch_dim, Dense); (Dim (batch_dim + 1), Compressed)]
  | Csc => assert sparse_dim =? 2; Some [(Dim (batch_dim + 1), Dense); (Dim batch_dim, Compressed)]
  | Bsr | Bsc =>
      assert sparse_dim =? 2;
      let '(i, j) := match l with Bsr => (batch_dim, batch_dim + 1) | _ => (batch_dim + 1, batch_dim) end in
      Some [(Floordiv i m, Dense); (Floordiv j n, Compressed); (Mod i m, Dense); (Mod j n, Dense)]
  end.
Definition sparsity_encoding (l : layout) (dim sparse_dim dense_dim : Z) (blocksize : Z * Z) : option (list (level * format)) :=
  let batch_dim := dim - sparse_dim - dense_dim in
  do lvls <- sparse_levels l batch_dim sparse_dim blocksize;
  let lvls := if 0 <? batch_dim then map (fun d => (Dim d, Batch)) (zrange 0 batch_dim) ++ lvls else lvls in
  Some (if 0 <? dense_dim then lvls ++ map (fun d => (Dim d, Dense)) (zrange (batch_dim + sparse_dim) dim) else lvls).

(** * Function names, fx l.881-904 and l.1005-1046 *)
Inductive gm := GM (id : Z) (children : list (string * gm)).
Record namer := { names : list (Z * string); counter : nat; funcs : list string }.
Definition suffixed (name : string) (n : nat) : string := name ++ "_" ++ NilZero.string_of_uint (Nat.to_uint n).
(** The mapping kept for the module, fx l.1023-1035. *)
Definition assign_name (st : namer) (id : Z) (func_name : string) : string * namer :=
  match assoc id (names st) with
  | Some n => (n, st)
  | None =>
      if existsb (fun p => String.eqb (snd p) func_name) (names st) then
        let final := suffixed func_name (counter st) in
        (final, {| names := (id, final) :: names st; counter := S (counter st); funcs := funcs st |})
      else (func_name, {| names := (id, func_name) :: names st; counter := counter st; funcs := funcs st |})
  end.
Definition gm_id (g : gm) : Z := match g with GM i _ => i end.
(** import_graph_module; [named_children] yields each child object once, under its first name. [seen] are the
    children already yielded. The function of the module itself is created last, fx l.1037-1046. *)
Fixpoint import_graph_module (g : gm) (func_name : string) (st : namer) {struct g} : namer :=
  match g with
  | GM id children =>
      let '(final, st) := assign_name st id func_name in
      let st :=
        (fix go (seen : list Z) (l : list (string * gm)) (st : namer) : namer :=
           match l with
           | [] => st
           | (n, c) :: r =>
               if existsb (Z.eqb (gm_id c)) seen then go seen r st
               else go (gm_id c :: seen) r (import_graph_module c n st)
           end) [] children st in
      {| names := names st; counter := counter st; funcs := funcs st ++ [final] |}
  end.
(** import_program, fx l.812-866: the function itself is created first and its name is not recorded. *)
Definition import_program (children : list (string * gm)) (func_name : string) (st : namer) : namer :=
  (fix go (seen : list Z) (l : list (string * gm)) (st : namer) : namer :=
     match l with
     | [] => st
     | (n, c) :: r =>
         if existsb (Z.eqb (gm_id c)) seen then go seen r st
         else go (gm_id c :: seen) r (import_graph_module c n st)
     end) [] children {| names := names st; counter := counter st; funcs := funcs st ++ [func_name] |}.

(** * The tensor type cache, fx l.1186-1220 and l.1275-1297 *)
Section Cache.
  (** Layouts of tensors, by identity of the tensor: sparse tensors have an encoding. *)
  Context {D E : Type} (D_eqb : D -> D -> bool) (encoding_of : Z -> option E).
  (** A size is symbolic, with the identity of its node, or known. *)
  Inductive dim := Symbolic (node : Z) | Known (z : Z).
  Record request := { r_shape : list dim; r_dtype : D; r_val : option Z; r_mutable : bool }.
  Record vtensor := { v_mutable : bool; v_shape : list (option Z); v_dtype : D; v_encoding : option E }.
  Definition format_asm_shape (s : list dim) : list (option Z) :=
    map (fun d => match d with Symbolic _ => None | Known z => Some z end) s.
  Definition get_vtensor_type (r : request) : vtensor :=
    {| v_mutable := r_mutable r; v_shape := format_asm_shape (r_shape r); v_dtype := r_dtype r;
       v_encoding := match r_val r with Some v => encoding_of v | None => None end |}.
  Definition dim_eqb (a b : dim) : bool :=
    match a, b with Symbolic x, Symbolic y => x =? y | Known x, Known y => x =? y | _, _ => false end.
  Fixpoint shape_eqb (a b : list dim) : bool :=
    match a, b with [], [] => true | x :: a', y :: b' => dim_eqb x y && shape_eqb a' b' | _, _ => false end.
  (** Equality of the keys (tm_shape, tm.dtype, val, mutable). *)
  Definition key_eqb (a b : request) : bool :=
    shape_eqb (r_shape a) (r_shape b) && D_eqb (r_dtype a) (r_dtype b) &&
    match r_val a, r_val b with Some x, Some y => x =? y | None, None => true | _, _ => false end &&
    Bool.eqb (r_mutable a) (r_mutable b).
  Definition tensor_metadata_to_type (c : list (request * vtensor)) (r : request) : vtensor * list (request * vtensor) :=
    match find (fun p => key_eqb (fst p) r) c with
    | Some (_, t) => (t, c)
    | None => let t := get_vtensor_type r in (t, (r, t) :: c)
    end.
End Cache.
