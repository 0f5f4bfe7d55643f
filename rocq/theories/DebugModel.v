(** Self-checks of the abstract interpretation library, the lockstep debugging backend and the dynamo wrapper.

    Sources under /repo/projects/pt1/python: tfw = torch_mlir/jit_ir_importer/build_tools/testing_framework.py,
    lock = torch_mlir_e2e_test/debug/lockstep.py, dyn = torch_mlir/dynamo.py.
    [None] is an exception. *)
From Coq Require Import ZArith Bool List.
From Verif Require Import Prelude.
Import ListNotations.
Open Scope list_scope.
Open Scope nat_scope.

(** * Self-checks *)
Section Check.
(** [A]: the arguments of an invocation; [D]: the integer code of a dtype. *)
Context {A : Type}.
(** What a function or an operator returns: tensors have a shape and a dtype code. *)
Inductive py := PyTensor (shape : list Z) (dtype : Z) | PyList (l : list Z) | PyDtype (code : Z) | PyInt (z : Z) | PyFloat | PyTuple (l : list py) | PyOther.
(** _normalize_multiple_results_to_list, tfw l.211-223 *)
Definition normalize (v : py) : option (list py) :=
  match v with
  | PyTuple l => Some l
  | PyTensor _ _ | PyList _ | PyDtype _ | PyInt _ | PyFloat => Some [v]
  | PyOther => None
  end.
(** Invocation and ErrorInvocation, tfw l.121-208: arguments and whether an exception is expected. *)
Record invocation := { args : A; expected_to_raise : bool }.
(** _get_fn_and_golden_results, tfw l.233-303. [fn] and [op] are the function and the operator on the arguments of the invocation;
    both results are missing when both raise as expected. [None] is a report (ValueError). *)
Definition get_fn_and_golden_results (fn op : A -> option py) (i : invocation) : option (option (list py * list py)) :=
  let fn_results := obind (fn (args i)) normalize in
  let golden_results := obind (op (args i)) normalize in
  if expected_to_raise i then
    match fn_results, golden_results with
    | None, None => Some None
    | _, _ => None
    end
  else
    match fn_results, golden_results with
    | Some a, Some b => Some (Some (a, b))
    | _, _ => None
    end.
(** The loop over results, tfw l.326-343: [len] and iteration of a shape, [.shape] of the golden result. *)
Definition shape_matches (r g : py) : option unit :=
  match r, g with
  | PyList s, PyTensor t _ => assert length s =? length t; assert forallb (fun p => Z.eqb (fst p) (snd p)) (combine s t); Some tt
  | _, _ => None (** TypeError or AttributeError *)
  end.
(** [torch.tensor([]).to(type(golden)).dtype] is int64 for int and float64 for float; codes of dtypes are those of the compiler. *)
Definition golden_dtype (g : py) : option Z :=
  match g with PyTensor _ d => Some d | PyInt _ => Some 4%Z | PyFloat => Some 7%Z | _ => None end.
Definition result_dtype (r : py) : option Z := match r with PyDtype d => Some d | PyInt d => Some d | _ => None end.
(** tfw l.379-399 *)
Definition dtype_matches (r g : py) : option unit :=
  do gd <- golden_dtype g; do rd <- result_dtype r; assert (rd =? gd)%Z; Some tt.
Fixpoint all_match (f : py -> py -> option unit) (rs gs : list py) : option unit :=
  match rs, gs with
  | r :: rs, g :: gs => do _ <- f r g; all_match f rs gs
  | _, _ => Some tt
  end.
(** check_shape_function and check_dtype_function, tfw l.306-346 and l.359-402. *)
Fixpoint check (matches : py -> py -> option unit) (fn op : A -> option py) (l : list invocation) : option unit :=
  match l with
  | [] => Some tt
  | i :: r =>
      do res <- get_fn_and_golden_results fn op i;
      match res with
      | None => check matches fn op r (** [continue] *)
      | Some (rs, gs) => assert length rs =? length gs; do _ <- all_match matches rs gs; check matches fn op r
      end
  end.
Definition check_shape_function := check shape_matches.
Definition check_dtype_function := check dtype_matches.
End Check.
Arguments invocation A : clear implicits.

(** * Lockstep debugging *)
Section Lockstep.
(** [V]: values; [F]: the target of a call; [C]: constants. *)
Context {V F C : Type}.
Inductive arg := ANode (n : nat) | AConst (c : C) | AList (l : list arg).
Inductive fxop := Placeholder | CallFunction (f : F) (as_ : list arg) | OutputOp (a : arg) | OtherOp (as_ : list arg).
(** A node: its identity and its operation. No node has keyword arguments. *)
Definition node := (nat * fxop)%type.
(** torch.fx.map_arg visits all nodes inside, left to right. *)
Fixpoint uses (a : arg) : list nat := match a with ANode n => [n] | AConst _ => [] | AList l => flat_map uses l end.
Definition node_uses (n : node) : list nat :=
  match snd n with Placeholder => [] | CallFunction _ l | OtherOp l => flat_map uses l | OutputOp a => uses a end.
Definition memn (n : nat) (l : list nat) : bool := existsb (Nat.eqb n) l.
(** process_use, lock l.48-52, for all uses of one node: (seen, the list of this node). *)
Fixpoint process_uses (us seen ends : list nat) : list nat * list nat :=
  match us with
  | [] => (seen, ends)
  | u :: us => if memn u seen then process_uses us seen ends else process_uses us (u :: seen) (ends ++ [u])
  end.
(** _make_last_use_map, lock l.32-57, over the reversed nodes. *)
Fixpoint last_uses (reversed : list node) (seen : list nat) : list (nat * list nat) :=
  match reversed with
  | [] => []
  | n :: r => let (seen', ends) := process_uses (node_uses n) seen [] in (fst n, ends) :: last_uses r seen'
  end.
Definition make_last_use_map (g : list node) : list (nat * list nat) := last_uses (rev g) [].
Fixpoint lookup_n {X} (l : list (nat * X)) (k : nat) : option X := match l with [] => None | (x, v) :: r => if x =? k then Some v else lookup_n r k end.
(** [last_use_map[node]] of a defaultdict *)
Definition ends_at (m : list (nat * list nat)) (n : nat) : list nat := match lookup_n m n with Some l => l | None => [] end.
(** [env.pop(n)] *)
Definition remove_n {X} (l : list (nat * X)) (k : nat) : list (nat * X) := filter (fun p => negb (fst p =? k)) l.
Fixpoint pops (env : list (nat * V)) (dead : list nat) : option (list (nat * V)) :=
  match dead with
  | [] => Some env
  | d :: r => do _ <- lookup_n env d; pops (remove_n env d) r
  end.
(** What an argument is made of when it is evaluated. *)
Inductive val := VV (v : V) | VC (c : C) | VL (l : list val).
Fixpoint eval_arg (env : list (nat * V)) (a : arg) : option val :=
  match a with
  | ANode n => do v <- lookup_n env n; Some (VV v)
  | AConst c => Some (VC c)
  | AList l => do vs <- fold_right (fun x acc => do v <- eval_arg env x; do vs <- acc; Some (v :: vs)) (Some []) l; Some (VL vs)
  end.
Definition eval_node_arg (env : list (nat * V)) (a : arg) : option V := match a with ANode n => lookup_n env n | _ => None end.
(** The backends: compiling a call for example arguments gives a function. *)
Context (user_backend golden_backend : F -> list V -> list V -> option V) (close : V -> V -> bool).
(** backend_artifacts: the example arguments each node was compiled with. *)
Definition artifacts := list (nat * list V).
(** The loop of compiled, lock l.110-143. _make_single_op_gm (l.13-24) needs all arguments to be nodes. *)
Fixpoint run_nodes (last_use_map : list (nat * list nat)) (g : list node) (env : list (nat * V)) (art : artifacts) : option (val * artifacts) :=
  match g with
  | [] => None (** assert False *)
  | (n, Placeholder) :: g => run_nodes last_use_map g env art
  | (n, OutputOp a) :: g => do r <- eval_arg env a; Some (r, art)
  | (n, OtherOp _) :: g => None
  | (n, CallFunction f l) :: g =>
      do actual <- mapM (eval_node_arg env) l;
      let '(example, art) := match lookup_n art n with Some e => (e, art) | None => (actual, (n, actual) :: art) end in
      do user <- user_backend f example actual;
      do golden <- golden_backend f example actual;
      let env := (n, golden) :: remove_n env n in
      assert close user golden;
      do env <- pops env (ends_at last_use_map n);
      run_nodes last_use_map g env art
  end.
Definition placeholders (g : list node) : list nat := flat_map (fun n => match snd n with Placeholder => [fst n] | _ => [] end) g.
(** compiled, lock l.97-143: [zip] stops at the shorter list. *)
Definition compiled (g : list node) (art : artifacts) (inputs : list V) : option (val * artifacts) :=
  run_nodes (make_last_use_map g) g (rev (combine (placeholders g) inputs)) art.
End Lockstep.
Arguments arg C : clear implicits. Arguments fxop F C : clear implicits. Arguments node F C : clear implicits. Arguments val V C : clear implicits.

(** * The dynamo wrapper *)
Section Dynamo.
(** The structure of an output over leaves, and of a value. *)
Inductive tree (L : Type) := Leaf (l : L) | TupleOf (l : list (tree L)) | ListOf (l : list (tree L)).
Arguments Leaf {L}. Arguments TupleOf {L}. Arguments ListOf {L}.
(** _adjust_calling_convention, dyn l.74-115, on the argument of the output node. *)
Definition adjust_calling_convention {L} (t : tree L) : tree L * bool * bool :=
  match t with
  | TupleOf [x] => (x, true, false)
  | ListOf [x] => (x, true, true)
  | ListOf l => (TupleOf l, false, true)
  | _ => (t, false, false)
  end.
(** dynamo_callable, dyn l.144-150. [list(result)] of a tuple or a list; anything else raises. *)
Definition dynamo_callable {L} (did_unwrap did_convert : bool) (result : tree L) : option (tree L) :=
  let result := if did_unwrap then TupleOf [result] else result in
  if did_convert then match result with TupleOf l | ListOf l => Some (ListOf l) | Leaf _ => None end else Some result.
End Dynamo.
Arguments Leaf {L}. Arguments TupleOf {L}. Arguments ListOf {L}.
