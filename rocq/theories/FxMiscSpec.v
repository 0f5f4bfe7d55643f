(** Specifications for the smaller parts of the FX importer. *)
From Coq Require Import ZArith Bool Ascii String List.
From Verif Require Import Prelude FxMiscModel.
Import ListNotations.
Open Scope list_scope.
Open Scope Z_scope.

(** * Scalars *)
Section Scalars.
  Context {F R : Type} (of_int : Z -> F).
  Inductive sval := VI (z : Z) | VF (f : F).
  Variable env : Z -> sval.
  (** Values of nodes agree with their types. *)
  Definition well_typed (a : @sarg F) : Prop :=
    match a with
    | SNode n PyInt => exists z, env n = VI z
    | SNode n PyFloat => exists f, env n = VF f
    | SInt _ | SFloat _ => True
    | _ => False
    end.
  Definition sarg_value (a : @sarg F) : option sval :=
    match a with
    | SNode n _ => Some (env n) | SInt z => Some (VI z) | SFloat f => Some (VF f) | SBool _ => None
    | SPromoted n => match env n with VI z => Some (VF (of_int z)) | VF _ => None end
    end.
  Definition as_int (v : sval) : option Z := match v with VI z => Some z | VF _ => None end.
  Definition as_float (v : sval) : option F := match v with VF f => Some f | VI _ => None end.
  Definition to_float (v : sval) : F := match v with VI z => of_int z | VF f => f end.
  (** Python: integers if all are, otherwise floats. *)
  Variables (pint : pyop -> list Z -> option R) (pfloat : pyop -> list F -> option R).
  Definition python (o : pyop) (args : list sarg) : option R :=
    do vs <- mapM sarg_value args;
    match mapM as_int vs with
    | Some zs => pint o zs
    | None => pfloat o (map to_float vs)
    end.
  (** Torch: the overload fixes the types. *)
  Variables (tint : torch_op -> list Z -> option R) (tfloat : torch_op -> list F -> option R).
  Definition torch (t : torch_op) (ov : overload) (args : list sarg) : option R :=
    do vs <- mapM sarg_value args;
    match ov with
    | ov_int => do zs <- mapM as_int vs; tint t zs
    | ov_float => do fs <- mapM as_float vs; tfloat t fs
    | ov_float_int => match vs with [VF a; VI b] => tfloat t [a; of_int b] | _ => None end
    end.
  (** The operator that computes the same function. Python's modulus has none among the ones used. *)
  Inductive counterpart : pyop -> torch_op -> Prop :=
  | c_div : counterpart truediv aten_div | c_mul : counterpart mul aten_mul | c_add : counterpart add aten_add
  | c_sub : counterpart sub aten_sub | c_lt : counterpart lt aten_lt | c_le : counterpart le aten_le | c_ge : counterpart ge aten_ge
  | c_ne : counterpart ne aten_ne | c_gt : counterpart gt aten_gt | c_eq : counterpart eq aten_eq
  | c_floordiv : counterpart floordiv aten_floordiv | c_neg : counterpart neg aten_neg.
  Definition same_operators : Prop := forall o t, counterpart o t -> (forall l, tint t l = pint o l) /\ (forall l, tfloat t l = pfloat o l).
  Definition symmetric (o : pyop) : Prop := forall a b, pfloat o [a; b] = pfloat o [b; a].
  Definition arity (o : pyop) : nat := match o with neg => 1%nat | _ => 2%nat end.
End Scalars.

(** * While loops *)
Section Loops.
  Context {V : Type} (conds : string -> list V -> option bool) (bodies : string -> list V -> option (list V)).
  (** The emitted loop. The block has the iteration number as first argument. *)
  Definition pick (vals : list V) (i : nat) : option V := nth_error vals i.
  Definition block_value (vals : list V) (i : nat) : option V := match i with O => None | S k => nth_error vals k end.
  Definition turn (ir : loop_ir V) (vals : list V) : option (bool * list V) :=
    do args <- mapM (block_value vals) (body_operands ir);
    do res <- bodies (body_callee ir) args;
    assert (length res =? body_results ir)%nat;
    do cargs <- mapM (pick res) (cond_operands ir);
    do c <- conds (cond_callee ir) cargs;
    do out <- mapM (pick res) (yielded ir);
    Some (c, out).
  Inductive loop_runs (ir : loop_ir V) : Z -> bool -> list V -> list V -> Prop :=
  | lr_stop trip vals : loop_runs ir trip false vals vals
  | lr_limit trip c vals : max_iterations ir <= trip -> loop_runs ir trip c vals vals
  | lr_turn trip vals c vals' r : trip < max_iterations ir -> turn ir vals = Some (c, vals') ->
      loop_runs ir (trip + 1) c vals' r -> loop_runs ir trip true vals r.
  Definition runs (ir : loop_ir V) (r : list V) : Prop :=
    length (loop_operands ir) = result_count ir /\ block_args ir = S (result_count ir) /\
    exists c, conds (initial_callee ir) (initial_operands ir) = Some c /\ loop_runs ir 0 c (loop_operands ir) r.
  (** The source loop: [while cond( *carried, *extra): carried = body( *carried, *extra)], n turns. *)
  Inductive while_runs (cond : list V -> option bool) (body : list V -> option (list V)) (extra : list V) : nat -> list V -> list V -> Prop :=
  | wr_done vals : cond (vals ++ extra) = Some false -> while_runs cond body extra 0 vals vals
  | wr_turn n vals vals' r : cond (vals ++ extra) = Some true -> body (vals ++ extra) = Some vals' -> length vals' = length vals ->
      while_runs cond body extra n vals' r -> while_runs cond body extra (S n) vals r.
  (** The state after n turns of the body, each while the condition holds. *)
  Inductive after_turns (cond : list V -> option bool) (body : list V -> option (list V)) : nat -> list V -> list V -> Prop :=
  | at_zero vals : after_turns cond body 0 vals vals
  | at_turn n vals vals' r : cond vals = Some true -> body vals = Some vals' -> length vals' = length vals ->
      after_turns cond body n vals' r -> after_turns cond body (S n) vals r.
End Loops.

(** * Identity *)
Fixpoint run_events (h : heap) (es : list event) : option heap :=
  match es with [] => Some h | e :: r => do h' <- step h e; run_events h' r end.
(** The object at an address after a history: [n] objects were allocated before it and [cur] was at the address. *)
Fixpoint object_at (n : nat) (cur : option nat) (es : list event) (a : Z) : option nat :=
  match es with
  | [] => cur
  | Alloc b :: r => object_at (S n) (if b =? a then Some n else cur) r a
  | Free b :: r => object_at n (if b =? a then None else cur) r a
  | Track _ :: r => object_at n cur r a
  end.
(** The object that was at the address when it was first tracked. *)
Fixpoint first_tracked (n : nat) (cur : option nat) (es : list event) (a : Z) : option nat :=
  match es with
  | [] => None
  | Alloc b :: r => first_tracked (S n) (if b =? a then Some n else cur) r a
  | Free b :: r => first_tracked n (if b =? a then None else cur) r a
  | Track b :: r => if b =? a then cur else first_tracked n cur r a
  end.
(** No tracked address is freed. *)
Fixpoint tracked_survive (tracked : list Z) (es : list event) : Prop :=
  match es with
  | [] => True
  | Track a :: r => tracked_survive (a :: tracked) r
  | Free a :: r => ~ In a tracked /\ tracked_survive tracked r
  | Alloc _ :: r => tracked_survive tracked r
  end.

(** * Dispatch on types *)
Section Subclass.
  Context {C V : Type} (C_eqb : C -> C -> bool) (issubclass : C -> C -> bool).
  (** The last handler registered for exactly this type. *)
  Fixpoint exact (es : list (@sm_event C V)) (t : C) : option V :=
    match es with
    | [] => None
    | MapTo u v :: r => match exact r t with Some w => Some w | None => if C_eqb u t then Some v else None end
    | Lookup _ :: r => exact r t
    end.
  (** The first handler registered for the type or one of its bases. *)
  Fixpoint inherited (es : list (@sm_event C V)) (t : C) : option V :=
    match es with
    | [] => None
    | MapTo u v :: r => if issubclass t u then Some v else inherited r t
    | Lookup _ :: r => inherited r t
    end.
  (** The events before the first lookup of a type, if there is one. *)
  Fixpoint before_lookup (es : list (@sm_event C V)) (t : C) : option (list (@sm_event C V)) :=
    match es with
    | [] => None
    | Lookup u :: r => if C_eqb u t then Some [] else option_map (cons (Lookup u)) (before_lookup r t)
    | e :: r => option_map (cons e) (before_lookup r t)
    end.
  Definition handler (es : list (@sm_event C V)) (t : C) : option V :=
    match exact es t with Some v => Some v | None => inherited es t end.
End Subclass.

(** * Sparse tensors *)
Definition coordinate (c : list Z) (d : Z) : Z := nth (Z.to_nat d) c 0.
Definition level_of (c : list Z) (l : level) : Z :=
  match l with Dim d => coordinate c d | Floordiv d k => coordinate c d / k | Mod d k => coordinate c d mod k end.
(** Where torch stores an element: the coordinates of the levels, from the outermost to the innermost. *)
Definition stored_at (l : layout) (sparse : list Z) (blocksize : Z * Z) : option (list Z) :=
  let '(m, n) := blocksize in
  match l, sparse with
  | Coo, _ => Some sparse
  | Csr, [r; c] => Some [r; c]
  | Csc, [r; c] => Some [c; r]
  | Bsr, [r; c] => Some [r / m; c / n; r mod m; c mod n]
  | Bsc, [r; c] => Some [c / n; r / m; r mod m; c mod n]
  | _, _ => None
  end.
Definition level_formats (l : layout) (sparse_dim : nat) : list format :=
  match l with
  | Coo => [CompressedNonunique] ++ repeat SingletonNonuniqueSoa (sparse_dim - 2) ++ [SingletonSoa]
  | Csr | Csc => [Dense; Compressed]
  | Bsr | Bsc => [Dense; Compressed; Dense; Dense]
  end.

(** * Names *)
(** Requested names of a module tree, and the identities of its modules. *)
Fixpoint requested (g : gm) : list string :=
  match g with GM _ cs => flat_map (fun p => fst p :: requested (snd p)) cs end.
Fixpoint ids (g : gm) : list Z :=
  match g with GM i cs => i :: flat_map (fun p => ids (snd p)) cs end.
Definition plain (n : string) : Prop := forall s k, n <> suffixed s k.
(** Modules with the names they are requested under, each before its children. *)
Fixpoint labelled (g : gm) (f : string) : list (Z * string) :=
  match g with GM i cs => (i, f) :: flat_map (fun p => labelled (snd p) (fst p)) cs end.
(** Modules, each after its children. *)
Fixpoint postorder (g : gm) : list Z :=
  match g with GM i cs => flat_map (fun p => postorder (snd p)) cs ++ [i] end.
Definition namer0 : namer := {| names := []; counter := O; funcs := [] |}.

(** * Tensor types *)
Definition describes {D E} (encoding_of : Z -> option E) (r : @request D) (t : @vtensor D E) : Prop :=
  v_mutable t = r_mutable r /\ v_dtype t = r_dtype r /\
  Forall2 (fun d o => match d with Known z => o = Some z | Symbolic _ => o = None end) (r_shape r) (v_shape t) /\
  match r_val r with Some v => v_encoding t = encoding_of v | None => v_encoding t = None end.
