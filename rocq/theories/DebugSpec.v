(** What the self-checks accept, what a lockstep run computes, and the structure of outputs; independent of DebugModel's functions. *)
From Coq Require Import ZArith Bool List.
From Verif Require Import Prelude DebugModel.
Import ListNotations.
Open Scope list_scope.

(** * Self-checks *)
(** The results of a call: a tuple is several, a tensor, a list, a dtype and a number are one, and anything else is not a result. *)
Inductive results : py -> list py -> Prop :=
| results_tuple l : results (PyTuple l) l
| results_tensor s d : results (PyTensor s d) [PyTensor s d]
| results_list l : results (PyList l) [PyList l]
| results_dtype c : results (PyDtype c) [PyDtype c]
| results_int z : results (PyInt z) [PyInt z]
| results_float : results PyFloat [PyFloat].
Definition returns {A} (f : A -> option py) (a : A) (rs : list py) : Prop := exists v, f a = Some v /\ results v rs.
Definition raises {A} (f : A -> option py) (a : A) : Prop := ~ exists rs, returns f a rs.
(** A shape function gives the list of sizes of the tensor. *)
Definition same_sizes (r g : py) : Prop := exists s d, r = PyList s /\ g = PyTensor s d.
(** A dtype function gives the dtype of the tensor, int64 (4) for an int and float64 (7) for a float. *)
Definition same_dtype (r g : py) : Prop :=
  exists c, (r = PyDtype c \/ r = PyInt c) /\
    ((exists s, g = PyTensor s c) \/ ((exists z, g = PyInt z) /\ c = 4%Z) \/ (g = PyFloat /\ c = 7%Z)).
Definition accepted {A} (ok : py -> py -> Prop) (fn op : A -> option py) (i : invocation A) : Prop :=
  (expected_to_raise i = true /\ raises fn (args i) /\ raises op (args i)) \/
  (expected_to_raise i = false /\ exists rs gs, returns fn (args i) rs /\ returns op (args i) gs /\ Forall2 ok rs gs).

(** * Lockstep *)
Section Lockstep.
Context {V F C : Type} (user_backend golden_backend : F -> list V -> list V -> option V) (close : V -> V -> bool).
(** A node occurs in an argument. *)
Inductive occurs (n : nat) : arg C -> Prop :=
| occurs_node : occurs n (ANode n)
| occurs_list a l : In a l -> occurs n a -> occurs n (AList l).
Definition reads (x : node F C) (n : nat) : Prop :=
  match snd x with
  | Placeholder => False
  | CallFunction _ l | OtherOp l => exists a, In a l /\ occurs n a
  | OutputOp a => occurs n a
  end.
(** [x] is the last node of the graph that reads [n]. *)
Definition last_reader (g : list (node F C)) (x : node F C) (n : nat) : Prop :=
  exists before after, g = before ++ x :: after /\ reads x n /\ forall y, In y after -> ~ reads y n.
(** All values, never freed. *)
Definition memory := nat -> option V.
Definition store (m : memory) (n : nat) (v : V) : memory := fun k => if Nat.eqb k n then Some v else m k.
Inductive denotes (m : memory) : arg C -> val V C -> Prop :=
| denotes_node n v : m n = Some v -> denotes m (ANode n) (VV v)
| denotes_const c : denotes m (AConst c) (VC c)
| denotes_list l vs : Forall2 (denotes m) l vs -> denotes m (AList l) (VL vs).
(** Evaluation node by node with the golden backend, where the user's backend is close each time. [ex]: the arguments compiled for. *)
Inductive golden_run (ex : nat -> list V -> list V) : list (node F C) -> memory -> val V C -> Prop :=
| golden_placeholder n g m r : golden_run ex g m r -> golden_run ex ((n, Placeholder) :: g) m r
| golden_output n a g m r : denotes m a r -> golden_run ex ((n, OutputOp a) :: g) m r
| golden_call n f l ms vs u v g m r :
    l = map ANode ms -> Forall2 (fun k x => m k = Some x) ms vs ->
    user_backend f (ex n vs) vs = Some u -> golden_backend f (ex n vs) vs = Some v -> close u v = true ->
    golden_run ex g (store m n v) r -> golden_run ex ((n, CallFunction f l) :: g) m r.
(** The arguments a node was compiled for: those of the first run. *)
Definition compiled_for (art : list (nat * list V)) (n : nat) (vs : list V) : list V :=
  match find (fun p => Nat.eqb (fst p) n) art with Some p => snd p | None => vs end.
(** The k-th placeholder holds the k-th input. *)
Definition holds_inputs (g : list (node F C)) (inputs : list V) (m : memory) : Prop :=
  forall n v, m n = Some v <->
    exists k, nth_error (filter (fun x => match snd x with Placeholder => true | _ => false end) g) k = Some (n, Placeholder) /\ nth_error inputs k = Some v.
End Lockstep.

(** * Structure of outputs *)
(** The same structure, leaf by leaf. *)
Fixpoint map_tree {A B} (f : A -> B) (t : tree A) : tree B :=
  match t with Leaf l => Leaf (f l) | TupleOf l => TupleOf (map (map_tree f) l) | ListOf l => ListOf (map (map_tree f) l) end.
Definition flat {A} (t : tree A) : Prop := (exists x, t = Leaf x) \/ (exists l, t = TupleOf (map Leaf l)) \/ (exists l, t = ListOf (map Leaf l)).
(** What the importer supports: a single value, or a tuple of any number of values except one. *)
Definition supported {A} (t : tree A) : Prop := (exists l, t = Leaf l) \/ exists l, t = TupleOf (map Leaf l) /\ length l <> 1%nat.
