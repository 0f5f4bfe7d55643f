(** What it means that a slot can be replaced by its initial value, independently of the analysis. *)
From Coq Require Import Bool PeanoNat List.
From Verif Require Import Prelude InlineSlotsModel.
Import ListNotations.
Open Scope nat_scope.

(** ** Where values go *)
(** The use of operand [i] lets the operation see the object itself *)
Definition handed (o : op) (i : nat) : Prop := value_semantics o = false /\ ~ (is o = IfOp /\ i = 0).
Definition object (v : value) : Prop := match snd v with TTensor | TOther _ => True | _ => False end.
Section Flow.
Context (p : list op).
Inductive bad_value : nat -> Prop :=
| bad_use : forall o0 v o i, In o0 p -> In v (results o0) -> object v ->
    In o p -> (exists u, nth_error (operands o) i = Some u /\ fst u = fst v) -> handed o i -> bad_op o ->
    (forall slots, is o = Initialize slots -> forall s, nth_error slots i = Some s -> bad_slot s) -> bad_value (fst v)
(** An operation that may change what it gets or whose results are bad *)
with bad_op : op -> Prop :=
| changes : forall o, effect_free o = false -> bad_op o
| bad_result : forall o r, In r (results o) -> bad_value (fst r) -> bad_op o
with bad_slot : nat -> Prop :=
| is_public : forall o s, In o p -> is o = Slot s true -> bad_slot s
| is_set : forall o s, In o p -> is o = SetSlot s -> bad_slot s
| bad_read : forall o s r, In o p -> is o = GetSlot s -> In r (results o) -> bad_value (fst r) -> bad_slot s.
End Flow.
Scheme bad_value_ind3 := Minimality for bad_value Sort Prop
  with bad_op_ind3 := Minimality for bad_op Sort Prop
  with bad_slot_ind3 := Minimality for bad_slot Sort Prop.
Combined Scheme bad_mutind from bad_value_ind3, bad_op_ind3, bad_slot_ind3.

(** Slots are declared first and once; a value has one number and type *)
Definition declared_first (p : list op) : Prop :=
  exists ds rest, p = ds ++ rest /\ (forall o, In o ds -> exists s b, is o = Slot s b /\ results o = []) /\ (forall o s b, In o rest -> is o <> Slot s b) /\ NoDup (flat_map slots_of ds).
Definition typed_once (p : list op) : Prop :=
  forall o o' v u, In o p -> In o' p -> In v (results o) -> In u (results o') -> fst v = fst u -> v = u.

(** The operations on whose results a value depends *)
Inductive depends (l : list op) : nat -> op -> Prop :=
| depends_here : forall o r, In o l -> In r (results o) -> depends l (fst r) o
| depends_before : forall o r v o', In o l -> In r (results o) -> In v (operands o) -> depends l (fst v) o' -> depends l (fst r) o'.

(** ** Objects *)
(** Objects that can be reached from values and slots; objects that terminators handed on (as results of other operations); objects that were changed *)
Record heap := { alive : nat -> Prop; reach : nat -> nat -> Prop; slot_reach : nat -> nat -> Prop; passed : nat -> Prop; changed : nat -> Prop }.
Section Objects.
Context (passes : op -> Prop).
Definition gets (h : heap) (o : op) (x : nat) : Prop := exists i u, nth_error (operands o) i = Some u /\ handed o i /\ reach h (fst u) x.
Definition mutating (o : op) : Prop := value_semantics o = false /\ effect_free o = false /\ forall slots, is o <> Initialize slots.
Definition fresh (h : heap) (x : nat) : Prop := ~ alive h x.
(** One execution of an operation: everything that it may do *)
Record executes (o : op) (h h' : heap) : Prop := {
  stays_alive : forall x, alive h x -> alive h' x;
  reached_alive : forall v x, reach h' v x -> alive h' x;
  slot_alive : forall s x, slot_reach h' s x -> alive h' x;
  results_reach : forall v x, In v (results o) -> reach h' (fst v) x ->
    object v /\ (fresh h x \/ gets h o x \/ (exists s, is o = GetSlot s /\ slot_reach h s x) \/ mutating o /\ passed h x);
  others_reach : forall n x, (forall v, In v (results o) -> fst v <> n) -> reach h' n x ->
    reach h n x \/ mutating o /\ (gets h o x \/ fresh h x \/ passed h x) /\ (exists y, reach h n y /\ gets h o y);
  slots_reach : forall s x, slot_reach h' s x ->
    slot_reach h s x \/ (exists slots i u, is o = Initialize slots /\ nth_error slots i = Some s /\ nth_error (operands o) i = Some u /\ reach h (fst u) x)
    \/ is o = SetSlot s /\ gets h o x \/ mutating o /\ (gets h o x \/ fresh h x \/ passed h x) /\ (exists y, slot_reach h s y /\ gets h o y);
  passes_on : forall x, passed h' x -> passed h x \/ passes o /\ exists u, In u (operands o) /\ reach h (fst u) x;
  changes_only : forall x, changed h' x -> changed h x \/ mutating o /\ gets h o x }.
(** Arguments of regions and functions get objects when these are entered *)
Record enters (o : op) (params : list nat) (h h' : heap) : Prop := {
  enter_alive : forall x, alive h' x <-> alive h x;
  enter_params : forall n x, In n params -> reach h' n x -> mutating o /\ gets h o x;
  enter_others : forall n x, ~ In n params -> reach h' n x <-> reach h n x;
  enter_slots : forall s x, slot_reach h' s x <-> slot_reach h s x;
  enter_passed : forall x, passed h' x <-> passed h x;
  enter_changed : forall x, changed h' x <-> changed h x }.
(** The functions of the program, in any order, any number of times *)
Inductive runs (rest : list op) : heap -> heap -> Prop :=
| runs_none : forall h, runs rest h h
| runs_op : forall h h1 h2 o, runs rest h h1 -> In o rest -> executes o h1 h2 -> runs rest h h2
| runs_enter : forall h h1 h2 o params, runs rest h h1 -> In o rest -> enters o params h1 h2 -> runs rest h h2.
Inductive runs_in_order : list op -> heap -> heap -> Prop :=
| order_none : forall h, runs_in_order [] h h
| order_op : forall o l h h1 h2, executes o h h1 -> runs_in_order l h1 h2 -> runs_in_order (o :: l) h h2.
End Objects.

(** Modules as the verifier of the initializer accepts them (TorchOps.cpp l.7318-7402); the operations before its terminator are constants and constructors *)
Record well_formed (passes : op -> Prop) (m : module) : Prop := {
  plain_init : forall o, In o (initializer m) -> (exists k, is o = Plain k) /\ ~ passes o;
  plain_rest : forall o, In o (rest m) -> (forall slots, is o <> Initialize slots) /\ (forall s b, is o <> Slot s b);
  declarations : forall o, In o (decls m) -> (exists s b, is o = Slot s b) /\ results o = [];
  declared_once : NoDup (flat_map slots_of (decls m));
  initialized_once : NoDup (init_slots m);
  all_initialized : List.length (init_slots m) = List.length (init_values m);
  sets_change : forall o s, In o (rest m) -> is o = SetSlot s -> value_semantics o = false /\ effect_free o = false;
  one_type : typed_once (program m) }.
(** Operations that hand on objects (terminators) count as changing them, or hand on no objects *)
Definition nothing_handed_on (passes : op -> Prop) (m : module) : Prop :=
  forall o, In o (rest m) -> passes o -> mutating o /\ is o <> IfOp \/ forall u o0 v, In u (operands o) -> In o0 (program m) -> In v (results o0) -> fst v = fst u -> ~ object v.
Definition declares_nothing_passed (passes : op -> Prop) (m : module) : Prop := forall o, In o (decls m) \/ (exists slots, is o = Initialize slots) -> ~ passes o.
(** Nothing is reached, handed on or changed yet *)
Definition empty (h : heap) : Prop := (forall n x, ~ reach h n x) /\ (forall s x, ~ slot_reach h s x) /\ (forall x, ~ passed h x) /\ (forall x, ~ changed h x).
(** Operations use what was made before them *)
Definition ordered (l : list op) : Prop :=
  forall pre o post, l = pre ++ o :: post -> forall v r o', In v (operands o) -> In o' (o :: post) -> In r (results o') -> fst v <> fst r.

(** ** Contents *)
Section Contents.
Context {content outside : Type}.
(** [pure] kinds of operations compute; the others may look at and change the rest of the world *)
Record meaning := { compute : kind -> list content -> option (list content); effect : kind -> list content -> outside -> option (list content * outside) }.
Context (w : meaning) (pure : kind -> bool) (store : nat -> option content). (* the slots that keep their contents *)
Definition cenv := list (nat * content).
Definition look (e : cenv) (n : nat) : option content := option_map snd (find (fun p => fst p =? n) e).
Fixpoint looks (e : cenv) (l : list value) : option (list content) := match l with [] => Some [] | v :: r => do x <- look e (fst v); do xs <- looks e r; Some (x :: xs) end.
Fixpoint put (l : list value) (xs : list content) (e : cenv) : option cenv :=
  match l, xs with [], [] => Some e | v :: r, x :: xs => put r xs ((fst v, x) :: e) | _, _ => None end.
Definition eval_op (o : op) (e : cenv) (g : outside) : option (cenv * outside) :=
  match is o with
  | Adjust => do xs <- looks e (operands o); do e <- put (results o) xs e; Some (e, g)
  | GetSlot s => match store s with Some x => do e <- put (results o) [x] e; Some (e, g) | None => do (ys, g) <- effect w (GetSlot s) [] g; do e <- put (results o) ys e; Some (e, g) end
  | k => do xs <- looks e (operands o);
         if pure k then do ys <- compute w k xs; do e <- put (results o) ys e; Some (e, g)
         else do (ys, g) <- effect w k xs g; do e <- put (results o) ys e; Some (e, g)
  end.
Fixpoint eval (l : list op) (e : cenv) (g : outside) : option (cenv * outside) :=
  match l with [] => Some (e, g) | o :: r => do (e, g) <- eval_op o e g; eval r e g end.
End Contents.
Arguments meaning : clear implicits. Arguments cenv : clear implicits.
