(** What programs with objects and programs with global slots compute, independently of the pass; and what the names and the specialisations must be. *)
From Coq Require Import Bool PeanoNat Ascii String List.
From Verif Require Import Prelude GlobalizeModel.
Import ListNotations.
Open Scope string_scope.
Open Scope list_scope.
Open Scope nat_scope.

(** The meaning of everything else: operations on data with a memory of their own, truth, trip counts and indices *)
Record world := { datum : Type; memory : Type;
                  other : nat -> list datum -> memory -> option (list datum * memory);
                  truth : datum -> option bool; trips : datum -> option nat; index : nat -> datum }.

Section Meaning.
Context (w : world).
Notation D := (datum w).
(** ** Programs with objects *)
Inductive thing := Obj (i : nat) | Dat (d : D).
Definition store := nat -> string -> option thing.
Definition state := (store * memory w)%type.
Definition env := list (nat * thing).
Definition kind (t : vtype) (x : thing) : bool := match t, x with Mod _, Obj _ | Data, Dat _ => true | _, _ => false end.
Definition get (e : env) (v : value) : option thing :=
  do x <- option_map snd (find (fun p => fst p =? fst v) e);
  if kind (snd v) x then Some x else None.
Fixpoint gets (e : env) (l : list value) : option (list thing) := match l with [] => Some [] | v :: r => do x <- get e v; do xs <- gets e r; Some (x :: xs) end.
Fixpoint bind (l : list value) (xs : list thing) (e : env) : option env :=
  match l, xs with
  | [], [] => Some e
  | v :: r, x :: xs => if kind (snd v) x then bind r xs ((fst v, x) :: e) else None
  | _, _ => None
  end.
Fixpoint plain_data (xs : list thing) : option (list D) := match xs with [] => Some [] | Dat d :: r => do ds <- plain_data r; Some (d :: ds) | Obj _ :: _ => None end.
Definition update (s : store) (i : nat) (n : string) (x : thing) : store := fun j m => if (j =? i) && String.eqb m n then Some x else s j m.
Section Once.
Context (call : string -> list thing -> state -> option (list thing * state)).
(** A loop: run while the condition holds and trips are left; the block gets the index and the carried values *)
Fixpoint iterate (step : list thing -> state -> option (list thing * state)) (n k : nat) (c : bool) (xs : list thing) (s : state) : option (list thing * state) :=
  match n with
  | 0 => Some (xs, s)
  | S n => if c then do (ys, s) <- step (Dat (index w k) :: xs) s;
                     match ys with Dat c :: xs => do c <- truth w c; iterate step n (S k) c xs s | _ => None end
           else Some (xs, s)
  end.
Fixpoint run_op (o : op) (e : env) (s : state) : option (env * state) :=
  match o with
  | GetAttr r receiver n =>
      do x <- get e receiver;
      match x with Obj i => do y <- fst s i n; do e <- bind [r] [y] e; Some (e, s) | Dat _ => None end
  | SetAttr receiver n v =>
      do x <- get e receiver;
      do y <- get e v;
      match x with
      | Obj i => do _ <- fst s i n; Some (e, (update (fst s) i n y, snd s))
      | Dat _ => None
      end
  | Call rs f args => do xs <- gets e args; do (ys, s) <- call f xs s; do e <- bind rs ys e; Some (e, s)
  | Other k rs args => do xs <- gets e args; do ds <- plain_data xs; do (ys, m) <- other w k ds (snd s); do e <- bind rs (map Dat ys) e; Some (e, (fst s, m))
  | If rs c b b' =>
      do x <- get e c;
      match x with
      | Dat d => do t <- truth w d; do (ys, s) <- (if t then run_block b e s else run_block b' e s); do e <- bind rs ys e; Some (e, s)
      | Obj _ => None
      end
  | Loop rs n c inits params b =>
      do x <- get e n; do y <- get e c; do xs <- gets e inits;
      match x, y with
      | Dat x, Dat y =>
          do n <- trips w x; do c <- truth w y;
          do (ys, s) <- iterate (fun xs s => do e <- bind params xs e; run_block b e s) n 0 c xs s;
          do e <- bind rs ys e; Some (e, s)
      | _, _ => None
      end
  end
with run_block (b : block) (e : env) (s : state) : option (list thing * state) :=
  match b with
  | Block body yielded =>
      do (e, s) <- (fix all (l : list op) (e : env) (s : state) : option (env * state) :=
                      match l with [] => Some (e, s) | o :: r => do (e, s) <- run_op o e s; all r e s end) body e s;
      do ys <- gets e yielded; Some (ys, s)
  end.
End Once.
Fixpoint run (fs : list function) (fuel : nat) (f : string) (xs : list thing) (s : state) : option (list thing * state) :=
  match fuel with
  | 0 => None
  | S fuel => do f <- find_function fs f; do e <- bind (arguments f) xs []; run_block (run fs fuel) (body_of f) e s
  end.

(** ** Programs with global slots *)
Definition gstore := string -> option D.
Definition gstate := (gstore * memory w)%type.
Definition tenv := list (nat * D).
Definition tget (e : tenv) (v : nat) : option D := option_map snd (find (fun p => fst p =? v) e).
Fixpoint tgets (e : tenv) (l : list nat) : option (list D) := match l with [] => Some [] | v :: r => do x <- tget e v; do xs <- tgets e r; Some (x :: xs) end.
Fixpoint tbind (l : list nat) (xs : list D) (e : tenv) : option tenv :=
  match l, xs with [], [] => Some e | v :: r, x :: xs => tbind r xs ((v, x) :: e) | _, _ => None end.
Definition gupdate (s : gstore) (g : string) (x : D) : gstore := fun h => if String.eqb h g then Some x else s h.
Section TOnce.
Context (call : string -> list D -> gstate -> option (list D * gstate)).
Fixpoint titerate (step : list D -> gstate -> option (list D * gstate)) (n k : nat) (c : bool) (xs : list D) (s : gstate) : option (list D * gstate) :=
  match n with
  | 0 => Some (xs, s)
  | S n => if c then do (ys, s) <- step (index w k :: xs) s;
                     match ys with c :: xs => do c <- truth w c; titerate step n (S k) c xs s | _ => None end
           else Some (xs, s)
  end.
Fixpoint trun_op (o : top) (e : tenv) (s : gstate) : option (tenv * gstate) :=
  match o with
  | TGet r g => do y <- fst s g; Some ((r, y) :: e, s)
  | TSet g v => do y <- tget e v; Some (e, (gupdate (fst s) g y, snd s))
  | TCall rs f args => do xs <- tgets e args; do (ys, s) <- call f xs s; do e <- tbind rs ys e; Some (e, s)
  | TOther k rs args => do xs <- tgets e args; do (ys, m) <- other w k xs (snd s); do e <- tbind rs ys e; Some (e, (fst s, m))
  | TIf rs c b b' => do d <- tget e c; do t <- truth w d; do (ys, s) <- (if t then trun_block b e s else trun_block b' e s); do e <- tbind rs ys e; Some (e, s)
  | TLoop rs n c inits params b =>
      do x <- tget e n; do y <- tget e c; do xs <- tgets e inits; do n <- trips w x; do c <- truth w y;
      do (ys, s) <- titerate (fun xs s => do e <- tbind params xs e; trun_block b e s) n 0 c xs s;
      do e <- tbind rs ys e; Some (e, s)
  end
with trun_block (b : tblock) (e : tenv) (s : gstate) : option (list D * gstate) :=
  match b with
  | TBlock body yielded =>
      do (e, s) <- (fix all (l : list top) (e : tenv) (s : gstate) : option (tenv * gstate) :=
                      match l with [] => Some (e, s) | o :: r => do (e, s) <- trun_op o e s; all r e s end) body e s;
      do ys <- tgets e yielded; Some (ys, s)
  end.
End TOnce.
Fixpoint trun (fs : list tfunction) (fuel : nat) (f : string) (xs : list D) (s : gstate) : option (list D * gstate) :=
  match fuel with
  | 0 => None
  | S fuel => do f <- find (fun g => String.eqb (tname g) f) fs; do e <- tbind (targuments f) xs []; trun_block (trun fs fuel) (tbody f) e s
  end.

(** ** The stores agree: a global slot holds what its slot holds, and the modules in slots are those of the module graph *)
Definition agree (ms : list nn_module) (name : nat -> string -> option string) (s : store) (g : gstore) : Prop :=
  (forall i n d h, s i n = Some (Dat d) -> name i n = Some h -> g h = Some d) /\
  (forall i n j, s i n = Some (Obj j) -> exists m x, find_module ms i = Some m /\ find_slot m n = Some x /\ slot_value_of x = Object j).
(** The store at the beginning: every slot of every module, its constants evaluated *)
Definition first_store (p : program) (constant : nat -> D) : store :=
  fun i n => do m <- find_module (modules p) i; do s <- find_slot m n; Some (match slot_value_of s with Object j => Obj j | Constant c => Dat (constant c) end).
Definition first_gstore (gs : list global) (constant : nat -> D) : gstore :=
  fun h => do g <- find (fun g => String.eqb (global_name g) h) gs; match initial g with Constant c => Some (constant c) | Object _ => None end.
(** The arguments a specialisation is made for: the modules in its list, at the places of the list *)
Fixpoint modules_at (k : nat) (xs : list thing) : list (nat * nat) :=
  match xs with [] => [] | Obj i :: r => (k, i) :: modules_at (S k) r | Dat _ :: r => modules_at (S k) r end.
Fixpoint data_of (xs : list thing) : list D := match xs with [] => [] | Dat d :: r => d :: data_of r | Obj _ :: r => data_of r end.
End Meaning.

(** ** The specialisations needed *)
Inductive needed (p : program) : mono -> Prop :=
| needed_seed : forall f l, In f (functions p) -> trivial p 0 (arguments f) = Some l -> needed p (function_name f, l)
| needed_call : forall m l m', needed p m -> calls_of p m = Some l -> In m' l -> needed p m'.

(** ** The paths from the root: the names of the attributes that hold the modules on the way *)
Inductive path (p : program) : nat -> list string -> nat -> Prop :=
| path_here : forall i, path p i [] i
| path_step : forall i names j m c k s a j',
    path p i names j ->
    find_module (modules p) j = Some m -> find_class (classes p) (module_class m) = Some c ->
    nth_error (slots m) k = Some s -> nth_error (attrs c) k = Some a ->
    (exists d, attr_type a = Mod d) -> slot_value_of s = Object j' ->
    path p i (names ++ [attr_name a]) j'.
(** A slot that gets a global slot: one of data, reachable, which some function reads or writes *)
Definition held (p : program) (root i : nat) (n : string) (g : global) : Prop :=
  exists names m c k s a,
    path p root names i /\ find_module (modules p) i = Some m /\ find_class (classes p) (module_class m) = Some c /\
    nth_error (slots m) k = Some s /\ nth_error (attrs c) k = Some a /\ slot_name s = n /\ attr_type a = Data /\
    In (Mod (module_class m), n) (all_accesses p) /\
    g = {| global_name := String.concat "." (names ++ [attr_name a]); global_private := attr_private a; initial := slot_value_of s |}.

(** ** Conditions and checks *)
Definition dot_free (n : string) : Prop := ~ In "."%char (list_ascii_of_string n).
(** What TorchScript guarantees: identifiers without dots, attributes and slots of different names *)
Definition well_named (p : program) : Prop :=
  (forall c a, In c (classes p) -> In a (attrs c) -> dot_free (attr_name a)) /\
  (forall c, In c (classes p) -> NoDup (map attr_name (attrs c))) /\
  (forall m, In m (modules p) -> NoDup (map slot_name (slots m))).
(** The uses of values other than as receivers and in calls *)
Fixpoint plain_uses (o : op) : list value :=
  match o with
  | GetAttr _ _ _ | Call _ _ _ => []
  | SetAttr _ _ v => [v]
  | Other _ _ args => args
  | If _ c b b' => c :: plain_uses_in b ++ plain_uses_in b'
  | Loop _ n c inits _ b => n :: c :: inits ++ plain_uses_in b
  end
with plain_uses_in (b : block) : list value :=
  match b with Block body yielded => (fix all (l : list op) : list value := match l with [] => [] | o :: r => plain_uses o ++ all r end) body ++ yielded end.
Definition held_by (p : program) (i : nat) : Prop := exists m s, In m (modules p) /\ In s (slots m) /\ slot_value_of s = Object i.
Definition only_instance (p : program) (c : string) (i : nat) : Prop := exists m, filter (fun m => String.eqb (module_class m) c) (modules p) = [m] /\ module_id m = i.
Fixpoint read_decimal (n : nat) (s : string) : nat := match s with EmptyString => n | String c r => read_decimal (10 * n + (nat_of_ascii c - 48)) r end.
(** An operation of a block, at any depth *)
Inductive inside : op -> block -> Prop :=
| inside_here : forall o body y, In o body -> inside o (Block body y)
| inside_then : forall o rs c b b' body y, In (If rs c b b') body -> inside o b -> inside o (Block body y)
| inside_else : forall o rs c b b' body y, In (If rs c b b') body -> inside o b' -> inside o (Block body y)
| inside_loop : forall o rs n c inits params b body y, In (Loop rs n c inits params b) body -> inside o b -> inside o (Block body y).
(** An operation that reads or writes the attribute of a receiver of this type *)
Definition touches (o : op) (a : vtype * string) : Prop := exists x, (exists r, o = GetAttr r (x, fst a) (snd a)) \/ (exists v, o = SetAttr (x, fst a) (snd a) v).
