(** lib/Dialect/Torch/Transforms/GlobalizeObjectGraph.cpp (gg): the pass that turns the objects of a module into global slots and specialises the functions for the objects they get.

    Simplified: operations other than the reading and writing of attributes, calls, conditionals and loops are [Other]; a slot is known by its module and its name (slots have the names of the attributes of the class, which differ); the map from values to modules at an operation has the values visible there (IRMapping has all of them, and values are defined once); a search that runs into undefined behaviour or an assertion is [None], as is an error; the number of rounds of the search for specialisations is a parameter. Locations and the text of errors are not modelled. *)
From Coq Require Import Bool PeanoNat String List.
From Verif Require Import Prelude.
Import ListNotations.
Open Scope string_scope.
Open Scope list_scope.
Open Scope nat_scope.

(** torch.class_type, torch.nn_module and torch.slot *)
Inductive vtype := Mod (c : string) | Data.
Record attr := { attr_name : string; attr_type : vtype; attr_private : bool }.
Record method := { method_name : string; method_function : string; method_private : bool }.
Record class_type := { class_name : string; attrs : list attr; methods : list method }.
Inductive slot_value := Object (i : nat) | Constant (d : nat).
Record slot := { slot_name : string; slot_value_of : slot_value }.
Record nn_module := { module_id : nat; module_class : string; slots : list slot }.
(** Values have types; functions return what their block yields *)
Definition value := (nat * vtype)%type.
Inductive op :=
| GetAttr (r : value) (receiver : value) (name : string)
| SetAttr (receiver : value) (name : string) (v : value)
| Call (rs : list value) (f : string) (args : list value)
| Other (o : nat) (rs args : list value)
| If (rs : list value) (c : value) (b b' : block)
| Loop (rs : list value) (n c : value) (inits : list value) (params : list value) (b : block)
with block := Block (body : list op) (yielded : list value).
Record function := { function_name : string; function_private : bool; arguments : list value; body_of : block }.
Record program := { classes : list class_type; modules : list nn_module; functions : list function }.
(** The result: torch.global_slot.get and .set instead of attributes *)
Inductive top :=
| TGet (r : nat) (name : string)
| TSet (name : string) (v : nat)
| TCall (rs : list nat) (f : string) (args : list nat)
| TOther (o : nat) (rs args : list nat)
| TIf (rs : list nat) (c : nat) (b b' : tblock)
| TLoop (rs : list nat) (n c : nat) (inits : list nat) (params : list nat) (b : tblock)
with tblock := TBlock (body : list top) (yielded : list nat).
Record tfunction := { tname : string; tprivate : bool; targuments : list nat; tbody : tblock }.
Record global := { global_name : string; global_private : bool; initial : slot_value }.

Definition find_module (l : list nn_module) (i : nat) : option nn_module := find (fun m => module_id m =? i) l.
Definition find_slot (m : nn_module) (n : string) : option slot := find (fun s => String.eqb (slot_name s) n) (slots m).
Definition find_class (l : list class_type) (c : string) : option class_type := find (fun x => String.eqb (class_name x) c) l.
Definition find_function (l : list function) (f : string) : option function := find (fun x => String.eqb (function_name x) f) l.

(** findRootNnModule, gg l.29-49 *)
Definition is_used (l : list nn_module) (i : nat) : bool :=
  existsb (fun m => existsb (fun s => match slot_value_of s with Object j => j =? i | Constant _ => false end) (slots m)) l.
Definition find_root (l : list nn_module) : option nn_module :=
  match filter (fun m => negb (is_used l (module_id m))) l with [r] => Some r | _ => None end.

(** collectUsedSlots, gg l.102-154: the class and the name of each attribute read or written *)
Fixpoint accesses (o : op) : list (vtype * string) :=
  match o with
  | GetAttr _ receiver n | SetAttr receiver n _ => [(snd receiver, n)]
  | Call _ _ _ | Other _ _ _ => []
  | If _ _ b b' => accesses_in b ++ accesses_in b'
  | Loop _ _ _ _ _ b => accesses_in b
  end
with accesses_in (b : block) : list (vtype * string) :=
  match b with Block body _ => (fix all (l : list op) : list (vtype * string) := match l with [] => [] | o :: r => accesses o ++ all r end) body end.
Definition all_accesses (p : program) : list (vtype * string) := flat_map (fun f => accesses_in (body_of f)) (functions p).
Definition known_access (l : list nn_module) (a : vtype * string) : bool :=
  match a with
  | (Mod c, n) => existsb (fun m => String.eqb (module_class m) c && existsb (fun s => String.eqb (slot_name s) n) (slots m)) l
  | (Data, _) => false
  end.
Definition vtype_eqb (a b : vtype) : bool := match a, b with Mod x, Mod y => String.eqb x y | Data, Data => true | _, _ => false end.
Definition slot_used (used : list (vtype * string)) (m : nn_module) (n : string) : bool :=
  existsb (fun a => vtype_eqb (fst a) (Mod (module_class m)) && String.eqb (snd a) n) used.

(** recursivelyTraverse, gg l.156-199: the modules seen, the global slot of each slot and the linkage of each method *)
Record info := { seen : list nat; links : list ((nat * string) * global); exports : list ((nat * string) * (string * bool)) }.
Definition join (stack : list string) : string := String.concat "." stack.
Section Traverse.
Context (p : program) (used : list (vtype * string)).
Definition add_seen (i : nat) (x : info) : info := {| seen := i :: seen x; links := links x; exports := exports x |}.
Definition add_link (k : nat * string) (g : global) (x : info) : info := {| seen := seen x; links := links x ++ [(k, g)]; exports := exports x |}.
Definition add_export (k : nat * string) (e : string * bool) (x : info) : info := {| seen := seen x; links := links x; exports := (k, e) :: exports x |}.
Fixpoint traverse (fuel : nat) (stack : list string) (i : nat) (x : info) : option info :=
  match fuel with
  | 0 => None
  | S fuel =>
      if existsb (Nat.eqb i) (seen x) then None
      else
        do m <- find_module (modules p) i;
        do c <- find_class (classes p) (module_class m);
        do x <- (fix slots_and_attrs (ss : list slot) (aa : list attr) (x : info) : option info :=
                   match ss, aa with
                   | s :: ss, a :: aa =>
                       let path := stack ++ [attr_name a] in
                       do x <- (match attr_type a with
                                | Mod _ => match slot_value_of s with Object j => traverse fuel path j x | Constant _ => None end
                                | Data => Some (if slot_used used m (slot_name s) then add_link (i, slot_name s) {| global_name := join path; global_private := attr_private a; initial := slot_value_of s |} x else x)
                                end);
                       slots_and_attrs ss aa x
                   | _, _ => Some x
                   end) (slots m) (attrs c) (add_seen i x);
        Some (fold_left (fun x d => add_export (i, method_function d) (join (stack ++ [method_name d]), method_private d) x) (methods c) x)
  end.
End Traverse.

(** verifyNnModuleValueUses and verifyFuncConformsToSubset, gg l.441-474: modules are used by calls and as receivers only *)
Definition is_module (v : value) : bool := match snd v with Mod _ => true | Data => false end.
Definition plain (l : list value) : bool := forallb (fun v => negb (is_module v)) l.
Fixpoint conforms (o : op) : bool :=
  match o with
  | GetAttr _ _ _ => true
  | SetAttr _ _ v => plain [v]
  | Call _ _ _ => true
  | Other _ _ args => plain args
  | If _ c b b' => plain [c] && conforms_in b && conforms_in b'
  | Loop _ n c inits _ b => plain [n; c] && plain inits && conforms_in b
  end
with conforms_in (b : block) : bool :=
  match b with Block body yielded => (fix all (l : list op) : bool := match l with [] => true | o :: r => conforms o && all r end) body && plain yielded end.

(** Monomorphization, gg l.300-303: a function, and the modules at indices of its arguments *)
Definition mono := (string * list (nat * nat))%type.
Definition mapping := list (nat * nat).
Definition mapped (mu : mapping) (v : value) : option nat := option_map snd (find (fun p => fst p =? fst v) mu).
Fixpoint pairs_eqb (a b : list (nat * nat)) : bool :=
  match a, b with [], [] => true | (x, y) :: a, (x', y') :: b => (x =? x') && (y =? y') && pairs_eqb a b | _, _ => false end.
Definition mono_eqb (a b : mono) : bool := String.eqb (fst a) (fst b) && pairs_eqb (snd a) (snd b).
(** createMonomorphizationForCall, gg l.355-370 *)
Fixpoint instances_of (mu : mapping) (k : nat) (args : list value) : option (list (nat * nat)) :=
  match args with
  | [] => Some []
  | v :: r => if is_module v then do i <- mapped mu v; do l <- instances_of mu (S k) r; Some ((k, i) :: l) else instances_of mu (S k) r
  end.
(** The beginning of analyzeInstances, gg l.334-338: the last of the arguments of the same name is found first *)
Fixpoint start (args : list value) (l : list (nat * nat)) (mu : mapping) : option mapping :=
  match l with
  | [] => Some mu
  | (k, i) :: l => do v <- nth_error args k; start args l ((fst v, i) :: mu)
  end.
Section Bodies.
Context (ms : list nn_module).
(** The rest of analyzeInstances, gg l.339-352, at one operation *)
Definition read_module (mu : mapping) (r receiver : value) (n : string) : option mapping :=
  if is_module r then
    do i <- mapped mu receiver;
    do m <- find_module ms i;
    do s <- find_slot m n;
    match slot_value_of s with Object j => Some ((fst r, j) :: mu) | Constant _ => None end
  else Some mu.
(** The calls found by generateNewMonomorphizations, gg l.415-429 *)
Fixpoint calls (mu : mapping) (o : op) : option (list mono * mapping) :=
  match o with
  | GetAttr r receiver n => do mu <- read_module mu r receiver n; Some ([], mu)
  | SetAttr _ _ _ | Other _ _ _ => Some ([], mu)
  | Call _ f args => do l <- instances_of mu 0 args; Some ([(f, l)], mu)
  | If _ _ b b' => do l <- calls_in mu b; do l' <- calls_in mu b'; Some (l ++ l', mu)
  | Loop _ _ _ _ _ b => do l <- calls_in mu b; Some (l, mu)
  end
with calls_in (mu : mapping) (b : block) : option (list mono) :=
  match b with
  | Block body _ =>
      (fix all (l : list op) (mu : mapping) : option (list mono) :=
         match l with [] => Some [] | o :: r => do (c, mu) <- calls mu o; do cs <- all r mu; Some (c ++ cs) end) body mu
  end.
(** rewriteMonomorphizedFuncClone, gg l.501-582 *)
Context (global_of : nat -> string -> option string) (name_of : mono -> option string).
Definition slot_global (mu : mapping) (receiver : value) (n : string) : option string :=
  do i <- mapped mu receiver;
  do m <- find_module ms i;
  do s <- find_slot m n;
  global_of i (slot_name s).
Definition data (l : list value) : list nat := map fst (filter (fun v => negb (is_module v)) l).
Fixpoint rewrite_op (mu : mapping) (o : op) : option (list top * mapping) :=
  match o with
  | GetAttr r receiver n =>
      if is_module r then do mu <- read_module mu r receiver n; Some ([], mu)
      else do g <- slot_global mu receiver n; Some ([TGet (fst r) g], mu)
  | SetAttr receiver n v => do g <- slot_global mu receiver n; Some ([TSet g (fst v)], mu)
  | Call rs f args => do l <- instances_of mu 0 args; do g <- name_of (f, l); Some ([TCall (map fst rs) g (data args)], mu)
  | Other k rs args => Some ([TOther k (map fst rs) (map fst args)], mu)
  | If rs c b b' => do t <- rewrite_block mu b; do t' <- rewrite_block mu b'; Some ([TIf (map fst rs) (fst c) t t'], mu)
  | Loop rs n c inits params b => do t <- rewrite_block mu b; Some ([TLoop (map fst rs) (fst n) (fst c) (map fst inits) (map fst params) t], mu)
  end
with rewrite_block (mu : mapping) (b : block) : option tblock :=
  match b with
  | Block body yielded =>
      do ops <- (fix all (l : list op) (mu : mapping) : option (list top) :=
                   match l with [] => Some [] | o :: r => do (t, mu) <- rewrite_op mu o; do ts <- all r mu; Some (t ++ ts) end) body mu;
      Some (TBlock ops (map fst yielded))
  end.
End Bodies.

(** MonomorphizationTracker, gg l.373-436 *)
Definition instances_in (p : program) (c : string) : list nat := map module_id (filter (fun m => String.eqb (module_class m) c) (modules p)).
Fixpoint trivial (p : program) (k : nat) (args : list value) : option (list (nat * nat)) :=
  match args with
  | [] => Some []
  | (_, Data) :: r => trivial p (S k) r
  | (_, Mod c) :: r => match instances_in p c with [i] => do l <- trivial p (S k) r; Some ((k, i) :: l) | _ => None end
  end.
Definition seeds (p : program) : list mono := flat_map (fun f => match trivial p 0 (arguments f) with Some l => [(function_name f, l)] | None => [] end) (functions p).
Definition calls_of (p : program) (m : mono) : option (list mono) :=
  do f <- find_function (functions p) (fst m);
  do mu <- start (arguments f) (snd m) [];
  calls_in (modules p) mu (body_of f).
Fixpoint insert_all (l : list mono) (dirty found : list mono) : list mono * list mono :=
  match l with
  | [] => (dirty, found)
  | m :: r => if existsb (mono_eqb m) found then insert_all r dirty found else insert_all r (m :: dirty) (found ++ [m])
  end.
Fixpoint track (p : program) (rounds : nat) (dirty found : list mono) : option (list mono) :=
  match dirty with
  | [] => Some found
  | m :: dirty =>
      match rounds with
      | 0 => None
      | S rounds => do l <- calls_of p m; let '(dirty, found) := insert_all l dirty found in track p rounds dirty found
      end
  end.
Definition monomorphizations (p : program) (rounds : nat) : option (list mono) :=
  let '(dirty, found) := insert_all (seeds p) [] [] in track p rounds dirty found.

(** verifyPublicMonomorphizations, gg l.476-497 *)
Definition count (f : string) (ms : list mono) : nat := List.length (filter (fun m => String.eqb (fst m) f) ms).
Definition public_once (p : program) (ms : list mono) : bool :=
  forallb (fun c => forallb (fun d => method_private d || (count (method_function d) ms <=? 1)) (methods c)) (classes p).

(** Names, gg l.637-665: the name and whether it is private *)
Definition export_of (x : info) (m : mono) : option (string * bool) :=
  match snd m with (0, i) :: _ => option_map snd (find (fun e => (fst (fst e) =? i) && String.eqb (snd (fst e)) (fst m)) (exports x)) | _ => None end.
Definition digit (n : nat) : string := match n with 0 => "0" | 1 => "1" | 2 => "2" | 3 => "3" | 4 => "4" | 5 => "5" | 6 => "6" | 7 => "7" | 8 => "8" | _ => "9" end.
Fixpoint decimal (fuel n : nat) : string := match fuel with 0 => "" | S fuel => if n <? 10 then digit n else String.append (decimal fuel (n / 10)) (digit (n mod 10)) end.
Fixpoint named (p : program) (x : info) (uniquifier : nat) (ms : list mono) : option (list (mono * (string * bool))) :=
  match ms with
  | [] => Some []
  | m :: r =>
      do f <- find_function (functions p) (fst m);
      match export_of x m with
      | Some e => do l <- named p x uniquifier r; Some ((m, e) :: l)
      | None => do l <- named p x (S uniquifier) r; Some ((m, (String.append (fst m) (String.append "$" (decimal (S uniquifier) uniquifier)), function_private f)) :: l)
      end
  end.
Definition name_in (l : list (mono * (string * bool))) (m : mono) : option string := option_map (fun e => fst (snd e)) (find (fun e => mono_eqb (fst e) m) l).
Definition global_in (x : info) (i : nat) (n : string) : option string := option_map (fun e => global_name (snd e)) (find (fun e => (fst (fst e) =? i) && String.eqb (snd (fst e)) n) (links x)).
Definition new_function (p : program) (x : info) (l : list (mono * (string * bool))) (e : mono * (string * bool)) : option tfunction :=
  do f <- find_function (functions p) (fst (fst e));
  do mu <- start (arguments f) (snd (fst e)) [];
  do t <- rewrite_block (modules p) (global_in x) (name_in l) mu (body_of f);
  Some {| tname := fst (snd e); tprivate := snd (snd e); targuments := data (arguments f); tbody := t |}.
Fixpoint omap {A B} (f : A -> option B) (l : list A) : option (list B) := match l with [] => Some [] | a :: r => do b <- f a; do bs <- omap f r; Some (b :: bs) end.

(** globalizeObjectGraph, gg l.584-703; the initializer gives each global slot the value of its slot, gg l.232-265 *)
Record result := { globals : list global; new_functions : list tfunction }.
Definition no_info : info := {| seen := []; links := []; exports := [] |}.
Definition analyze (p : program) : option info :=
  do root <- find_root (modules p);
  assert (forallb (known_access (modules p)) (all_accesses p));
  traverse p (all_accesses p) (S (List.length (modules p))) [] (module_id root) no_info.
Definition specialise (p : program) (rounds : nat) (x : info) : option (list (mono * (string * bool))) :=
  assert (forallb (fun f => conforms_in (body_of f)) (functions p));
  do ms <- monomorphizations p rounds;
  assert (public_once p ms);
  named p x 0 ms.
Definition globalize (p : program) (rounds : nat) : option result :=
  do x <- analyze p;
  do l <- specialise p rounds x;
  do fs <- omap (new_function p x l) l;
  Some {| globals := map snd (links x); new_functions := fs |}.
