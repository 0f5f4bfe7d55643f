(** lib/Dialect/Torch/Transforms/InlineGlobalSlots.cpp (ig): the analysis that finds the global slots whose initial values can stand for them, and the pass that puts these values where the slots are read.

    Simplified: a program is the sequence of its operations in the order of the walk (ig l.157-183), with the traits that the analysis asks for; the types are those that it tells apart. The solver of the framework visits the operations whose inputs changed; here all operations are visited again until nothing changes. A backward slice lists the operations in the order of the initializer. A copied operation gives value [v] the number [base + v]; the operation that adjusts static information is always there and keeps the number of the value that was read, so uses need no renaming. *)
From Coq Require Import Bool PeanoNat List.
From Verif Require Import Prelude.
Import ListNotations.
Open Scope nat_scope.

Inductive ty := TInt | TFloat | TBool | TString | TNone | TVTensor | TTensor | TOther (n : nat).
Definition value := (nat * ty)%type.
Inductive kind := Plain (k : nat) | IfOp | Initialize (slots : list nat) | GetSlot (s : nat) | SetSlot (s : nat) | Slot (s : nat) (public : bool) | Adjust.
Record op := { is : kind; value_semantics : bool; effect_free : bool; operands : list value; results : list value }.

(** isTypeTriviallySafe, ig l.70-73 *)
Definition trivially_safe (t : ty) : bool := match t with TInt | TFloat | TBool | TString | TNone | TVTensor => true | TTensor | TOther _ => false end.
(** isUseTreatedWithValueSemantics, ig l.75-88 *)
Definition used_as_value (o : op) (i : nat) : bool :=
  if value_semantics o then true else match is o with IfOp => i =? 0 | _ => false end.

(** The states: what was found unsafe *)
Record state := { unsafe_values : list nat; unsafe_slots : list nat }.
Definition mem (n : nat) (l : list nat) : bool := existsb (Nat.eqb n) l.
(** setSafe, ig l.115-127; without assertions a safe state replaces an unsafe one *)
Definition set_safe (assertions : bool) (n : nat) (safe : bool) (l : list nat) : option (list nat) :=
  match mem n l, safe with
  | true, true => if assertions then None else Some (filter (fun k => negb (k =? n)) l)
  | true, false | false, true => Some l
  | false, false => Some (n :: l)
  end.

(** isValueSafeTransferFunction, ig l.222-258 *)
Definition safe_use (st : state) (o : op) (i : nat) : bool :=
  if used_as_value o i then true
  else if effect_free o && forallb (fun r => negb (mem (fst r) (unsafe_values st))) (results o) then true
  else match is o with
       | Initialize slots => match nth_error slots i with Some s => negb (mem s (unsafe_slots st)) | None => false end
       | _ => false
       end.
Fixpoint safe_uses (st : state) (v : value) (o : op) (i : nat) (l : list value) : bool :=
  match l with [] => true | u :: r => (negb (fst u =? fst v) || safe_use st o i) && safe_uses st v o (S i) r end.
Definition safe_value (p : list op) (st : state) (v : value) : bool :=
  if trivially_safe (snd v) then true else forallb (fun o => safe_uses st v o 0 (operands o)) p.

(** visit, ig l.186-219 *)
Definition visit_result (assertions : bool) (p : list op) (o : op) (v : value) (st : state) : option state :=
  do l <- set_safe assertions (fst v) (safe_value p st v) (unsafe_values st);
  let st := {| unsafe_values := l; unsafe_slots := unsafe_slots st |} in
  match is o with
  | GetSlot s => if mem (fst v) l then do k <- set_safe assertions s false (unsafe_slots st); Some {| unsafe_values := l; unsafe_slots := k |} else Some st
  | _ => Some st
  end.
Fixpoint visit_results (assertions : bool) (p : list op) (o : op) (vs : list value) (st : state) : option state :=
  match vs with [] => Some st | v :: r => do st <- visit_result assertions p o v st; visit_results assertions p o r st end.
Definition visit (assertions : bool) (p : list op) (o : op) (st : state) : option state := visit_results assertions p o (results o) st.
(** initialize, ig l.156-184 *)
Definition walk_op (assertions : bool) (p : list op) (o : op) (st : state) : option state :=
  do st <- (match is o with
            | Slot s public => do k <- set_safe assertions s (negb public) (unsafe_slots st); Some {| unsafe_values := unsafe_values st; unsafe_slots := k |}
            | SetSlot s => do k <- set_safe assertions s false (unsafe_slots st); Some {| unsafe_values := unsafe_values st; unsafe_slots := k |}
            | _ => Some st
            end);
  visit assertions p o st.
Fixpoint each (f : op -> state -> option state) (l : list op) (st : state) : option state :=
  match l with [] => Some st | o :: r => do st <- f o st; each f r st end.
Definition size (st : state) : nat := List.length (unsafe_values st) + List.length (unsafe_slots st).
(** The solver's iteration *)
Fixpoint solve (assertions : bool) (p : list op) (fuel : nat) (st : state) : option state :=
  match fuel with
  | 0 => None
  | S fuel => do st' <- each (visit assertions p) p st; if size st' =? size st then Some st' else solve assertions p fuel st'
  end.
Definition slots_of (o : op) : list nat := match is o with GetSlot s | SetSlot s | Slot s _ => [s] | _ => [] end.
Definition enough (p : list op) : nat := S (List.length (flat_map results p) + List.length (flat_map slots_of p)).
Definition analyse (assertions : bool) (p : list op) : option state :=
  do st <- each (walk_op assertions p) p {| unsafe_values := []; unsafe_slots := [] |}; solve assertions p (enough p) st.

(** getBackwardSlice with the root, ig l.260-270: [init] are the operations of the initializer before its terminator *)
Definition meets (o : op) (needed : list nat) : bool := existsb (fun r => mem (fst r) needed) (results o).
Definition backward (init : list op) (needed : list nat) : list nat * list op :=
  fold_right (fun o '(needed, acc) => if meets o needed then (map fst (operands o) ++ needed, o :: acc) else (needed, acc)) (needed, []) init.
Definition slice (init : list op) (v : nat) : list op := snd (backward init [v]).
(** isInitialValueTransitivelySafeToInline, ig l.272-284 *)
Definition transitively_safe (st : state) (init : list op) (v : nat) : bool :=
  forallb (fun o => forallb (fun r => negb (mem (fst r) (unsafe_values st))) (results o)) (slice init v).
(** The choice of the slots, ig l.324-356 *)
Fixpoint chosen (st : state) (init : list op) (slots : list nat) (values : list value) : list nat :=
  match slots, values with
  | s :: slots, v :: values => (if negb (mem s (unsafe_slots st)) && transitively_safe st init (fst v) then [s] else []) ++ chosen st init slots values
  | _, _ => []
  end.

(** The rewriting of reads, ig l.358-381 *)
Definition initial_value (slots : list nat) (values : list value) (s : nat) : option value := option_map snd (find (fun p => fst p =? s) (combine slots values)).
Definition clone (base : nat) (o : op) : op :=
  {| is := is o; value_semantics := value_semantics o; effect_free := effect_free o;
     operands := map (fun v => (base + fst v, snd v)) (operands o); results := map (fun v => (base + fst v, snd v)) (results o) |}.
Definition rewrite_get (safe : list nat) (init : list op) (slots : list nat) (values : list value) (base : nat) (o : op) : option (list op) :=
  match is o with
  | GetSlot s =>
      if mem s safe then
        do v <- initial_value slots values s;
        Some (map (clone base) (slice init (fst v)) ++ [{| is := Adjust; value_semantics := false; effect_free := true; operands := [(base + fst v, snd v)]; results := results o |}])
      else Some [o]
  | _ => Some [o]
  end.
(** [width] is above all numbers of values *)
Fixpoint rewrite_gets (safe : list nat) (init : list op) (slots : list nat) (values : list value) (width base : nat) (l : list op) : option (list op) :=
  match l with
  | [] => Some []
  | o :: r => do a <- rewrite_get safe init slots values base o; do b <- rewrite_gets safe init slots values width (base + width) r; Some (a ++ b)
  end.
(** The new initializer, ig l.397-414 *)
Fixpoint kept_slots (safe : list nat) (slots : list nat) (values : list value) : list nat * list value :=
  match slots, values with
  | s :: slots, v :: values => let '(a, b) := kept_slots safe slots values in if mem s safe then (a, b) else (s :: a, v :: b)
  | _, _ => ([], [])
  end.

(** A module: slots are declared, an initializer, functions; [decls] [before] the initializer and functions after it *)
Record module := { decls : list op; initializer : list op; init_slots : list nat; init_values : list value; rest : list op }.
Definition terminator (slots : list nat) (values : list value) : op := {| is := Initialize slots; value_semantics := false; effect_free := false; operands := values; results := [] |}.
Definition program (m : module) : list op := decls m ++ initializer m ++ terminator (init_slots m) (init_values m) :: rest m.
(** runOnOperation, ig l.289-416 *)
Definition inline_slots (assertions : bool) (width : nat) (m : module) : option module :=
  do st <- analyse assertions (program m);
  let safe := chosen st (initializer m) (init_slots m) (init_values m) in
  do body <- rewrite_gets safe (initializer m) (init_slots m) (init_values m) width width (rest m);
  let '(slots, values) := kept_slots safe (init_slots m) (init_values m) in
  Some {| decls := filter (fun o => match is o with Slot s _ => negb (mem s safe) | _ => true end) (decls m);
          initializer := initializer m; init_slots := slots; init_values := values; rest := body |}.
