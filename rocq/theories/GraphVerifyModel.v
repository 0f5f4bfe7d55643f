(** The verifiers of object graphs, global slots and attributes: lib/Dialect/Torch/IR/TorchOps.cpp (ops) and TorchDialect.cpp (dia).

    Simplified: a symbol table is a list of named symbols in which the first of a name is found; the types are those of modules and others, with isValidSubtype a parameter; of the errors only the notes on slots are kept. *)
From Coq Require Import Bool PeanoNat String List.
From Verif Require Import Prelude.
From Verif Require EntryModel.
Import ListNotations.
Open Scope string_scope.
Open Scope list_scope.
Open Scope nat_scope.

Inductive ty := NnModule (class_name : string) | Tensor (n : nat) | Scalar (n : nat).
Definition is_class (c : string) (t : ty) : bool := match t with NnModule d => (c =? d)%string | _ => false end.
Definition is_tensor (t : ty) : bool := match t with Tensor _ => true | _ => false end.
(** what a verifier does: None is a failed assertion *)
Definition has (n : string) (l : list string) : bool := existsb (String.eqb n) l.
Inductive class_child := Attr (name : string) (t : ty) | Method (name function : string) | BadChild.
Inductive symbol := Func (private defined : bool) (inputs : list ty) | Class (children : list class_child) | GlobalSlot (bound : ty) | OtherSymbol.
Definition symbols := list (string * symbol).
Definition lookup (n : string) (s : symbols) : option symbol := option_map snd (find (fun p => String.eqb n (fst p)) s).
(** ClassTypeOp::verify, ops l.396-423: seen is namesToOps *)
Fixpoint verify_class (seen : list string) (l : list class_child) : bool :=
  match l with
  | [] => true
  | Attr n _ :: l => if has n seen then false else verify_class (n :: seen) l
  | Method n _ :: l => if has n seen then false else verify_class (n :: seen) l
  | BadChild :: _ => false
  end.
(** MethodOp::verifySymbolUses, ops l.292-314 *)
Definition verify_method (s : symbols) (class_name function : string) : bool :=
  match lookup function s with
  | Some (Func private defined inputs) =>
      private && defined && match inputs with t :: _ => is_class class_name t | [] => false end
  | _ => false
  end.
(** NnModuleOp::verify, ops l.320-325 *)
Inductive module_child := Slot (name : string) (t : ty) | Terminator | BadModuleChild.
Definition verify_nn_module (l : list module_child) : bool := forallb (fun c => match c with BadModuleChild => false | _ => true end) l.
Definition attrs (l : list class_child) : list (string * ty) := flat_map (fun c => match c with Attr n t => [(n, t)] | _ => [] end) l.
Definition slots (l : list module_child) : list (string * ty) := flat_map (fun c => match c with Slot n t => [(n, t)] | _ => [] end) l.
Section Types.
Context (subtype : ty -> ty -> bool).
(** NnModuleOp::verifySymbolUses, ops l.327-354 *)
Fixpoint match_slots (l : list (string * ty)) (d : list (string * ty)) : bool :=
  match l, d with
  | (n, t) :: l, (m, u) :: d => if subtype t u && (n =? m)%string then match_slots l d else false
  | _, _ => true
  end.
Definition verify_nn_module_symbols (s : symbols) (class_name : string) (l : list module_child) : bool :=
  match lookup class_name s with
  | Some (Class children) => (List.length (slots l) =? List.length (attrs children)) && match_slots (slots l) (attrs children)
  | _ => false
  end.
(** PrimListConstructOp::verify, PrimDictConstructOp::verify, ops l.360-390 *)
Definition verify_list_construct (element : ty) (operands : list ty) : bool := forallb (fun t => subtype t element) operands.
Definition verify_dict_construct (key value : ty) (keys values : list ty) : bool := forallb (fun t => subtype t key) keys && forallb (fun t => subtype t value) values.
(** GlobalSlotModuleInitializerOp::verify, ops l.7318-7402; the notes of l.7359-7372; Crash is the assertion of ArrayRef at l.7379: the operation inside is verified later than the one around it *)
Inductive verdict := Accept | Refuse (missing unexpected : list string) | Crash.
Definition slot_names (s : symbols) : list string := flat_map (fun p => match snd p with GlobalSlot _ => [fst p] | _ => [] end) s.
Fixpoint has_duplicate (l : list string) : bool := match l with [] => false | n :: l => has n l || has_duplicate l end.
Fixpoint verify_bounds (s : symbols) (names : list string) (types : list ty) : verdict :=
  match types, names with
  | [], _ => Accept
  | _ :: _, [] => Crash
  | t :: types, n :: names =>
      match lookup n s with
      | Some (GlobalSlot b) => if subtype t b then verify_bounds s names types else Refuse [] []
      | _ => Crash
      end
  end.
Definition verify_initializer (s : symbols) (initializers : nat) (names : list string) (types : list ty) (allowed : list bool) : verdict :=
  if 1 <? initializers then Refuse [] []
  else if has_duplicate names then Refuse [] []
  else
    let missing := filter (fun n => negb (has n names)) (EntryModel.sorted_set (slot_names s)) in
    let unexpected := filter (fun n => negb (has n (slot_names s))) (EntryModel.sorted_set names) in
    match missing, unexpected with
    | [], [] =>
        match verify_bounds s names types with
        | Accept => if forallb (fun b => b) allowed then Accept else Refuse [] []
        | v => v
        end
    | _, _ => Refuse missing unexpected
    end.
End Types.
(** InitializeGlobalSlotsOp::verify, ops l.7453-7457 *)
Definition verify_initialize (names : list string) (types : list ty) : bool := List.length types =? List.length names.
(** BindSymbolicShapeOp::verify, ops l.7506-7522; isa of no operation is a failed assertion *)
Inductive source := SymbolicInt | OtherOp | BlockArgument.
Fixpoint verify_symbols (l : list source) : option bool :=
  match l with
  | [] => Some true
  | SymbolicInt :: l => verify_symbols l
  | OtherOp :: _ => Some false
  | BlockArgument :: _ => None
  end.
Definition verify_bind (l : list source) (map_symbols : nat) : option bool :=
  if List.length l =? map_symbols then verify_symbols l else Some false.
(** TorchDialect::verifyRegionArgAttribute, dia l.117-140 *)
Inductive attribute := TypeAttr (t : ty) | OtherAttr.
Definition verify_arg_attribute (func : option (list ty)) (arg : nat) (name : string) (a : attribute) : bool :=
  if (name =? "torch.type_bound")%string then
    match func, a with
    | Some inputs, TypeAttr t => is_tensor t && is_tensor (nth arg inputs (Scalar 0))
    | _, _ => false
    end
  else false.
