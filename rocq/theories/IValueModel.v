(** Import of the objects of a TorchScript program.

    Sources: ivi = /repo/projects/jit_ir_common/csrc/jit_ir_importer/ivalue_importer.cpp.
    An object has an address; it is written with the objects inside, so there are no cycles.  Sameness is that of c10::IValue::isSameIdentity: numbers, strings and None by
    value, other objects by address.  Functions are imported elsewhere ([import_function] makes the operation), and the annotator says what is exported (see ClassAnnModel).
    A failed assertion or undefined behaviour counts as refusal.  The position of operations is left out. *)
From Coq Require Import ZArith Bool String List.
From Verif Require Import Prelude DtypeModel JitTypesModel.
From Verif Require TypesModel.
Import ListNotations.
Open Scope string_scope.
Open Scope list_scope.
Open Scope nat_scope.

(** A double: the two zeros, NaN, and the others *)
Inductive double := PosZero | NegZero | NaN | Other (n : Z).
Inductive qscheme := PerTensorAffine (scale : double) (zero_point : Z) | OtherScheme.
(** at::Tensor: address of the storage, scalar type, sizes, contents (as a number), quantization *)
Record tensor_data := { storage : nat; scalar : scalar_type; dims : list Z; contents : Z; quantized : option qscheme }.
(** c10::ClassType: address, name, attributes, methods (name and qualified name of the function) *)
Record class_type := { c_id : nat; c_name : option string; c_attributes : list (string * jit); c_methods : list (string * string) }.
(** c10::IValue *)
Inductive ivalue :=
| VBool (b : bool) | VInt (z : Z) | VDouble (d : double) | VString (s : string) | VNone
| VList (id : nat) (element : jit) (l : list ivalue)
| VDict (id : nat) (key value : jit) (l : list (ivalue * ivalue))
| VTuple (id : nat) (l : list ivalue)
| VTensor (id : nat) (t : tensor_data)
| VModule (id : nat) (c : class_type) (compilation_unit : nat) (slots : list ivalue)
| VLinearParams (id : nat) (weight : ivalue) (bias : option ivalue)
| VUnsupported (id : nat).

(** The operations that are made; a value is the number of its operation *)
Inductive op (func : Type) :=
| OBool (b : bool) | OInt (z : Z) | OFloat (d : double) | OStr (s : string) | ONone
| OList (t : TypesModel.ty) (l : list nat) | ODict (t : TypesModel.ty) (keys values : list nat) | OTuple (l : list nat)
| OLiteral (value_semantics : bool) (shape : list Z) (element : mlir_type) (contents : Z)
| OPerTensorAffine (t : TypesModel.tensor_type) (tensor scale zero_point : nat)
| OModule (class_name : string) (slots : list (string * nat))
| OLinear (weight : nat) (bias : option nat)
| OClass (id : nat) (name : string) (attributes : list (string * TypesModel.ty * bool)) (methods : list (string * string * bool))
| OFunc (f : func).
Arguments OBool {func}. Arguments OInt {func}. Arguments OFloat {func}. Arguments OStr {func}. Arguments ONone {func}. Arguments OList {func}. Arguments ODict {func}. Arguments OTuple {func}.
Arguments OLiteral {func}. Arguments OPerTensorAffine {func}. Arguments OModule {func}. Arguments OLinear {func}. Arguments OClass {func}. Arguments OFunc {func}.

(** An exception: a tensor that shares storage, with the path and the root if they are known, or something else *)
Inductive failure := SharedStorage (path : option (list string * string)) | Refused.
Inductive result (A : Type) := Ok (a : A) | Err (f : failure).
Arguments Ok {A}. Arguments Err {A}.
Definition rbind {A B} (r : result A) (f : A -> result B) : result B := match r with Ok a => f a | Err e => Err e end.
Notation "'let*' x := e 'in' f" := (rbind e (fun x => f)) (at level 200, x pattern, e at level 100, f at level 200).
Definition of_option {A} (o : option A) : result A := match o with Some a => Ok a | None => Err Refused end.

(** IValueEq, ivi l.66-73 *)
Definition same_double (a b : double) : bool :=
  match a, b with
  | (PosZero | NegZero), (PosZero | NegZero) => true
  | Other n, Other m => Z.eqb n m
  | _, _ => false
  end.
Definition address (x : ivalue) : option nat :=
  match x with VList i _ _ | VDict i _ _ _ | VTuple i _ | VModule i _ _ _ | VLinearParams i _ _ | VUnsupported i => Some i | _ => None end.
Definition same (x y : ivalue) : bool :=
  match x, y with
  | VNone, VNone => true
  | VBool a, VBool b => Bool.eqb a b
  | VInt a, VInt b => Z.eqb a b
  | VDouble a, VDouble b => same_double a b
  | VString a, VString b => String.eqb a b
  | VTensor i _, VTensor j _ => i =? j
  | _, _ => match address x, address y with Some i, Some j => i =? j | _, _ => false end
  end.

Section Importer.
Context {func : Type} (opts : options) (import_function : nat -> option func).
(** The functions of a compilation unit, and what is exported of a class: attributes, methods *)
Context (get_functions : nat -> list nat) (exported : class_type -> list bool * list bool).

(** IValueImporter, ivi l.98-147 *)
Record state := { ops : list (op func); value_map : list (ivalue * nat); seen_storages : list nat; class_types : list nat; compilation_unit : option nat;
                  attribute_names : list string; root_module : option string }.
Definition fresh_state : state :=
  {| ops := []; value_map := []; seen_storages := []; class_types := []; compilation_unit := None; attribute_names := []; root_module := None |}.
Definition with_ops (st : state) (o : list (op func)) : state :=
  {| ops := o; value_map := value_map st; seen_storages := seen_storages st; class_types := class_types st; compilation_unit := compilation_unit st;
     attribute_names := attribute_names st; root_module := root_module st |}.
Definition emit (o : op func) (st : state) : nat * state := (List.length (ops st), with_ops st (ops st ++ [o])).
Definition find_value (st : state) (x : ivalue) : option nat := option_map snd (find (fun p => same (fst p) x) (value_map st)).
Definition remember (x : ivalue) (v : nat) (st : state) : state :=
  {| ops := ops st; value_map := (x, v) :: value_map st; seen_storages := seen_storages st; class_types := class_types st; compilation_unit := compilation_unit st;
     attribute_names := attribute_names st; root_module := root_module st |}.
Definition with_names (names : list string) (root : option string) (st : state) : state :=
  {| ops := ops st; value_map := value_map st; seen_storages := seen_storages st; class_types := class_types st; compilation_unit := compilation_unit st;
     attribute_names := names; root_module := root |}.
Definition with_storage (s : nat) (st : state) : state :=
  {| ops := ops st; value_map := value_map st; seen_storages := s :: seen_storages st; class_types := class_types st; compilation_unit := compilation_unit st;
     attribute_names := attribute_names st; root_module := root_module st |}.

(** importCompilationUnit, ivi l.503-592: all functions, once *)
Fixpoint import_functions (l : list nat) (st : state) : result state :=
  match l with
  | [] => Ok st
  | f :: r => let* g := of_option (import_function f) in import_functions r (snd (emit (OFunc g) st))
  end.
Definition import_compilation_unit (cu : nat) (st : state) : result state :=
  match compilation_unit st with
  | Some cu' => if cu' =? cu then Ok st else Err Refused
  | None =>
      import_functions (get_functions cu)
        {| ops := ops st; value_map := value_map st; seen_storages := seen_storages st; class_types := class_types st; compilation_unit := Some cu;
           attribute_names := attribute_names st; root_module := root_module st |}
  end.
(** importClassType and importMethod, ivi l.434-501; the flag is isPrivate *)
Fixpoint import_attributes (l : list (string * jit)) (e : list bool) : option (list (string * TypesModel.ty * bool)) :=
  match l, e with
  | [], _ => Some []
  | (n, j) :: r, b :: e => match from_torch opts j with Made t => do r <- import_attributes r e; Some ((n, t, negb b) :: r) | _ => None end
  | _, _ => None
  end.
Fixpoint import_methods (l : list (string * string)) (e : list bool) : option (list (string * string * bool)) :=
  match l, e with
  | [], _ => Some []
  | (n, f) :: r, b :: e => do r <- import_methods r e; Some ((n, f, negb b) :: r)
  | _, _ => None
  end.
Definition import_class_type (c : class_type) (st : state) : result state :=
  if existsb (Nat.eqb (c_id c)) (class_types st) then Ok st
  else
    let* name := of_option (c_name c) in
    let* attributes := of_option (import_attributes (c_attributes c) (fst (exported c))) in
    let* methods := of_option (import_methods (c_methods c) (snd (exported c))) in
    Ok {| ops := ops st ++ [OClass (c_id c) name attributes methods]; value_map := value_map st; seen_storages := seen_storages st; class_types := c_id c :: class_types st;
          compilation_unit := compilation_unit st; attribute_names := attribute_names st; root_module := root_module st |}.

(** importIValue of a number that is not inside another object *)
Definition import_number (x : ivalue) (o : op func) (st : state) : nat * state :=
  match find_value st x with Some v => (v, st) | None => let '(v, st) := emit o st in (v, remember x v st) end.
(** importTensor, ivi l.376-432 *)
Definition import_tensor (t : tensor_data) (st : state) : result (nat * state) :=
  let* element := of_option (elements_attr (scalar t)) in
  let '(v, st) := emit (OLiteral (assume_value_semantics opts) (dims t) (fst element) (contents t)) st in
  match quantized t with
  | None => Ok (v, st)
  | Some (PerTensorAffine scale zero_point) =>
      let '(s, st) := import_number (VDouble scale) (OFloat scale) st in
      let '(z, st) := import_number (VInt zero_point) (OInt zero_point) st in
      Ok (emit (OPerTensorAffine (tensor (assume_value_semantics opts) (Some (dims t)) (scalar_raw (scalar t))) v s z) st)
  | Some OtherScheme => Err Refused
  end.
(** The check in importIValue, ivi l.236-250 *)
Definition check_storage (x : ivalue) (st : state) : result state :=
  match x with
  | VTensor _ t =>
      if existsb (Nat.eqb (storage t)) (seen_storages st)
      then Err (SharedStorage (match root_module st with Some r => Some (attribute_names st, r) | None => None end))
      else Ok (with_storage (storage t) st)
  | _ => Ok st
  end.
Section Lists.
Context (f : ivalue -> state -> result (nat * state)).
Fixpoint import_list (l : list ivalue) (st : state) : result (list nat * state) :=
  match l with
  | [] => Ok ([], st)
  | x :: r => let* (v, st) := f x st in let* (vs, st) := import_list r st in Ok (v :: vs, st)
  end.
Fixpoint import_pairs (l : list (ivalue * ivalue)) (st : state) : result (list nat * list nat * state) :=
  match l with
  | [] => Ok ([], [], st)
  | (k, x) :: r => let* (kv, st) := f k st in let* (v, st) := f x st in let* (ks, vs, st) := import_pairs r st in Ok (kv :: ks, v :: vs, st)
  end.
(** The loop over the slots, ivi l.203-218 *)
Fixpoint import_slots (names : list string) (l : list ivalue) (st : state) {struct l} : result (list (string * nat) * state) :=
  match l, names with
  | [], [] => Ok ([], st)
  | x :: r, n :: names =>
      let* (v, st) := f x (with_names (attribute_names st ++ [n]) (root_module st) st) in
      let* (vs, st) := import_slots names r (with_names (removelast (attribute_names st)) (root_module st) st) in
      Ok ((n, v) :: vs, st)
  | _, _ => Err Refused
  end.
End Lists.
(** importIValue, rawImportIValue and importModule, ivi l.166-374 *)
Fixpoint import_value (x : ivalue) (st : state) : result (nat * state) :=
  match find_value st x with
  | Some v => Ok (v, st)
  | None =>
      let* st := check_storage x st in
      let* (v, st) :=
        match x with
        | VBool b => Ok (emit (OBool b) st)
        | VDouble d => Ok (emit (OFloat d) st)
        | VInt z => Ok (emit (OInt z) st)
        | VList _ element l =>
            let* (vs, st) := import_list import_value l st in
            match from_torch opts element with Made t => Ok (emit (OList (TypesModel.List_ t) vs) st) | _ => Err Refused end
        | VDict _ key value l =>
            let* (ks, vs, st) := import_pairs import_value l st in
            match from_torch opts (JDict key value) with Made t => Ok (emit (ODict t ks vs) st) | _ => Err Refused end
        | VTuple _ l => let* (vs, st) := import_list import_value l st in Ok (emit (OTuple vs) st)
        | VTensor _ t => import_tensor t st
        | VModule _ c cu slots =>
            let* name := of_option (c_name c) in
            let* st := import_compilation_unit cu st in
            let* st := import_class_type c st in
            let st := with_names (attribute_names st) (match root_module st with Some r => Some r | None => Some name end) st in
            let* (vs, st) := import_slots import_value (map fst (c_attributes c)) slots st in
            Ok (emit (OModule name vs) (with_names (attribute_names st) None st))
        | VString s => Ok (emit (OStr s) st)
        | VNone => Ok (emit ONone st)
        | VLinearParams _ weight bias =>
            let* (w, st) := import_value weight st in
            match bias with
            | Some b => let* (b, st) := import_value b st in Ok (emit (OLinear w (Some b)) st)
            | None => Ok (emit (OLinear w None) st)
            end
        | VUnsupported _ => Err Refused
        end in
      Ok (v, remember x v st)
  end.
Definition import_ivalue (x : ivalue) : result (nat * list (op func)) :=
  let* (v, st) := import_value x fresh_state in Ok (v, ops st).
End Importer.
