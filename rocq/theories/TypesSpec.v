(** What the types of the torch dialect mean, independently of the code that compares them. *)
From Coq Require Import ZArith Bool String List.
From Verif Require Import Prelude DtypeModel TypesModel.
Import ListNotations.
Open Scope list_scope.
Open Scope Z_scope.

(** ** Values *)
Record tensor := { by_value : bool; shape : list Z; dtype_of : dtype; storage : option encoding }.
Inductive val :=
| VInt (z : Z) | VFloat (z : Z) | VBool (b : bool) | VNone | VStr (s : string) | VDevice (z : Z) | VGenerator (z : Z) | VLinearParams (z : Z)
| VQInt8 (z : Z) | VQInt16 (z : Z) | VQUInt8 (z : Z) | VQInt32 (z : Z) | VModule (class_name : string)
| VList (l : list val) | VTuple (l : list val) | VDict (l : list (val * val)) | VTensor (t : tensor).

Definition fits_size (s n : Z) : Prop := s = -1 \/ s = n.
(** A tensor type describes a tensor when every known fact about it holds. Storage is only constrained by
    [stored_as], below. *)
Definition describes (t : tensor_type) (x : tensor) : Prop :=
  by_value x = value_semantics t /\
  match sizes t with None => True | Some s => Forall2 fits_size s (shape x) end /\
  match elt t with None => True | Some d => d = dtype_of x end.
Definition stored_as (t : tensor_type) (x : tensor) : Prop :=
  match sparsity t with None => True | Some e => storage x = Some e end.
Definition atom_has (a : atom) (v : val) : Prop :=
  match a, v with
  | AnyA, _ => True
  | NumberA, (VInt _ | VFloat _) => True
  | IntA, VInt _ => True | FloatA, VFloat _ => True | BoolA, VBool _ => True | NoneA, VNone => True | StringA, VStr _ => True
  | DeviceA, VDevice _ => True | GeneratorA, VGenerator _ => True | LinearParamsA, VLinearParams _ => True
  | QInt8A, VQInt8 _ => True | QInt16A, VQInt16 _ => True | QUInt8A, VQUInt8 _ => True | QInt32A, VQInt32 _ => True
  | _, _ => False
  end.
(** The values of a type, given the meaning of tensor types. *)
Section Has.
  Variable tensor_has : tensor_type -> tensor -> Prop.
  Fixpoint has (t : ty) (v : val) {struct t} : Prop :=
    match t with
    | Atom a => atom_has a v
    | Module n => v = VModule n
    | Optional u => v = VNone \/ has u v
    | List_ u => exists l, v = VList l /\ Forall (has u) l
    | Tuple ts => exists l, v = VTuple l /\ (fix go ts l := match ts, l with [], [] => True | u :: ts', x :: l' => has u x /\ go ts' l' | _, _ => False end) ts l
    | Union ts => (fix go ts := match ts with [] => False | u :: ts' => has u v \/ go ts' end) ts
    | Dict k w => exists l, v = VDict l /\ Forall (fun p => has k (fst p) /\ has w (snd p)) l
    | Tens u => exists x, v = VTensor x /\ tensor_has u x
    end.
End Has.

(** ** Declarative subtyping *)
Definition refines (s t : tensor_type) : Prop :=
  value_semantics s = value_semantics t /\
  (elt t = None \/ elt t = elt s) /\
  (sizes t = None \/ exists a b, sizes t = Some a /\ sizes s = Some b /\ Forall2 fits_size a b).
Inductive sub : ty -> ty -> Prop :=
| sub_refl t : sub t t
| sub_any t : sub t (Atom AnyA)
| sub_int : sub (Atom IntA) (Atom NumberA)
| sub_float : sub (Atom FloatA) (Atom NumberA)
| sub_none t : sub (Atom NoneA) (Optional t)
| sub_some s t : sub s t -> sub s (Optional t)
| sub_union_left cs t : (forall c, In c cs -> sub c t) -> sub (Union cs) t
| sub_union_right s c cs : In c cs -> sub s c -> sub s (Union cs)
| sub_tuple ss ts : Forall2 sub ss ts -> sub (Tuple ss) (Tuple ts)
| sub_tensor s t : refines s t -> sub (Tens s) (Tens t).

(** ** Well-formed types *)
Definition size_ok (x : Z) : Prop := x = -1 \/ 0 <= x.
Definition sizes_ok (t : tensor_type) : Prop := match sizes t with None => True | Some s => Forall size_ok s end.
(** What is forgotten. *)
Definition forget_storage (t : tensor_type) : tensor_type :=
  {| value_semantics := value_semantics t; sizes := sizes t; elt := elt t; sparsity := None |}.

(** Element types a torch tensor can have, as a list of cases. *)
Definition torch_integer (w : Z) (s : signedness) : Prop :=
  (s = Signless /\ w = 1) \/ (s <> Signless /\ (w = 4 \/ w = 8 \/ w = 16 \/ w = 32 \/ w = 64)).
Definition plain_element (m : mlir_type) : Prop :=
  match m with
  | FloatT _ | QInt8T | QUInt8T | QInt16T | QInt32T => True
  | IntT w s => torch_integer w s
  | _ => False
  end.
Definition torch_element (d : dtype) : Prop :=
  match d with
  | Builtin (ComplexT e) => plain_element e
  | Builtin m => plain_element m
  | F8E4M3B11FNUZ | StringD => True
  end.

(** Types whose printed form loses nothing. *)
Definition printable (venc : encoding -> list Z -> dtype -> bool) (t : tensor_type) : Prop :=
  (forall d, elt t = Some d -> torch_element d) /\ sizes_ok t /\
  (forall e, sparsity t = Some e ->
     (sizes t <> None \/ elt t <> None) /\ (exists k, e = SparseE k) /\
     (forall l d, sizes t = Some l -> elt t = Some d -> venc e l d = true)).
Fixpoint all_tensors (P : tensor_type -> Prop) (t : ty) : Prop :=
  match t with
  | Atom _ | Module _ => True
  | Optional u | List_ u => all_tensors P u
  | Tuple ts | Union ts => (fix go l := match l with [] => True | u :: l' => all_tensors P u /\ go l' end) ts
  | Dict k v => all_tensors P k /\ all_tensors P v
  | Tens u => P u
  end.

(** ** Induction on types *)
Section Induction.
  Variable P : ty -> Prop.
  Hypothesis HA : forall a, P (Atom a).
  Hypothesis HM : forall n, P (Module n).
  Hypothesis HO : forall t, P t -> P (Optional t).
  Hypothesis HL : forall t, P t -> P (List_ t).
  Hypothesis HT : forall ts, Forall P ts -> P (Tuple ts).
  Hypothesis HU : forall ts, Forall P ts -> P (Union ts).
  Hypothesis HD : forall k v, P k -> P v -> P (Dict k v).
  Hypothesis HX : forall t, P (Tens t).
  Fixpoint ty_induction (t : ty) : P t :=
    let fix all (l : list ty) : Forall P l :=
      match l with [] => Forall_nil _ | x :: r => Forall_cons _ (ty_induction x) (all r) end in
    match t with
    | Atom a => HA a | Module n => HM n
    | Optional u => HO u (ty_induction u) | List_ u => HL u (ty_induction u)
    | Tuple ts => HT ts (all ts) | Union ts => HU ts (all ts)
    | Dict k v => HD k v (ty_induction k) (ty_induction v)
    | Tens u => HX u
    end.
End Induction.
Fixpoint tsize (t : ty) : nat :=
  S (match t with
     | Atom _ | Module _ | Tens _ => O
     | Optional u | List_ u => tsize u
     | Tuple ts | Union ts => list_sum (map tsize ts)
     | Dict k v => tsize k + tsize v
     end)%nat.

(** ** The concrete syntax, as a grammar *)
Inductive spells_size : Z -> token -> Prop :=
| ss_unknown : spells_size (-1) Question
| ss_known z : spells_size z (Int_ z).
Inductive spells_more : list Z -> list token -> Prop :=
| sm_end : spells_more [] []
| sm_trailing : spells_more [] [Comma]
| sm_more x k r l : spells_size x k -> spells_more r l -> spells_more (x :: r) (Comma :: k :: l).
Inductive spells_sizes : list Z -> list token -> Prop :=
| sz_none : spells_sizes [] []
| sz_some x k r l : spells_size x k -> spells_more r l -> spells_sizes (x :: r) (k :: l).
Inductive spells_shape : option (list Z) -> list token -> Prop :=
| sh_any : spells_shape None [Star]
| sh_sizes s l : spells_sizes s l -> spells_shape (Some s) ([LSquare] ++ l ++ [RSquare]).
Inductive spells_tensor : tensor_type -> list token -> Prop :=
| st_bare vs : spells_tensor {| value_semantics := vs; sizes := None; elt := None; sparsity := None |} []
| st_full vs s d e l : spells_shape s l ->
    spells_tensor {| value_semantics := vs; sizes := s; elt := d; sparsity := e |}
      ([Less] ++ l ++ [Comma] ++ [match d with Some x => Type_ x | None => Word "unk" end] ++
       match e with Some x => [Comma; Attr x] | None => [] end ++ [Greater]).
Inductive spells : ty -> list token -> Prop :=
| sp_any : spells (Atom AnyA) [Word "any"] | sp_number : spells (Atom NumberA) [Word "number"]
| sp_int : spells (Atom IntA) [Word "int"] | sp_float : spells (Atom FloatA) [Word "float"]
| sp_bool : spells (Atom BoolA) [Word "bool"] | sp_none : spells (Atom NoneA) [Word "none"]
| sp_str : spells (Atom StringA) [Word "str"] | sp_device : spells (Atom DeviceA) [Word "Device"]
| sp_generator : spells (Atom GeneratorA) [Word "Generator"] | sp_linear : spells (Atom LinearParamsA) [Word "LinearParams"]
| sp_qint8 : spells (Atom QInt8A) [Word "qint8"] | sp_qint16 : spells (Atom QInt16A) [Word "qint16"]
| sp_quint8 : spells (Atom QUInt8A) [Word "quint8"] | sp_qint32 : spells (Atom QInt32A) [Word "qint32"]
| sp_module n : spells (Module n) [Word "nn.Module"; Less; Quoted n; Greater]
| sp_optional t l : spells t l -> spells (Optional t) ([Word "optional"; Less] ++ l ++ [Greater])
| sp_list t l : spells t l -> spells (List_ t) ([Word "list"; Less] ++ l ++ [Greater])
| sp_dict k v l m : spells k l -> spells v m -> spells (Dict k v) ([Word "dict"; Less] ++ l ++ [Comma] ++ m ++ [Greater])
| sp_tuple ts l : spells_list ts l -> spells (Tuple ts) ([Word "tuple"; Less] ++ l ++ [Greater])
| sp_union ts l : spells_list ts l -> spells (Union ts) ([Word "union"; Less] ++ l ++ [Greater])
| sp_vtensor t l : value_semantics t = true -> spells_tensor t l -> spells (Tens t) (Word "vtensor" :: l)
| sp_tensor t l : value_semantics t = false -> spells_tensor t l -> spells (Tens t) (Word "tensor" :: l)
with spells_list : list ty -> list token -> Prop :=
| sl_nil : spells_list [] []
| sl_one t l : spells t l -> spells_list [t] l
| sl_cons t l ts m : ts <> [] -> spells t l -> spells_list ts m -> spells_list (t :: ts) (l ++ [Comma] ++ m).
