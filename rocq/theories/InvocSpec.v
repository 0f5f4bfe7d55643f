(** Arguments whose tensors correspond, and operators that promote dtypes and refuse some. *)
From Coq Require Import ZArith Bool List.
From Verif Require Import InvocModel.
Import ListNotations.
Open Scope list_scope.
Open Scope nat_scope.

(** The same value but for the tensors, which are related by [R] *)
Inductive corresponds {S T O X : Type} (R : T -> arg S X O -> Prop) : arg S T O -> arg S X O -> Prop :=
| same_scalar s : corresponds R (AScalar s) (AScalar s)
| same_tensor t x : R t x -> corresponds R (ATensor t) x
| same_list l m : Forall2 (corresponds R) l m -> corresponds R (AList l) (AList m)
| same_tuple l m : Forall2 (corresponds R) l m -> corresponds R (ATuple l) (ATuple m).
(** An object of another kind occurs. *)
Inductive has_other {S T O : Type} : arg S T O -> Prop :=
| other_here o : has_other (AOther o)
| other_list l x : In x l -> has_other x -> has_other (AList l)
| other_tuple l x : In x l -> has_other x -> has_other (ATuple l).

(** Dtypes from the one that wins promotions to the one that loses all *)
Definition priority (d : dtype) : nat :=
  match d with
  | Complex128 => 12 | Complex64 => 11 | Float64 => 10 | Float32 => 9 | Float16 => 8 | Bfloat16 => 7
  | Int64 => 6 | Int32 => 5 | Int16 => 4 | Int8 => 3 | Uint8 => 2 | Bool => 1 | Unlisted _ => 0
  end.
Definition listed (d : dtype) : Prop := 0 < priority d.
Definition higher (a b : dtype) : dtype := if priority a <? priority b then b else a.
(** PyTorch's promotion of tensors differs where neither type holds the values of the other. *)
Definition promoted (a b : dtype) : dtype :=
  match a, b with
  | Float16, Bfloat16 | Bfloat16, Float16 => Float32
  | Int8, Uint8 | Uint8, Int8 => Int16
  | Complex64, Float64 | Float64, Complex64 => Complex128
  | _, _ => higher a b
  end.
(** An operator that promotes its tensors refuses some types of tensors and some types of results. *)
Definition refuses (promote : dtype -> dtype -> dtype) (inputs outputs : list dtype) (a b : dtype) : Prop :=
  In a inputs \/ In b inputs \/ In (promote a b) outputs.
