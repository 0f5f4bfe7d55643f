(** What dtype promotion should compute. *)
From Coq Require Import ZArith Bool List Relations.
From Verif Require Import Prelude DtypeModel.
Import ListNotations.
Open Scope Z_scope.

(** The dtypes PyTorch promotes among one another. *)
Definition ordinary (t : scalar_type) : Prop :=
  In t [Bool; Byte; Char; Short; Int; Long; Half; BFloat16; Float; Double; ComplexFloat; ComplexDouble].
(** PyTorch's promotion diagram, each dtype to the next ones. *)
Inductive next : scalar_type -> scalar_type -> Prop :=
| n_bool_u8 : next Bool Byte | n_bool_i8 : next Bool Char
| n_u8 : next Byte Short | n_i8 : next Char Short | n_i16 : next Short Int | n_i32 : next Int Long
| n_i64_f16 : next Long Half | n_i64_bf16 : next Long BFloat16
| n_f16 : next Half Float | n_bf16 : next BFloat16 Float
| n_f32 : next Float Double | n_f32_c64 : next Float ComplexFloat
| n_f64 : next Double ComplexDouble | n_c64 : next ComplexFloat ComplexDouble.
Definition le : scalar_type -> scalar_type -> Prop := clos_refl_trans _ next.
Definition lub (a b r : scalar_type) : Prop := le a r /\ le b r /\ forall c, le a c -> le b c -> le r c.
(** Least dtype above all of a list. *)
Definition lub_list (l : list scalar_type) (r : scalar_type) : Prop :=
  (forall x, In x l -> le x r) /\ forall c, (forall x, In x l -> le x c) -> le r c.
(** Categories: boolean, integral, floating point, complex. *)
Definition category (t : scalar_type) : Z :=
  match t with
  | Bool => 0
  | Byte | Char | Short | Int | Long => 1
  | Half | BFloat16 | Float | Double => 2
  | _ => 3
  end.
(** An operand class outranks a lower one unless the lower one has a higher category. *)
Definition outranks (higher lower r : scalar_type) : Prop :=
  (category lower <= category higher /\ r = higher) \/ (category higher < category lower /\ lub higher lower r).
(** The result for classes that may be empty. *)
Definition outranks_opt (higher lower : option scalar_type) (r : option scalar_type) : Prop :=
  match higher, lower with
  | Some h, Some l => exists x, r = Some x /\ outranks h l x
  | Some h, None => r = Some h
  | None, l => r = l
  end.
Definition lub_opt (l : list scalar_type) (r : option scalar_type) : Prop :=
  match l, r with [], None => True | _ :: _, Some t => lub_list l t | _, _ => False end.
(** Operands of a promotion: a rank, none for a Python number, and a dtype. *)
Definition dim_types (l : list (option Z * scalar_type)) : list scalar_type :=
  map snd (filter (fun o => match fst o with Some k => 0 <? k | None => false end) l).
Definition zero_types (l : list (option Z * scalar_type)) : list scalar_type :=
  map snd (filter (fun o => match fst o with Some k => k =? 0 | None => false end) l).
Definition number_types (l : list (option Z * scalar_type)) : list scalar_type :=
  map snd (filter (fun o => match fst o with Some _ => false | None => true end) l).
(** A Python float counts as the default dtype beside tensors and as double among numbers. *)
Definition number_dtype (only_numbers : bool) (t : scalar_type) : scalar_type :=
  match t with Double => if only_numbers then Double else Float | _ => t end.
