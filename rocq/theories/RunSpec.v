(** What calling a compiled program, converting its data and describing its inputs should do. *)
From Coq Require Import ZArith Bool Ascii String List Sorted.
From Verif Require Import Prelude DtypeModel RunModel.
Import ListNotations.
Open Scope string_scope.
Open Scope list_scope.
Open Scope Z_scope.

(** ** Calling convention *)
(** The types of results that Python knows, the word for each, and how it reads them. *)
Inductive reading := ANumber (c : ctype) | AnArray (d : scalar_type).
Definition known_elements : list (mlir_type * (string * ctype)) :=
  [(IntT 1 Signless, ("i1", CBool)); (IntT 8 Signless, ("i8", CByte)); (IntT 64 Signless, ("i64", CInt));
   (FloatT F32, ("f32", CFloat)); (FloatT F64, ("f64", CDouble))].
Definition known_arrays : list (mlir_type * (string * scalar_type)) :=
  [(FloatT F16, ("mrf16", Half)); (FloatT F32, ("mrf32", Float)); (FloatT F64, ("mrf64", Double));
   (IntT 1 Signless, ("mri1", Bool)); (IntT 8 Signless, ("mri8", Char)); (IntT 16 Signless, ("mri16", Short));
   (IntT 32 Signless, ("mri32", Int)); (IntT 64 Signless, ("mri64", Long));
   (ComplexT (FloatT F32), ("mrc32", ComplexFloat)); (ComplexT (FloatT F64), ("mrc64", ComplexDouble))].
Inductive known : rty -> string -> reading -> Prop :=
| known_element : forall t w c, In (t, (w, c)) known_elements -> known (Elem t) w (ANumber c)
| known_array : forall t w d s, In (t, (w, d)) known_arrays -> known (MemRef s t) w (AnArray d)
| known_array' : forall t w d, In (t, (w, d)) known_arrays -> known (Unranked t) w (AnArray d).
Definition returnable (t : rty) : Prop := exists w r, known t w r.
(** Values of a type, and the Python value that stands for one. *)
Inductive has_type : rv -> rty -> Prop :=
| num_type : forall t z, has_type (RNum t z) (Elem t)
| mem_type : forall t s b sh, has_type (RMem t s b) (MemRef sh t)
| mem_type' : forall t s b, has_type (RMem t s b) (Unranked t).
Inductive shown : rv -> pyv -> Prop :=
| shown_num : forall t z, shown (RNum t z) (PNum z)
| shown_mem : forall t w d s b, In (t, (w, d)) known_arrays -> shown (RMem t s b) (PArr d t s b).
(** Sixty-four-bit numbers that a C int holds. *)
Definition narrow (v : rv) : Prop :=
  match v with RNum (IntT 64 Signless) z => -2147483648 <= z < 2147483648 | _ => True end.
(** One value is returned bare. *)
Definition packed (l : list pyv) (r : result) : Prop :=
  match l with [v] => r = One v | _ => r = Tuple l end.
(** The texts of names. *)
Fixpoint words (l : list string) : string := match l with [] => "" | w :: r => ("_" ++ w ++ words r)%string end.
Definition consumer_of (ws : list string) : string := ("refbackend_consume_func_return" ++ words ws)%string.
(** Types of arguments that functions may have. *)
Definition argument_elements : list mlir_type :=
  [FloatT F16; FloatT F32; FloatT F64; IntT 64 Signless; IntT 32 Signless; IntT 16 Signless; IntT 8 Signless; IntT 1 Signless;
   IntT 8 Signed; ComplexT (FloatT F32); ComplexT (FloatT F64)].
Definition argument_type (t : rty) : Prop := exists s e, t = MemRef s e /\ In e argument_elements.
Inductive unranked : rty -> rty -> Prop :=
| unranked_memref : forall s e, unranked (MemRef s e) (Unranked e)
| unranked_elem : forall e, unranked (Elem e) (Elem e)
| unranked_unranked : forall e, unranked (Unranked e) (Unranked e).
(** A function after the pass. *)
Definition rewritten (f : func) (m : mfunc) : Prop :=
  m_name m = f_name f /\ m_private m = f_private f /\
  if f_private f then m_args m = f_args f /\ m_consumer m = None
  else Forall argument_type (f_args f) /\ Forall2 unranked (f_args f) (m_args m) /\
       exists types n, Forall2 unranked (f_results f) types /\ consume_name types = Some n /\ m_consumer m = Some n.
(** [n] comes after every other name. *)
Definition greatest (n : string) (l : list string) : Prop := In n l /\ forall k, In k l -> k = n \/ String.ltb k n = true.

(** ** Structures *)
Inductive converted (leaf : obj -> obj -> Prop) : obj -> obj -> Prop :=
| conv_leaf : forall x y, leaf x y -> converted leaf x y
| conv_tuple : forall l r, Forall2 (converted leaf) l r -> converted leaf (OTuple l) (OTuple r)
| conv_list : forall l r, Forall2 (converted leaf) l r -> converted leaf (OList l) (OList r)
| conv_dict : forall ks l r, Forall2 (converted leaf) l r -> length ks = length l -> converted leaf (ODict (combine ks l)) (ODict (combine ks r)).
Inductive plain_leaf : obj -> Prop :=
| plain_str : forall s, plain_leaf (OStr s) | plain_float : forall z, plain_leaf (OFloat z)
| plain_int : forall z, plain_leaf (OInt z) | plain_bool : forall b, plain_leaf (OBool b).
Definition shared_dtypes : list scalar_type := [Half; Float; Double; Byte; Char; Short; Int; Long; Bool; ComplexFloat; ComplexDouble].
Inductive tensor_array : obj -> obj -> Prop :=
| ta_data : forall d x, In d shared_dtypes -> tensor_array (OTensor d x) (OArray d x)
| ta_plain : forall x, plain_leaf x -> tensor_array x x.
(** Structures of tensors and plain values. *)
Inductive tensors : obj -> Prop :=
| ts_data : forall d x, In d shared_dtypes -> tensors (OTensor d x)
| ts_plain : forall x, plain_leaf x -> tensors x
| ts_tuple : forall l, Forall tensors l -> tensors (OTuple l)
| ts_list : forall l, Forall tensors l -> tensors (OList l)
| ts_dict : forall ks l, Forall tensors l -> length ks = length l -> tensors (ODict (combine ks l)).
(** What compiled functions give: arrays, numbers and tuples. *)
Inductive produced : obj -> Prop :=
| pr_array : forall d x, produced (OArray d x)
| pr_float : forall z, produced (OFloat z) | pr_int : forall z, produced (OInt z) | pr_bool : forall b, produced (OBool b)
| pr_tuple : forall l, Forall produced l -> produced (OTuple l).
(** The elements of a list at the places of user outputs, in order. *)
Inductive picked : list output_kind -> list obj -> list obj -> Prop :=
| picked_nil : picked [] [] []
| picked_user : forall x ks l r, picked ks l r -> picked (UserOutput :: ks) (x :: l) (x :: r)
| picked_other : forall x ks l r, picked ks l r -> picked (OtherOutput :: ks) (x :: l) r.

(** ** Inputs *)
(** A concrete shape agrees with one having unknown (-1) sizes. *)
Definition agrees (shape known : list Z) : Prop := Forall2 (fun s k => k = -1 \/ s = k) shape known.
(** A traced tensor stands for a placeholder: its type, and as many elements as its shape says. *)
Definition stands_for (e : example) (p : placeholder) : Prop :=
  match e with
  | ETensor s d x => agrees s (p_shape p) /\ d = p_dtype p /\ zlen x = prodZ s
  | _ => False
  end.
Definition tensor_example (e : example) : Prop := match e with EOther => False | _ => True end.
(** Equal texts up to case and to "-" for "_". *)
Definition same_letter (a b : ascii) : Prop :=
  a = b \/ (a = "-"%char /\ b = "_"%char) \/
  (exists n, (65 <= n <= 90)%nat /\ b = ascii_of_nat n /\ a = ascii_of_nat (n + 32)).
Inductive same_text : string -> string -> Prop :=
| same_empty : same_text "" ""
| same_next : forall a b r s, same_letter a b -> same_text r s -> same_text (String a r) (String b s).
