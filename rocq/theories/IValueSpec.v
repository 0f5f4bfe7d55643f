(** What imported objects should look like, for [IValueModel]. *)
From Coq Require Import ZArith Bool String List.
From Verif Require Import DtypeModel JitTypesModel JitTypesSpec IValueModel.
From Verif Require TypesModel.
Import ListNotations.
Open Scope string_scope.
Open Scope list_scope.
Open Scope nat_scope.

(** Objects inside an object; the numbers of a quantized tensor are objects too. *)
Definition children (x : ivalue) : list ivalue :=
  match x with
  | VList _ _ l | VTuple _ l | VModule _ _ _ l => l
  | VDict _ _ _ l => flat_map (fun p => [fst p; snd p]) l
  | VLinearParams _ w b => w :: match b with Some b => [b] | None => [] end
  | VTensor _ t => match quantized t with Some (PerTensorAffine s z) => [VDouble s; VInt z] | _ => [] end
  | _ => []
  end.
Inductive part : ivalue -> ivalue -> Prop :=
| part_self x : part x x
| part_child x y z : In y (children x) -> part y z -> part x z.
(** The objects reached by the names of attributes *)
Inductive at_path : ivalue -> list string -> ivalue -> Prop :=
| path_here x : at_path x [] x
| path_inside x y names z : (forall i c cu l, x <> VModule i c cu l) -> In y (children x) -> at_path y names z -> at_path x names z
| path_slot i c cu l n y names z : In (n, y) (combine (map fst (c_attributes c)) l) -> at_path y names z -> at_path (VModule i c cu l) (n :: names) z.
(** Addresses are addresses of one object; so are those of classes. *)
Record coherent (root : ivalue) : Prop := {
  one_object : forall x y i, part root x -> part root y -> address x = Some i -> address y = Some i -> x = y;
  one_tensor : forall i t t', part root (VTensor i t) -> part root (VTensor i t') -> t = t';
  one_class : forall i c cu l i' c' cu' l', part root (VModule i c cu l) -> part root (VModule i' c' cu' l') -> c_id c = c_id c' -> c = c' }.
(** Objects that cannot be told apart but by the sign of zero *)
Definition zero (d : double) : Prop := d = PosZero \/ d = NegZero.
Definition equal_double (a b : double) : Prop := a = b \/ (zero a /\ zero b).
Definition stands (y x : ivalue) : Prop := y = x \/ exists a b, y = VDouble a /\ x = VDouble b /\ zero a /\ zero b.

Section Meaning.
Context {func : Type} (opts : options).
(** The operation of value [v] is that of [x]; its operands are related to the objects inside. *)
Definition denotes (ops : list (op func)) (R : nat -> ivalue -> Prop) (v : nat) (x : ivalue) : Prop :=
  match x with
  | VBool b => nth_error ops v = Some (OBool b)
  | VInt z => nth_error ops v = Some (OInt z)
  | VDouble d => exists d', nth_error ops v = Some (OFloat d') /\ equal_double d' d
  | VString s => nth_error ops v = Some (OStr s)
  | VNone => nth_error ops v = Some ONone
  | VList _ e l => exists t vs, nth_error ops v = Some (OList (TypesModel.List_ t) vs) /\ means default_options opts e t /\ Forall2 R vs l
  | VDict _ k e l => exists t ks vs, nth_error ops v = Some (ODict t ks vs) /\ means default_options opts (JDict k e) t /\ Forall2 R ks (map fst l) /\ Forall2 R vs (map snd l)
  | VTuple _ l => exists vs, nth_error ops v = Some (OTuple vs) /\ Forall2 R vs l
  | VTensor _ t => scalar t <> Short /\ exists r, stored (scalar t) = Some r /\
      let literal := OLiteral (assume_value_semantics opts) (dims t) (literal_type r) (contents t) in
      match quantized t with
      | None => nth_error ops v = Some literal
      | Some (PerTensorAffine s z) => exists u us uz e, nth_error ops u = Some literal /\ R us (VDouble s) /\ R uz (VInt z) /\ element_is (Some (scalar t)) e /\
          nth_error ops v = Some (OPerTensorAffine {| TypesModel.value_semantics := assume_value_semantics opts; TypesModel.sizes := Some (dims t); TypesModel.elt := e; TypesModel.sparsity := None |} u us uz)
      | Some OtherScheme => False
      end
  | VModule _ c _ l => exists n vs, c_name c = Some n /\ List.length vs = List.length (c_attributes c) /\ nth_error ops v = Some (OModule n (combine (map fst (c_attributes c)) vs)) /\ Forall2 R vs l
  | VLinearParams _ w b => exists u bs, nth_error ops v = Some (OLinear u bs) /\ R u w /\ match b, bs with Some b, Some v => R v b | None, None => True | _, _ => False end
  | VUnsupported _ => False
  end.
(** Operands of an operation *)
Definition operands (o : op func) : list nat :=
  match o with
  | OList _ l | OTuple l => l
  | ODict _ ks vs => ks ++ vs
  | OPerTensorAffine _ a b c => [a; b; c]
  | OModule _ l => map snd l
  | OLinear w b => w :: match b with Some b => [b] | None => [] end
  | _ => []
  end.
Definition class_ids (l : list (op func)) : list nat := flat_map (fun o => match o with OClass i _ _ _ => [i] | _ => [] end) l.
Definition functions_of (l : list (op func)) : list func := flat_map (fun o => match o with OFunc f => [f] | _ => [] end) l.
(** The description of a class: the attributes and methods in order; private if not exported *)
Definition class_described (exported : class_type -> list bool * list bool) (c : class_type) (n : string) (a : list (string * TypesModel.ty * bool)) (m : list (string * string * bool)) : Prop :=
  c_name c = Some n /\
  (List.length (c_attributes c) <= List.length (fst (exported c)) /\ Forall2 (fun x y => fst (fst x) = fst (fst y) /\ means default_options opts (snd (fst x)) (snd (fst y)) /\ snd y = negb (snd x)) (combine (c_attributes c) (fst (exported c))) a) /\
  (List.length (c_methods c) <= List.length (snd (exported c)) /\ Forall2 (fun x y => fst x = fst y /\ snd y = negb (snd x)) (combine (c_methods c) (snd (exported c))) m).
(** What an object needs to be imported *)
Definition fine (exported : class_type -> list bool * list bool) (import_function : nat -> option func) (get_functions : nat -> list nat) (x : ivalue) : Prop :=
  match x with
  | VList _ e _ => exists t, means default_options opts e t
  | VDict _ k e _ => exists t, means default_options opts (JDict k e) t
  | VTensor _ t => scalar t <> Short /\ stored (scalar t) <> None /\ quantized t <> Some OtherScheme
  | VModule _ c cu l => List.length l = List.length (c_attributes c) /\ (exists n a m, class_described exported c n a m) /\ forall f, In f (get_functions cu) -> import_function f <> None
  | VUnsupported _ => False
  | _ => True
  end.
End Meaning.
