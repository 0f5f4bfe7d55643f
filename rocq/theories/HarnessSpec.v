(** What it means for values and traces to agree, and for a test run to be as expected. *)
From Coq Require Import ZArith QArith Qabs Bool String Permutation List.
From Verif Require Import Prelude OnnxModel HarnessModel.
Import ListNotations.
Open Scope string_scope.
Open Scope list_scope.

(** A one-element tuple stands for its element. *)
Inductive unwraps : value -> value -> Prop :=
| uw_one x : unwraps (VTuple [x]) x
| uw_same v : (forall x, v <> VTuple [x]) -> unwraps v v.
(** Two floats are close. *)
Definition close (x y : Q) : Prop := (Qabs (x - y) <= (1 # 10000) * Qabs y)%Q.
(** The floats the harness takes as close: for positive goldens those that are close, or NaN; anything for the others. *)
Inductive float_accepted : fl -> fl -> Prop :=
| fa_close x y : (0 < y)%Q -> close x y -> float_accepted (Fin x) (Fin y)
| fa_nan y : (0 < y)%Q -> float_accepted NaN (Fin y)
| fa_negative v y : (y < 0)%Q -> float_accepted v (Fin y)
| fa_special v g : g = PInf \/ g = NInf \/ g = NaN -> float_accepted v g.
(** The number of elements of a tensor. *)
Definition element_count (shape : list nat) : nat := fold_left Nat.mul shape 1.
(** Elements of tensors are close: relative tolerance 1/1000, absolute 1/10000000. *)
Inductive element_close : fl -> fl -> Prop :=
| ec_finite x y : (Qabs (x - y) <= (1 # 10000000) + (1 # 1000) * Qabs y)%Q -> element_close (Fin x) (Fin y)
| ec_same g : g = PInf \/ g = NInf \/ g = NaN -> element_close g g.
Inductive number : value -> Z -> Prop :=
| nu_int z : number (VInt z) z
| nu_false : number (VBool false) 0
| nu_true : number (VBool true) 1.
(** A value agrees with a golden one. *)
Inductive agrees : value -> value -> Prop :=
| ag v g v' g' : unwraps v v' -> unwraps g g' -> same v' g' -> agrees v g
with same : value -> value -> Prop :=
| sm_float x y : float_accepted x y -> same (VFloat x) (VFloat y)
| sm_int v g z : number v z -> number g z -> same v g
| sm_str s : same (VStr s) (VStr s)
| sm_tuple vs gs : Forall2 agrees vs gs -> same (VTuple vs) (VTuple gs)
| sm_list vs gs : Forall2 agrees vs gs -> same (VList vs) (VList gs)
| sm_dict vs gs : Permutation (map fst vs) (map fst gs) ->
    (forall k g, lookup gs k = Some g -> exists v, lookup vs k = Some v /\ agrees v g) -> same (VDict vs) (VDict gs)
| sm_tensor v g : t_shape v = t_shape g -> t_dtype v = t_dtype g ->
    (forall i, (i < element_count (t_shape g))%nat -> element_close (t_elem v i) (t_elem g i)) -> same (VTensor v) (VTensor g).
Definition item_agrees (it golden : trace_item) : Prop :=
  symbol it = symbol golden /\ Forall2 agrees (inputs it) (inputs golden) /\ agrees (output it) (output golden).

(** [inside p v w]: following the path [p] inside [v] leads to [w]. *)
Inductive inside : list step -> value -> value -> Prop :=
| in_here v w : unwraps v w -> inside [] v w
| in_tuple i p v l x w : unwraps v (VTuple l) -> nth_error l i = Some x -> inside p x w -> inside (TupleElement i :: p) v w
| in_list i p v l x w : unwraps v (VList l) -> nth_error l i = Some x -> inside p x w -> inside (ListElement i :: p) v w
| in_dict k p v l x w : unwraps v (VDict l) -> lookup l k = Some x -> inside p x w -> inside (DictElement k :: p) v w.
(** Python's types, as far as they are compared. *)
Inductive pytype := PFloat | PInt | PStr | PTuple | PList | PDict | PTensor | POther.
Definition type_of (v : value) : pytype :=
  match v with
  | VFloat _ => PFloat | VInt _ | VBool _ => PInt | VStr _ => PStr | VTuple _ => PTuple | VList _ => PList | VDict _ => PDict | VTensor _ => PTensor | VOther => POther
  end.
(** What is wrong with [v], compared with [g]. *)
Inductive wrong : kind -> value -> value -> Prop :=
| wr_type v g : type_of v <> type_of g -> type_of g <> POther -> wrong WrongType v g
| wr_golden v g : type_of g = POther -> wrong UnexpectedGolden v g
| wr_float x y : ~ float_accepted x y -> wrong NotClose (VFloat x) (VFloat y)
| wr_int v g a b : number v a -> number g b -> a <> b -> wrong NotEqual v g
| wr_str a b : a <> b -> wrong NotEqual (VStr a) (VStr b)
| wr_tuple a b : length a <> length b -> wrong WrongLength (VTuple a) (VTuple b)
| wr_list a b : length a <> length b -> wrong WrongLength (VList a) (VList b)
| wr_dict a b : ~ Permutation (map fst a) (map fst b) -> wrong WrongKeys (VDict a) (VDict b)
| wr_shape a b : t_shape a <> t_shape b -> wrong WrongShape (VTensor a) (VTensor b)
| wr_dtype a b : t_shape a = t_shape b -> t_dtype a <> t_dtype b -> wrong WrongDtype (VTensor a) (VTensor b)
| wr_element a b i : t_shape a = t_shape b -> t_dtype a = t_dtype b -> (i < element_count (t_shape b))%nat -> ~ element_close (t_elem a i) (t_elem b i) ->
    wrong NotClose (VTensor a) (VTensor b).

(** * Runs *)
(** The test ran, and its trace agrees with the golden one call by call. *)
Definition test_passes (r : test_result) : Prop :=
  compilation_error r = false /\ runtime_error r = false /\
  exists t g, r_trace r = Some t /\ r_golden r = Some g /\ Forall2 item_agrees t g.
