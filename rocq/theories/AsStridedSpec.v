(** Independent specification for the as_strided rewrite: PyTorch's storage semantics and
    a by-name evaluation of FX graphs. Nothing here refers to the decoder. *)
From Coq Require Import String Ascii ZArith List Lia Bool.
From Verif Require Import Prelude AsStridedModel.
Import ListNotations.
Open Scope Z_scope.

(** The storage offset that element [idx] of a strided view reads. *)
Definition address (off : Z) (stride idx : list Z) : Z := off + dot idx stride.

(** Dense row-major strides of a shape. *)
Fixpoint row_major (sh : list Z) : list Z :=
  match sh with
  | [] => []
  | _ :: r => prodZ r :: row_major r
  end.

(** A layout in which the dims, listed in [order] from outermost to innermost, are packed
    densely (row-major is [order = 0,1,2,...]; channels-last is another order). *)
Fixpoint packed (shape stride : list Z) (order : list nat) : Prop :=
  match order with
  | [] => True
  | d :: r => nth d stride 0 = prodZ (map (fun e => nth e shape 0) r) /\ packed shape stride r
  end.

Section Eval.
Variable A : Type.

(** A runtime tensor: its logical sizes and elements, and the storage it is a view of
    ([t_rd k] is the element at element-offset [k] of that storage). *)
Record tensor := { t_shape : list Z; elem : list Z -> A;
                   t_rd : Z -> A; t_stride : list Z; t_off : Z }.
(** The elements are those of the storage. *)
Definition strided (t : tensor) : Prop :=
  length (t_shape t) = length (t_stride t) /\
  forall idx, in_bounds idx (t_shape t) ->
    elem t idx = t_rd t (address (t_off t) (t_stride t) idx).

(** Runtime values: tensors, integer index tensors (module buffers), other things. *)
Inductive value :=
| VT (t : tensor)
| VI (shape : list Z) (f : list Z -> Z)
| VO (k : nat).

Inductive argval :=
| RVal (v : value) | RInt (z : Z) | RNone | RSym | RList (l : list argval).

Definition env := list (string * value).
Fixpoint lookup (e : env) (n : string) : option value :=
  match e with
  | [] => None
  | (m, v) :: r => if String.eqb m n then Some v else lookup r n
  end.

(** What other operators may observe: sizes and elements, never the storage. *)
Definition val_eq (v w : value) : Prop :=
  match v, w with
  | VT s, VT t => t_shape s = t_shape t /\
                  forall idx, in_bounds idx (t_shape s) -> elem s idx = elem t idx
  | VI s f, VI t h => s = t /\ forall idx, in_bounds idx s -> f idx = h idx
  | VO a, VO b => a = b
  | _, _ => False
  end.

Inductive arg_eq : argval -> argval -> Prop :=
| ae_val : forall v w, val_eq v w -> arg_eq (RVal v) (RVal w)
| ae_int : forall z, arg_eq (RInt z) (RInt z)
| ae_none : arg_eq RNone RNone
| ae_sym : arg_eq RSym RSym
| ae_list : forall l m, Forall2 arg_eq l m -> arg_eq (RList l) (RList m).

Fixpoint eval_arg (e : env) (a : arg) : option argval :=
  match a with
  | ANode n => option_map RVal (lookup e n)
  | AInt z => Some (RInt z)
  | ANone => Some RNone
  | ASym => Some RSym
  | AList l =>
      option_map RList
        ((fix go (l : list arg) : option (list argval) :=
            match l with
            | [] => Some []
            | x :: r => match eval_arg e x, go r with
                        | Some v, Some vs => Some (v :: vs)
                        | _, _ => None
                        end
            end) l)
  end.

Definition eval_args (e : env) (l : list arg) : option (list argval) := mapM (eval_arg e) l.

(** The environment of the graph: placeholder values, attribute values, and the meaning
    of every operator other than as_strided and index. *)
Variable input : string -> option value.
Variable attr : string -> option value.
Variable sem : nat -> list argval -> list (string * argval) -> option value.

(** Ints of a list argument. *)
Definition ints_of (a : argval) : option (list Z) :=
  match a with
  | RList l => mapM (fun x => match x with RInt z => Some z | _ => None end) l
  | _ => None
  end.

(** torch's as_strided(self, size, stride, storage_offset=None): a view of self's storage;
    the offset defaults to self's own. *)
Definition as_strided_sem (src : argval) (size stride off : argval) : option value :=
  match src, ints_of size, ints_of stride with
  | RVal (VT t), Some sz, Some st =>
      if Nat.eqb (length sz) (length st) then
        let mk o := VT {| t_shape := sz; elem := fun idx => t_rd t (address o st idx);
                          t_rd := t_rd t; t_stride := st; t_off := o |} in
        match off with
        | RNone => Some (mk (t_off t))
        | RInt o => Some (mk o)
        | _ => None
        end
      else None
  | _, _, _ => None
  end.

(** torch's index.Tensor with one index tensor of sizes [sz] for every dim of [self]:
    result[idx] = self[i_0[idx], ..., i_(n-1)[idx]]; the storage of the result is
    unspecified (indices must be in range; negative wrap-around is not covered). With no index tensors at all the result is [self] itself. *)
Definition index_sem (self : argval) (ix : argval) (r : value) : Prop :=
  match self, ix with
  | RVal (VT t), RList [] => r = VT t
  | RVal (VT t), RList (RVal (VI sz f) :: rest) =>
      exists fs, Forall2 (fun a f => a = RVal (VI sz f)) rest fs /\
      length (f :: fs) = length (t_shape t) /\
      exists t', r = VT t' /\ t_shape t' = sz /\
        forall idx, in_bounds idx sz ->
          in_bounds (map (fun h => h idx) (f :: fs)) (t_shape t) /\
          elem t' idx = elem t (map (fun h => h idx) (f :: fs))
  | _, _ => False
  end.

Definition kwarg (kw : list (string * argval)) (name : string) : option argval :=
  option_map snd (find (fun p => String.eqb (fst p) name) kw).
(** Schema argument [i]/[name]: positional first, then keyword, then default. *)
Definition schema_arg (args : list argval) (kw : list (string * argval)) (i : nat)
    (name : string) (dflt : option argval) : option argval :=
  match nth_error args i with
  | Some a => Some a
  | None => match kwarg kw name with Some a => Some a | None => dflt end
  end.

(** One node: relational because [index_sem] leaves the result's storage unspecified. *)
Definition eval_kwargs (e : env) (kw : list (string * arg)) : option (list (string * argval)) :=
  mapM (fun p => option_map (pair (fst p)) (eval_arg e (snd p))) kw.
Definition eval_node (e : env) (n : node) (v : value) : Prop :=
  exists args kw,
    eval_args e (n_args n) = Some args /\ eval_kwargs e (n_kwargs n) = Some kw /\
    match n_op n with
    | OPlaceholder => input (n_name n) = Some v
    | OGetAttr a => attr a = Some v
    | OAsStrided =>
        exists src size stride off,
          schema_arg args kw 0 "self" None = Some src /\
          schema_arg args kw 1 "size" None = Some size /\
          schema_arg args kw 2 "stride" None = Some stride /\
          schema_arg args kw 3 "storage_offset" (Some RNone) = Some off /\
          as_strided_sem src size stride off = Some v
    | OIndex => exists self ix, args = [self; ix] /\ index_sem self ix v
    | OOther k => sem k args kw = Some v
    end.

(** Running a graph in order: [eval_graph e g e'] extends [e] with one binding per node. *)
Inductive eval_graph : env -> list node -> env -> Prop :=
| eg_nil : forall e, eval_graph e [] e
| eg_cons : forall e n v g e', eval_node e n v ->
    eval_graph ((n_name n, v) :: e) g e' -> eval_graph e (n :: g) e'.

(** The FakeTensor metadata of [g] describes the run [e]: sizes, strides and offsets are
    the runtime ones, and tensors with the same storage and the same dtype read the same
    elements at the same element offset. *)
Definition meta_describes (g : list node) (e : env) : Prop :=
  (forall n m, node_meta g n = Some m ->
     exists t, lookup e n = Some (VT t) /\ strided t /\
       (forall l, meta_ints (m_shape m) = Some l -> t_shape t = l) /\
       (forall l, meta_ints (m_stride m) = Some l -> t_stride t = l) /\
       (forall o, m_offset m = Some o -> t_off t = o)) /\
  (forall n1 m1 t1 n2 m2 t2,
     node_meta g n1 = Some m1 -> lookup e n1 = Some (VT t1) ->
     node_meta g n2 = Some m2 -> lookup e n2 = Some (VT t2) ->
     m_storage m1 = m_storage m2 -> m_dtype m1 = m_dtype m2 ->
     forall k, t_rd t1 k = t_rd t2 k).

(** No node of the graph reinterprets the element type of the storage it shares. *)
Definition no_reinterpretation (g : list node) : Prop :=
  forall n1 m1 n2 m2, node_meta g n1 = Some m1 -> node_meta g n2 = Some m2 ->
    m_storage m1 = m_storage m2 -> m_dtype m1 = m_dtype m2.

(** Other operators only see sizes and elements. *)
Definition sem_extensional : Prop :=
  forall k args kw args' kw' v,
    sem k args kw = Some v -> Forall2 arg_eq args args' ->
    Forall2 (fun p q => fst p = fst q /\ arg_eq (snd p) (snd q)) kw kw' ->
    exists v', sem k args' kw' = Some v' /\ val_eq v v'.

(** A 0-d base tensor has no dims to index. *)
Definition no_scalar_storage (g : list node) : Prop :=
  forall n m, node_meta g n = Some m -> m_shape m <> [].

End Eval.

(** Attributes of the module after the rewrite: the registered index tensors, then what
    was there before. *)
Definition attrs_after {A} (bufs : list (string * (list Z * (list Z -> Z))))
    (attr : string -> option (value A)) (a : string) : option (value A) :=
  match find (fun b => String.eqb (fst b) a) bufs with
  | Some (_, (sz, f)) => Some (VI A sz f)
  | None => attr a
  end.

