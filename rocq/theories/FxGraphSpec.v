(** Specification side for the FX importer: what an FX graph means (interpretation node by
    node, by name, with PyTorch's argument conventions) and what a straight-line block of
    the emitted operations means. Nothing here refers to the importer's tables. *)
From Coq Require Import String ZArith Bool List.
From Verif Require Import Prelude FxGraphModel.
Import ListNotations.
Open Scope Z_scope.

Section Sem.
Variable T : Type.                                   (* tensor values *)

(** Runtime values. *)
Inductive rv := RNone | RBool (b : bool) | RInt (z : Z) | RFloat (f : Z) | RStr (s : string)
| RDev (s : string) | RT (t : T) | RList (l : list rv).

(** The outside world: contents of tensor objects, and the meaning of operators. Any
    interpretation is allowed. *)
Record world := {
  tensor_of : nat -> T;                              (* contents of tensor object [id] *)
  u8_of : nat -> T;                                  (* its .to(torch.uint8) *)
  num_tensor : rv -> T;                              (* torch.tensor(scalar) *)
  float_of_bool : bool -> Z;
  opsem : string -> list rv -> option (list rv)      (* operator on its full argument list *)
}.
Variable W : world.

Definition lit_val (l : lit) : option rv :=
  match l with
  | LNone => Some RNone | LBool b => Some (RBool b) | LInt z => Some (RInt z)
  | LFloat f => Some (RFloat f) | LStr s => Some (RStr s)
  | LTensor id _ => Some (RT (tensor_of W id))
  | LEnum c => option_map RInt c
  | LDevice s => Some (RDev s)
  end.

Definition is_scalar (v : rv) : bool :=
  match v with RBool _ | RInt _ | RFloat _ => true | _ => false end.

(** Passing a value to a schema parameter: booleans become numbers where a number is
    expected, scalars become 0-d tensors where a tensor is expected. *)
Definition coerce (e : option jt) (v : rv) : rv :=
  match e, v with
  | Some JFloat, RBool b => RFloat (float_of_bool W b)
  | Some JInt, RBool b | Some JNumber, RBool b => RInt (if b then 1 else 0)
  | Some JTensor, RBool _ | Some JTensor, RInt _ | Some JTensor, RFloat _ =>
      RT (num_tensor W v)
  | _, _ => v
  end.

(** ** FX graphs *)
(** A node's value: one value, or a tuple (an entry is [None] for a None result). *)
Inductive fv := FOne (v : rv) | FMany (l : list (option rv)).
Definition fenv := list (string * fv).

Fixpoint eval_elem (e : fenv) (a : arg) : option rv :=
  match a with
  | ANode n => match sget e n with Some (FOne v) => Some v | _ => None end
  | ALit l => lit_val l
  | AList l | ATuple l =>
      option_map RList
        ((fix go (l : list arg) : option (list rv) :=
            match l with
            | [] => Some []
            | x :: r => match eval_elem e x, go r with
                        | Some v, Some vs => Some (v :: vs) | _, _ => None end
            end) l)
  end.
Definition eval_arg (e : fenv) (t : option jt) (a : arg) : option rv :=
  option_map (coerce t) (eval_elem e a).

Definition eval_dflt (d : dflt) : option rv :=
  match d with
  | DLit l => lit_val l
  | DList l => option_map RList (mapM lit_val l)
  end.

(** The value passed for schema parameter number [i]: positional, else keyword, else
    default; otherwise the call is an error. *)
Definition eval_param (e : fenv) (args : list arg) (kw : list (string * arg)) (i : nat)
    (p : param) : option rv :=
  match nth_error args i, sget kw (p_name p), p_default p with
  | Some a, _, _ => eval_arg e (Some (p_type p)) a
  | None, Some a, _ => eval_arg e (Some (p_type p)) a
  | None, None, Some d => eval_dflt d
  | None, None, None => None
  end.
Fixpoint eval_params (e : fenv) (args : list arg) (kw : list (string * arg)) (i : nat)
    (ps : list param) : option (list rv) :=
  match ps with
  | [] => Some []
  | p :: r => do v <- eval_param e args kw i p;
              do vs <- eval_params e args kw (S i) r; Some (v :: vs)
  end.
Definition eval_call (e : fenv) (sch : schema) (args : list arg)
    (kw : list (string * arg)) : option (list rv) :=
  do vs <- eval_params e args kw 0 (s_params sch); opsem W (s_op sch) vs.

Definition one_or_many (returns : nat) (rs : list rv) : option (option fv) :=
  match returns, rs with
  | 0%nat, [] => Some None
  | 0%nat, _ => None
  | 1%nat, [v] => Some (Some (FOne v))
  | 1%nat, _ => None
  | k, _ => if Nat.eqb (length rs) k then Some (Some (FMany (map Some rs))) else None
  end.

(** Value of a non-placeholder, non-output node ([Some None] = it has none). *)
Definition node_value (e : fenv) (n : node) : option (option fv) :=
  match n_op n with
  | GetAttr (Some l) => option_map (fun v => Some (FOne v)) (lit_val l)
  | Call TGetitem =>
      match n_args n with
      | [ANode r; ALit (LInt i)] =>
          match sget e r with
          | Some (FMany l) => do o <- pyidx l i; option_map (fun v => Some (FOne v)) o
          | Some (FOne (RList l)) => option_map (fun v => Some (FOne v)) (pyidx l i)
          | _ => None
          end
      | _ => None
      end
  | Call (TOverload sch) | Call (TConcrete sch) =>
      do rs <- eval_call e sch (n_args n) (n_kwargs n); one_or_many (s_returns sch) rs
  | Call (TAuto sch) =>
      do rs <- eval_call e sch [] (n_kwargs n);
      Some (Some (FMany (if Nat.eqb (s_returns sch) 0 then None :: map Some rs
                         else map Some rs)))
  | Call TUnsupported => None
  | _ => Some None
  end.

Definition out_args (n : node) : list arg :=
  match n_args n with AList l :: _ | ATuple l :: _ => l | a :: _ => [a] | [] => [] end.

(** Interpreting a list of nodes: final environment and the last output node's values. *)
Fixpoint fx_run (e : fenv) (ns : list node) (inputs : list rv)
  : option (fenv * option (list rv)) :=
  match ns with
  | [] => Some (e, None)
  | n :: r =>
      match n_op n with
      | Placeholder =>
          match inputs with
          | [] => None
          | v :: ins => fx_run ((n_name n, FOne v) :: e) r ins
          end
      | Output =>
          do outs <- mapM (eval_arg e None) (out_args n);
          do (e', o) <- fx_run e r inputs;
          Some (e', match o with Some _ => o | None => Some outs end)
      | _ =>
          do f <- node_value e n;
          fx_run (match f with Some x => (n_name n, x) :: e | None => e end) r inputs
      end
  end.

(** ** Emitted blocks *)
(** Values by id; [mach_mem] holds the contents of mutable tensors and of the external
    buffers written by stores. *)
Definition loc := hook.
Definition loc_eqb (a b : loc) : bool :=
  match a, b with
  | HOverwrite m, HOverwrite k => Nat.eqb m k
  | HStore x, HStore y => String.eqb x y
  | _, _ => false
  end.
Record mach := M { m_env : list (nat * rv); m_mem : list (loc * rv) }.
Fixpoint eget (e : list (nat * rv)) (i : nat) : option rv :=
  match e with [] => None | (j, v) :: r => if Nat.eqb j i then Some v else eget r i end.
Fixpoint mget (e : list (loc * rv)) (i : loc) : option rv :=
  match e with [] => None | (j, v) :: r => if loc_eqb j i then Some v else mget r i end.

(** Results of an operation and the new memory. *)
Definition kind_sem (k : opk) (ids : list nat) (xs : list rv) (mem : list (loc * rv))
  : option (list rv * list (loc * rv)) :=
  match k, ids, xs with
  | KConst l, [], [] => option_map (fun v => ([v], mem)) (lit_val l)
  | KConstU8 id, [], [] => Some ([RT (u8_of W id)], mem)
  | KTorch name, _, _ => option_map (fun r => (r, mem)) (opsem W name xs)
  | KListConstruct, _, _ => Some ([RList xs], mem)
  | KListUnpack, _, [RList l] => Some (l, mem)
  | KNumToTensor, _, [v] => if is_scalar v then Some ([RT (num_tensor W v)], mem) else None
  | KFloatBool, _, [RBool b] => Some ([RFloat (float_of_bool W b)], mem)
  | KIntBool, _, [RBool b] => Some ([RInt (if b then 1 else 0)], mem)
  | KCopy, [m], _ => option_map (fun v => ([v], mem)) (mget mem (HOverwrite m))
  | KOverwrite, [_; m], [v; _] => Some ([], (HOverwrite m, v) :: mem)
  | KStore b, [_], [v] => Some ([], (HStore b, v) :: mem)
  | _, _, _ => None
  end.
Definition step (m : mach) (o : op) : option mach :=
  do xs <- mapM (eget (m_env m)) (o_args o);
  do (ys, mem) <- kind_sem (o_kind o) (o_args o) xs (m_mem m);
  assert (Nat.eqb (length ys) (length (o_res o)));
  Some (M (combine (o_res o) ys ++ m_env m) mem).
Definition run (m : mach) (ops : list op) : option mach := foldM step ops m.

(** A block called with [inputs]; its return operands. *)
Definition call_block (ops : list op) (ret : list nat) (inputs : list rv)
  : option (list rv) :=
  do m <- run (M (combine (seq 0 (length inputs)) inputs) []) ops;
  mapM (eget (m_env m)) ret.

(** SSA form of a block: every operand is a block argument or a result of an earlier
    operation, and no value is defined twice. *)
Definition defs (nargs : nat) (ops : list op) : list nat :=
  seq 0 nargs ++ flat_map o_res ops.
Definition ssa (nargs : nat) (ops : list op) : Prop :=
  NoDup (defs nargs ops) /\
  forall pre o post, ops = pre ++ o :: post ->
    forall a, In a (o_args o) -> In a (defs nargs pre).

(** ** Metadata describes the run *)
Definition has_ty (t : ty) (v : rv) : Prop :=
  match t, v with
  | TyNone, RNone | TyBool, RBool _ | TyInt, RInt _ | TyFloat, RFloat _ | TyStr, RStr _
  | TyDevice, RDev _ | TyVTensor, RT _ | TyTensor, RT _
  | TyList _, RList _ | TyListOpt _, RList _ => True
  | _, _ => False
  end.
Definition meta_ok (g : graph) (e : fenv) : Prop :=
  forall n f, In n g -> sget e (n_name n) = Some f ->
    match f with
    | FOne v =>
        (forall t, n_ty n = Some t -> has_ty t v) /\
        (forall ts l, v = RList l -> n_tys n = Some ts -> Forall2 has_ty ts l) /\
        n_scalar n = is_scalar v
    | FMany l =>
        n_scalar n = false /\
        (forall ts, n_tys n = Some ts ->
           Forall2 (fun t o => has_ty t (match o with Some v => v | None => RNone end)) ts l)
    end.

End Sem.
Arguments RNone {T}. Arguments RBool {T}. Arguments RInt {T}. Arguments RFloat {T}.
Arguments RStr {T}. Arguments RDev {T}. Arguments RT {T}. Arguments RList {T}.
Arguments FOne {T}. Arguments FMany {T}. Arguments M {T}.

(** ** Operator facts used by the importer's rewrites (assumptions about PyTorch) *)
Section Facts.
Variable T : Type.
Variable W : world T.
Variable registry : string -> option schema.

(** Converting a bool tensor to uint8 and back is the identity. *)
Definition bool_cast_ok : Prop := forall id,
  opsem T W convert_elt [RT (u8_of T W id); RInt bool_code] = Some [RT (tensor_of T W id)].

(** For mul/div/add/sub/floor_divide the .Scalar overload takes the same arguments except
    that argument 1 is a number, and computes what the tensor overload computes on the
    0-d tensor of that number. *)
Definition used_schema (g : graph) (sch : schema) : Prop := exists n, In n g /\
  (n_op n = Call (TOverload sch) \/ n_op n = Call (TConcrete sch) \/
   exists sch0 a kw, n_op n = Call (TOverload sch0) /\
     canonicalize registry n sch0 = Some (Some (a, kw, sch))).
Definition scalar_variants_ok (g : graph) : Prop := forall sch v sch', used_schema g sch ->
  scalar_variant (s_op sch) = Some v -> registry v = Some sch' ->
  s_op sch' = v /\ s_returns sch = 1%nat /\ s_returns sch' = 1%nat /\
  (exists p0 p1 p1' r, s_params sch = p0 :: p1 :: r /\ s_params sch' = p0 :: p1' :: r /\
     p_type p1 = JTensor /\ p_type p1' = JNumber) /\
  (forall x s r, is_scalar T s = true ->
     opsem T W (s_op sch) (x :: RT (num_tensor T W s) :: r) =
     opsem T W v (x :: coerce T W (Some JNumber) s :: r)).

(** The canonicalised call computes what the original call computes. *)
Definition canonicalize_ok (g : graph) : Prop := forall n sch a kw sch' e rs,
  In n g -> n_op n = Call (TOverload sch) ->
  canonicalize registry n sch = Some (Some (a, kw, sch')) ->
  eval_call T W e sch (n_args n) (n_kwargs n) = Some rs ->
  eval_call T W e sch' a kw = Some rs /\ s_returns sch' = s_returns sch.
Definition dropped_ok (g : graph) : Prop := forall n sch,
  In n g -> n_op n = Call (TOverload sch) -> canonicalize registry n sch = Some None ->
  s_returns sch = 0%nat.

(** No node holding a scalar is passed to a tensor parameter of the operation finally
    emitted (such IR would not verify). *)
Definition scalar_operand (g : graph) (sch : schema) (args : list arg)
    (kw : list (string * arg)) : Prop :=
  exists i p m, nth_error (s_params sch) i = Some p /\ p_type p = JTensor /\
    (nth_error args i = Some (ANode m) \/
     nth_error args i = None /\ sget kw (p_name p) = Some (ANode m)) /\
    g_scalar g m = true.
Definition tensor_operands_ok (g : graph) : Prop := forall n, In n g ->
  (forall sch a kw sch' sch'', n_op n = Call (TOverload sch) ->
     canonicalize registry n sch = Some (Some (a, kw, sch')) ->
     pick_schema (g_scalar g) registry sch' a = Some sch'' -> ~ scalar_operand g sch'' a kw) /\
  (forall sch sch', n_op n = Call (TConcrete sch) ->
     pick_schema (g_scalar g) registry sch (n_args n) = Some sch' ->
     ~ scalar_operand g sch' (n_args n) (n_kwargs n)) /\
  (forall sch, n_op n = Call (TAuto sch) -> ~ scalar_operand g sch [] (n_kwargs n)).
End Facts.
