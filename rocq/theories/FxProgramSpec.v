(** Specification side for import_program: what an ExportedProgram computes. Its lifted
    inputs come from the signature, the graph is interpreted, user outputs and mutations are
    read off the final environment. Nothing here refers to the importer's tables. *)
From Coq Require Import String ZArith Bool List.
From Verif Require Import Prelude FxGraphModel FxGraphSpec FxProgramModel.
Import ListNotations.

Section Sem.
Variable T : Type.
Variable W : world T.

(** The name of the placeholder an input spec describes. *)
Definition spec_name (s : ispec) : option string :=
  match i_arg s with ITensor n | ISymInt n | IConst n _ => Some n | IOther => None end.
(** Names of the function's arguments: tensors and symbolic integers given by the user. *)
Definition user_names (ins : list ispec) : list string :=
  flat_map (fun s => match i_kind s, i_arg s with
                     | IUser, ITensor n | IUser, ISymInt n => [n] | _, _ => [] end) ins.

(** The value of every lifted or user input. *)
Fixpoint bind_inputs (p : program) (ins : list ispec) (inputs : list (rv T))
  : option (list (string * rv T)) :=
  let given l n r := do v <- obind l (lit_val T W);
                     do vs <- bind_inputs p r inputs; Some ((n, v) :: vs) in
  match ins with
  | [] => match inputs with [] => Some [] | _ => None end
  | s :: r =>
      match i_kind s, i_arg s with
      | IUser, ITensor n | IUser, ISymInt n =>
          match inputs with
          | [] => None
          | v :: rest => do vs <- bind_inputs p r rest; Some ((n, v) :: vs)
          end
      | IUser, IConst n l => given (Some l) n r
      | IConstTensor, ITensor n => given (sget (pg_consts p) (i_target s)) n r
      | IParam, ITensor n => given (sget (pg_state p) (i_target s)) n r
      | IBuffer, ITensor n =>
          given (sget (if i_persistent s then pg_state p else pg_consts p) (i_target s)) n r
      | _, _ => None
      end
  end.

Definition user_out (o : ospec) : bool := match os_kind o with OUser => true | _ => false end.
Definition out_value (e : fenv T) (o : ospec) : option (rv T) :=
  match os_arg o with
  | OTensor n | OSymInt n => match sget e n with Some (FOne v) => Some v | _ => None end
  | OConst l => lit_val T W l
  | OOther => None
  end.

(** Running the program on the user's inputs: final environment and user outputs. *)
Definition program_run (p : program) (inputs : list (rv T)) : option (fenv T * list (rv T)) :=
  do binds <- bind_inputs p (pg_ins p) inputs;
  do phs <- mapM (fun nd => sget binds (n_name nd)) (placeholders (pg_graph p));
  do (e, _) <- fx_run T W [] (pg_graph p) phs;
  do outs <- mapM (out_value e) (filter user_out (pg_outs p));
  Some (e, outs).

(** The machine at function entry: argument [k] is value [k], and (if mutable) memory
    location [HOverwrite k] holds its contents. *)
Definition start (inputs : list (rv T)) : mach T :=
  M (combine (seq 0 (length inputs)) inputs)
    (combine (map HOverwrite (seq 0 (length inputs))) inputs).

(** The mutations reported by the signature: the contents of argument [k] (buffer [b])
    become the value of node [q]. *)
Definition input_mutation (p : program) (o : ospec) (q : string) (k : nat) : Prop :=
  In o (pg_outs p) /\ os_kind o = OInputMutation /\ os_arg o = OTensor q /\
  nth_error (user_names (pg_ins p)) k = Some (os_target o).
Definition buffer_mutation (p : program) (o : ospec) (q : string) : Prop :=
  In o (pg_outs p) /\ os_kind o = OBufferMutation /\ os_arg o = OTensor q /\
  exists s, In s (pg_ins p) /\ i_kind s = IBuffer /\ i_target s = os_target o.
Definition mutation (p : program) (o : ospec) (q : string) : Prop :=
  In o (pg_outs p) /\ (os_kind o = OInputMutation \/ os_kind o = OBufferMutation) /\
  os_arg o = OTensor q.

(** What torch.export guarantees: unique node names, placeholders first, one input spec
    per placeholder and per buffer. *)
Definition export_ok (p : program) : Prop :=
  NoDup (map n_name (pg_graph p)) /\
  (exists phs rest, pg_graph p = phs ++ rest /\ placeholders phs = phs /\
     placeholders rest = []) /\
  NoDup (map spec_name (pg_ins p)) /\
  NoDup (map i_target (filter (fun s => match i_kind s with IBuffer => true | _ => false end)
                              (pg_ins p))).
(** The new value of every mutated target is the single result of an operator call (not
    an input of the program). *)
Definition computed_mutations (p : program) : Prop := forall o q, mutation p o q ->
  exists nd t, In nd (pg_graph p) /\ n_name nd = q /\ n_op nd = Call t.
End Sem.

(** ** Uses of a lifted tensor object *)
(** The object an input spec lifts. *)
Definition spec_lit (p : program) (s : ispec) : option lit :=
  match i_kind s, i_arg s with
  | IUser, IConst _ v => Some v
  | IConstTensor, _ => sget (pg_consts p) (i_target s)
  | IParam, _ => sget (pg_state p) (i_target s)
  | IBuffer, _ => sget (if i_persistent s then pg_state p else pg_consts p) (i_target s)
  | _, _ => None
  end.
(** Literals and nodes mentioned by an argument. *)
Fixpoint arg_lits (a : arg) : list lit :=
  match a with ANode _ => [] | ALit l => [l] | AList l | ATuple l => flat_map arg_lits l end.
Fixpoint arg_nodes (a : arg) : list string :=
  match a with ANode n => [n] | ALit _ => [] | AList l | ATuple l => flat_map arg_nodes l end.
Definition node_args (n : node) : list arg := n_args n ++ map snd (n_kwargs n).
Definition is_object (id : nat) (l : lit) : Prop :=
  match l with LTensor i _ => i = id | _ => False end.
Definition dflt_lits (d : dflt) : list lit := match d with DLit l => [l] | DList l => l end.
Definition schema_lits (sch : schema) : list lit :=
  flat_map (fun q => match p_default q with Some d => dflt_lits d | None => [] end) (s_params sch).
(** Tensor object [id] enters the program through input spec [s] and in no other way. *)
Definition lifted_only (registry : string -> option schema) (p : program) (id : nat) (s : ispec)
  : Prop :=
  In s (pg_ins p) /\
  (forall s' l, In s' (pg_ins p) -> spec_lit p s' = Some l -> is_object id l -> s' = s) /\
  (forall nd a l, In nd (pg_graph p) -> In a (node_args nd) -> In l (arg_lits a) ->
     ~ is_object id l) /\
  (forall nd l, In nd (pg_graph p) -> n_op nd = GetAttr (Some l) -> ~ is_object id l) /\
  (forall nd sch l, In nd (pg_graph p) ->
     n_op nd = Call (TOverload sch) \/ n_op nd = Call (TConcrete sch) ->
     In l (schema_lits sch) -> ~ is_object id l) /\
  (forall k sch l, registry k = Some sch -> In l (schema_lits sch) -> ~ is_object id l) /\
  (forall o l, In o (pg_outs p) -> os_arg o = OConst l -> ~ is_object id l).
(** Node [n] is mentioned by an operator call, or returned to the user. *)
Definition used_by_call (p : program) (n : string) : Prop :=
  exists nd a, In nd (pg_graph p) /\ In a (node_args nd) /\ In n (arg_nodes a).
Definition returned (p : program) (n : string) : Prop :=
  exists o, In o (pg_outs p) /\ os_kind o = OUser /\ (os_arg o = OTensor n \/ os_arg o = OSymInt n).
