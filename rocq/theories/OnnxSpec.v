(** Meaning of ONNX graphs, by value names, and of the emitted operations. *)
From Coq Require Import ZArith Bool Ascii String List.
From Verif Require Import Prelude OnnxModel.
Import ListNotations.
Open Scope string_scope.
Open Scope list_scope.

Section Meaning.
Context {D Op T V : Type} (const : D -> V).
(** A value, or none for an omitted input. *)
Notation val := (option V).
(** What a graph attribute computes from the values it is given. *)
Definition closure := list (option V) -> option (list (option V)).
(** The meaning of an operator; graph attributes come in the order of their names. *)
Context (sem : Op -> list val -> list (option closure) -> option (list val)).

(** * ONNX *)
Definition scope := list (string * val).
Fixpoint insert_by_name {A} (p : string * A) (l : list (string * A)) : list (string * A) :=
  match l with [] => [p] | q :: r => if String.leb (fst p) (fst q) then p :: l else q :: insert_by_name p r end.
Definition by_name {A} (l : list (string * A)) : list (string * A) := fold_right insert_by_name [] l.
Definition bind_all (ns : list string) (vs : list val) (s : scope) : scope :=
  fold_left (fun e p => if String.eqb (fst p) "" then e else p :: e) (combine ns vs) s.
Section Rec.
  Context (rec : graph D Op T -> scope -> option (list val)).
  (** A subgraph sees the values around it, unless its inputs hide them. *)
  Definition subgraph (s : scope) (g : graph D Op T) : closure := fun args =>
    assert (length args =? length (g_inputs g))%nat;
    rec g (rev (combine (map fst (g_inputs g)) args) ++ s).
  Definition eval_node (s : scope) (n : node_ D Op (graph D Op T)) : option scope :=
    match n with
    | NConst outs iname d => match outs with [out] => Some ((if String.eqb out "" then iname else out, Some (const d)) :: s) | _ => None end
    | NOp _ op ins outs subs =>
        do vals <- mapM (fun i => if String.eqb i "" then Some None else lookup s i) ins;
        do res <- sem op vals (map (fun p => Some (snd p)) (by_name (map (fun p => (fst p, subgraph s (snd p))) subs)));
        assert (length res =? length outs)%nat;
        Some (bind_all outs res s)
    end.
  Fixpoint eval_nodes (l : list (node_ D Op (graph D Op T))) (s : scope) : option scope :=
    match l with [] => Some s | n :: r => do s' <- eval_node s n; eval_nodes r s' end.
End Rec.
(** The values of the outputs; initializers, then nodes. A later initializer of the same name replaces an earlier one. *)
Fixpoint eval_graph (g : graph D Op T) (s : scope) {struct g} : option (list val) :=
  match g with
  | Graph _ inits nodes outs =>
      do s' <- eval_nodes eval_graph nodes (rev (map (fun p => (fst p, Some (const (snd p)))) inits) ++ s);
      mapM (lookup s') outs
  end.
(** The declared inputs without an initializer, each once. *)
Fixpoint once (l : list string) : list string :=
  match l with [] => [] | k :: r => k :: filter (fun x => negb (String.eqb x k)) (once r) end.
Definition arguments (g : graph D Op T) : list string :=
  filter (fun k => negb (existsb (String.eqb k) (map fst (g_inits g)))) (once (map fst (g_inputs g))).
Definition eval_main (g : graph D Op T) (args : list val) : option (list val) :=
  assert (length args =? length (arguments g))%nat; eval_graph g (rev (combine (arguments g) args)).

(** * Emitted operations *)
Definition regs := list (nat * val).
Fixpoint reg (l : regs) (k : nat) : option val := match l with [] => None | (x, v) :: r => if Nat.eqb x k then Some v else reg r k end.
Section Exec.
  Context (rec : block D Op -> regs -> closure).
  Definition exec_op (e : regs) (o : iop_ D Op (block D Op)) : option regs :=
    match o with
    | IConst r d => Some ((r, Some (const d)) :: e)
    | INone r => Some ((r, None) :: e)
    | IOp rs op ins bs =>
        do vals <- mapM (reg e) ins;
        do res <- sem op vals (map (option_map (fun b => rec b e)) bs);
        assert (length res =? length rs)%nat;
        Some (rev (combine rs res) ++ e)
    end.
  Fixpoint exec_ops (l : list (iop_ D Op (block D Op))) (e : regs) : option regs :=
    match l with [] => Some e | o :: r => do e' <- exec_op e o; exec_ops r e' end.
End Exec.
Fixpoint exec_block (b : block D Op) (e : regs) (args : list val) {struct b} : option (list val) :=
  match b with
  | Block params ops outs =>
      assert (length args =? length params)%nat;
      do e' <- exec_ops exec_block ops (rev (combine params args) ++ e);
      mapM (reg e') outs
  end.

(** The meaning of an operator depends only on what its graph attributes compute. *)
Definition same_region (a b : option closure) : Prop :=
  match a, b with Some f, Some g => forall x, f x = g x | None, None => True | _, _ => False end.
Definition extensional : Prop := forall op vs rs rs', Forall2 same_region rs rs' -> sem op vs rs = sem op vs rs'.
End Meaning.

(** * Well-formedness *)
Section Formed.
Context {D Op T : Type}.
Definition named (outs : list string) : list string := filter (fun o => negb (String.eqb o "")) outs.
Definition const_name (out iname : string) : string := if String.eqb out "" then iname else out.
Section Rec.
  Context (rec : graph D Op T -> list string -> Prop).
  (** [bound] are the names bound so far. *)
  Fixpoint unshadowed_nodes (l : list (node_ D Op (graph D Op T))) (bound : list string) : Prop :=
    match l with
    | [] => True
    | NConst outs iname _ :: r => unshadowed_nodes r (match outs with [out] => const_name out iname :: bound | _ => bound end)
    | NOp _ _ _ outs subs :: r =>
        NoDup (map fst subs) /\
        fold_right (fun p acc => ((forall x, In x (map fst (g_inputs (snd p))) -> ~ In x bound) /\ rec (snd p) (map fst (g_inputs (snd p)) ++ bound)) /\ acc) True subs /\
        unshadowed_nodes r (named outs ++ bound)
    end.
End Rec.
(** No input of a subgraph has a name already bound around it, and no two graph attributes of a node share a name. *)
Fixpoint unshadowed (g : graph D Op T) (bound : list string) {struct g} : Prop :=
  match g with Graph _ inits nodes _ => unshadowed_nodes unshadowed nodes (map fst inits ++ bound) end.
Context (opsets : list string).
Section Rec2.
  Context (rec : graph D Op T -> list string -> Prop).
  Fixpoint scoped_nodes (l : list (node_ D Op (graph D Op T))) (bound : list string) : option (list string) -> Prop :=
    match l with
    | [] => fun after => after = Some bound
    | NConst outs iname _ :: r => fun after => exists out, outs = [out] /\ scoped_nodes r (const_name out iname :: bound) after
    | NOp domain _ ins outs subs :: r => fun after =>
        (forall i, In i ins -> i = "" \/ In i bound) /\ In domain opsets /\
        fold_right (fun p acc => ((forall x, In x (map fst (g_inputs (snd p))) -> ~ In x (map fst (g_inits (snd p)))) /\ rec (snd p) (map fst (g_inputs (snd p)) ++ bound)) /\ acc) True subs /\
        scoped_nodes r (named outs ++ bound) after
    end.
End Rec2.
(** Every name is bound before it is used, here and in subgraphs, and every domain is imported. *)
Fixpoint well_scoped (g : graph D Op T) (bound : list string) {struct g} : Prop :=
  match g with Graph _ inits nodes outs => exists after, scoped_nodes well_scoped nodes (map fst inits ++ bound) (Some after) /\ forall o, In o outs -> In o after end.
End Formed.
