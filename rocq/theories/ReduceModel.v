(** lib/Dialect/Torch/Transforms/ReduceOpVariants.cpp (rv): the pass that makes operations work on value tensors, and replaces those that change a tensor in place by an operation and an overwriting of the contents.

    Simplified: a function is one sequence of operations; the sizes and dtype of a tensor type are one number; the operations that the pass makes get the next free numbers, and the results of the operations that it changes are renumbered instead of their uses; the operations that stand for others are made first and get value semantics second, where the driver of the rewriting does both per operation (the second step looks only at operations that the first leaves alone). None is a failure of the pass or of an assertion. [traits] tells which operations have the traits HasValueSemantics and IsTrailingUnderscoreInplaceVariant, and which operators the extra library declares. Attributes, locations, the element types of literals and arange.start_out are not modelled. *)
From Coq Require Import Bool Ascii String PeanoNat List.
From Verif Require Import Prelude.
Import ListNotations.
Open Scope nat_scope.

Definition text := list ascii.
Definition txt (s : string) : text := list_ascii_of_string s.
Inductive ty := NT (info : nat) | VT (info : nat) | ListT (t : ty) | OptT (t : ty) | NoneT | OtherT (n : nat).
Definition value := (nat * ty)%type.
Inductive op :=
| Aten (name : text) (rs args : list value)
| Operator (name : text) (rs args : list value)
| ListC (r : value) (elements : list value)
| Deref (r v : value)
| ToVal (r v : value)
| ToNon (r v : value)
| Cast (r v : value)
| Overwrite (v target : value)
| NLit (r : value) (literal info : nat)
| VLit (r : value) (literal : nat)
| CBool (r : value) (b : bool)
| CNone (r : value)
| DtypeOf (r v : value)
| ToDtype (r v dtype : value)
| Bernoulli (r : value) (args : list value).
Record traits := { value_semantics : text -> bool; in_place : text -> bool; in_library : text -> bool }.

Definition results (o : op) : list value :=
  match o with
  | Aten _ rs _ | Operator _ rs _ => rs
  | ListC r _ | Deref r _ | ToVal r _ | ToNon r _ | Cast r _ | NLit r _ _ | VLit r _ | CBool r _ | CNone r | DtypeOf r _ | ToDtype r _ _ | Bernoulli r _ => [r]
  | Overwrite _ _ => []
  end.
Definition operands (o : op) : list value :=
  match o with
  | Aten _ _ args | Operator _ _ args | ListC _ args | Bernoulli _ args => args
  | Deref _ v | ToVal _ v | ToNon _ v | Cast _ v | DtypeOf _ v => [v]
  | Overwrite v t | ToDtype _ v t => [v; t]
  | NLit _ _ _ | VLit _ _ | CBool _ _ | CNone _ => []
  end.
Definition is (n : nat) (v : value) : bool := fst v =? n.
(** getDefiningOp *)
Definition defining (l : list op) (v : value) : option op := find (fun o => existsb (is (fst v)) (results o)) l.

(** Results are replaced everywhere: [s] maps the number of a replaced result to the number that stands for it *)
Definition renaming := list (nat * nat).
Definition rename (s : renaming) (v : value) : value := match find (fun p => fst p =? fst v) s with Some p => (snd p, snd v) | None => v end.
Definition rename_op (s : renaming) (o : op) : op :=
  let f := rename s in
  match o with
  | Aten n rs args => Aten n rs (map f args) | Operator n rs args => Operator n rs (map f args)
  | ListC r l => ListC r (map f l) | Deref r v => Deref r (f v) | ToVal r v => ToVal r (f v) | ToNon r v => ToNon r (f v) | Cast r v => Cast r (f v)
  | Overwrite v t => Overwrite (f v) (f t)
  | NLit r c i => NLit r c i | VLit r c => VLit r c | CBool r b => CBool r b | CNone r => CNone r
  | DtypeOf r v => DtypeOf r (f v) | ToDtype r v d => ToDtype r (f v) (f d) | Bernoulli r args => Bernoulli r (map f args)
  end.

Definition is_non_value (t : ty) : bool := match t with NT _ => true | _ => false end.
Fixpoint ty_eqb (a b : ty) : bool :=
  match a, b with
  | NT i, NT j | VT i, VT j | OtherT i, OtherT j => i =? j
  | ListT a, ListT b | OptT a, OptT b => ty_eqb a b
  | NoneT, NoneT => true
  | _, _ => false
  end.

(** createOverwriteTensorContents, rv l.30-43 *)
Definition overwrite_contents (v target : value) (next : nat) : option (list op * nat) :=
  match snd target with
  | NT i => Some (if ty_eqb (snd v) (VT i) then ([Overwrite v target], next) else ([Cast (next, VT i) v; Overwrite (next, VT i) target], S next))
  | _ => None
  end.
(** getContainerOrTensorTypeWithValueSemantics, rv l.45-60; containers of nothing are not built *)
Fixpoint with_value_semantics (t : ty) : option ty :=
  match t with
  | OptT t => do t <- with_value_semantics t; Some (OptT t)
  | ListT t => do t <- with_value_semantics t; Some (ListT t)
  | NT i => Some (VT i)
  | _ => None
  end.

(** Fragments between dots, llvm::SplitString; empty fragments are skipped *)
Fixpoint fragments_from (s current : text) : list text :=
  match s with
  | [] => match current with [] => [] | _ => [current] end
  | c :: s => if Ascii.eqb c "."%char then match current with [] => fragments_from s [] | _ => current :: fragments_from s [] end else fragments_from s (current ++ [c])
  end.
Definition fragments (s : text) : list text := fragments_from s [].
Fixpoint join_dots (l : list text) : text := match l with [] => [] | [t] => t | t :: r => t ++ "."%char :: join_dots r end.
(** The name without the underscore, rv l.357-363 *)
Definition no_underscore (name : text) : option text :=
  match fragments name with
  | a :: b :: c :: r => match rev c with "_"%char :: c => Some (join_dots (a :: b :: rev c :: r)) | _ => None end
  | _ => None
  end.

Definition sdpa : text := txt "torch.aten.scaled_dot_product_attention".
Definition flash : text := txt "torch.aten._scaled_dot_product_flash_attention_for_cpu".
Definition valsem_bernoulli : text := txt "torch.valsem.aten.bernoulli.float".
Definition text_eqb (a b : text) : bool := if list_eq_dec ascii_dec a b then true else false.

Section Pass.
Context (tr : traits).

(** What stands for an operation that is not legal, with the replaced result: ReduceTrailingUnderscoreInplaceVariant l.350-398, the Bernoulli case of ReduceNonValueSemanticOps l.292-303, reduceNonValueTensorLiteralOpToValueTensorLiteralOp l.401-410 and the handler of populateSpecializedConversions l.231-256; the operators that are legal nowhere, l.481-483 *)
Definition expand (unused : value -> bool) (o : op) (next : nat) : option (list op * renaming * nat) :=
  match o with
  | Aten name rs args =>
      if value_semantics tr name then Some ([o], [], next)
      else if in_place tr name then
        do name' <- no_underscore name;
        match rs, args with
        | [r], self :: _ =>
            let new := (next, snd r) in let none := (S next, NoneT) in let no := (2 + next, OtherT 0) in let dtype := (3 + next, OtherT 1) in
            let cast := (4 + next, snd r) in
            match snd r with
            | NT i =>
                let tensor := (5 + next, VT i) in
                do (os, next') <- overwrite_contents tensor self (6 + next);
                Some ([Aten name' [new] args; CNone none; CBool no false; DtypeOf dtype self; ToDtype cast new dtype; ToVal tensor cast] ++ os, [(fst r, fst self)], next')
            | _ => None
            end
        | _, _ => None
        end
      else Some ([o], [], next)
  | Bernoulli r args =>
      match args with
      | self :: _ =>
          match snd r with
          | NT i =>
              do (os, next') <- overwrite_contents (S next, VT i) self (2 + next);
              Some ([Aten valsem_bernoulli [(next, snd r)] args; ToVal (S next, VT i) (next, snd r)] ++ os, [(fst r, fst self)], next')
          | _ => None
          end
      | [] => None
      end
  | NLit r c i =>
      match snd r with
      | NT j =>
          if i =? j then Some ([VLit (next, VT i) c; ToNon r (next, VT j)], [], S next)
          else Some ([VLit (next, VT i) c; Cast (S next, VT j) (next, VT i); ToNon r (S next, VT j)], [], 2 + next)
      | _ => None
      end
  | Operator name rs args =>
      if text_eqb name flash then
        match rs, args with
        | [r0; r1], q :: k :: v :: dropout :: causal :: mask :: scale :: _ =>
            if unused r1 then Some ([CBool (next, OtherT 0) false; Aten sdpa [r0] [q; k; v; mask; dropout; causal; scale; (next, OtherT 0)]], [], S next) else None
        | _, _ => None
        end
      else if in_library tr name then Some ([o], [], next) else None
  | _ => Some ([o], [], next)
  end.
Fixpoint expand_all (unused : value -> bool) (l : list op) (s : renaming) (next : nat) : option (list op * renaming * nat) :=
  match l with
  | [] => Some ([], s, next)
  | o :: l =>
      do (os, s', next) <- expand unused o next;
      let os := map (rename_op s) os in
      let s := map (fun p => (fst p, fst (rename s (snd p, NoneT)))) s' ++ s in
      do (rest, s, next) <- expand_all unused l s next;
      Some (os ++ rest, s, next)
  end.

(** Legality of an operation with value semantics, l.457-475 *)
Definition legal (rs args : list value) : bool := forallb (fun v => negb (is_non_value (snd v))) (args ++ rs).

(** The elements of a new list, l.143-151 *)
Fixpoint copy_elements (l : list value) (next : nat) : list op * list value * nat :=
  match l with
  | [] => ([], [], next)
  | v :: l =>
      match snd v with
      | NT i => let '(os, vs, next') := copy_elements l (S next) in (ToVal (next, VT i) v :: os, (next, VT i) :: vs, next')
      | _ => let '(os, vs, next') := copy_elements l next in (os, v :: vs, next')
      end
  end.
Definition tensor_or_none (t : ty) : bool := match t with NT _ | NoneT => true | _ => false end.
(** One operand, l.102-181 *)
Definition convert_operand (defs : list op) (v : value) (next : nat) : option (list op * value * nat) :=
  match snd v with
  | NT i => Some ([ToVal (next, VT i) v], (next, VT i), S next)
  | ListT t =>
      if match t with NT _ | OptT _ => true | _ => false end then
        match defining defs v with
        | Some (ListC _ elements) =>
            match elements with
            | [] => Some ([], v, next)
            | _ =>
                assert match t with OptT _ => forallb (fun u => tensor_or_none (snd u)) elements | _ => true end;
                let '(os, vs, next) := copy_elements elements next in
                do t' <- with_value_semantics (snd v);
                Some (os ++ [ListC (next, t') vs], (next, t'), S next)
            end
        | _ => None
        end
      else Some ([], v, next)
  | OptT (NT _) =>
      match defining defs v with
      | Some (Deref _ u) =>
          match snd u with
          | NT i => Some ([ToVal (next, VT i) u; Deref (S next, OptT (VT i)) (next, VT i)], (S next, OptT (VT i)), 2 + next)
          | _ => Some ([], v, next)
          end
      | _ => None
      end
  | _ => Some ([], v, next)
  end.
Fixpoint convert_operands (defs : list op) (l : list value) (next : nat) : option (list op * list value * nat) :=
  match l with
  | [] => Some ([], [], next)
  | v :: l =>
      do (os, v, next) <- convert_operand defs v next;
      do (os', vs, next) <- convert_operands defs l next;
      Some (os ++ os', v :: vs, next)
  end.
(** The results, l.182-192 *)
Fixpoint convert_results (l : list value) (next : nat) : list value * list op * nat :=
  match l with
  | [] => ([], [], next)
  | r :: l =>
      match snd r with
      | NT i => let '(rs, os, next') := convert_results l (S next) in ((next, VT i) :: rs, ToNon r (next, VT i) :: os, next')
      | _ => let '(rs, os, next') := convert_results l next in (r :: rs, os, next')
      end
  end.
(** ConvertHasValueSemanticsOpsToValueTensors, l.79-195 *)
Definition convert_op (defs : list op) (build : list value -> list value -> op) (rs args : list value) (next : nat) : option (list op * nat) :=
  if legal rs args then Some ([build rs args], next)
  else
    do (before, args, next) <- convert_operands defs args next;
    let '(rs, after, next) := convert_results rs next in
    Some (before ++ build rs args :: after, next).
Definition convert (defs : list op) (o : op) (next : nat) : option (list op * nat) :=
  match o with
  | Aten name rs args => if value_semantics tr name then convert_op defs (Aten name) rs args next else Some ([o], next)
  | Operator name rs args => if in_library tr name then convert_op defs (Operator name) rs args next else Some ([o], next)
  | _ => Some ([o], next)
  end.
Fixpoint convert_all (defs l : list op) (next : nat) : option (list op * nat) :=
  match l with
  | [] => Some ([], next)
  | o :: l => do (os, next) <- convert defs o next; do (rest, next) <- convert_all defs l next; Some (os ++ rest, next)
  end.

(** runOnOperation, l.413-491, of a function whose values have numbers below [next] *)
Definition mentioned (l : list op) (ret : list value) (v : value) : bool := existsb (is (fst v)) (flat_map operands l ++ ret).
Definition reduce (l : list op) (ret : list value) (next : nat) : option (list op * list value) :=
  do (l1, s, next) <- expand_all (fun v => negb (mentioned l ret v)) l [] next;
  do (l2, _) <- convert_all l1 l1 next;
  Some (l2, map (rename s) ret).
End Pass.
