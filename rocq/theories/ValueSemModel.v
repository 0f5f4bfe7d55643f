(** Turning tensors that are mutated into values: lib/Dialect/Torch/Transforms/MaximizeValueSemantics.cpp (mvs).

    One block of a function. Values are numbers; an operation has at most one result. View-like
    operations (lib/Dialect/Torch/Utils/Utils.cpp:328-345) look at their first operand, and may
    read others; a cast changes only the static type. Sizes and dtypes are not modelled, except that
    a cast may be inserted before a return. The work list of uses finds the same operations as a
    walk down the block, which is how it is done here: an operation comes after its operands'. The
    second pattern also follows uses in nested blocks, which are not modelled. *)
From Coq Require Import Arith List Bool.
From Verif Require Import Prelude.
Import ListNotations.
Open Scope nat_scope.

Definition id := nat.
Definition inb (x : id) (l : list id) : bool := existsb (Nat.eqb x) l.
(** mvs l.36-38 isCastLikeOp: torch.tensor_static_info_cast is the only one. *)
Inductive view := StaticInfoCast | ViewOf (n : nat).
Inductive op :=
| CopyTo (r a : id)                                    (* r = torch.copy.to_tensor a *)
| CopyVal (r a : id)                                   (* r = torch.copy.to_vtensor a *)
| View (k : view) (nv : bool) (r a : id) (others : list id)  (* nv: the result is a !torch.tensor *)
| Overwrite (v o : id)                                 (* torch.overwrite.tensor.contents v overwrites o *)
| Pure (k : nat) (r : id) (args : list id).            (* any other operation, of values *)
Definition uses (o : op) : list id :=
  match o with CopyTo _ a | CopyVal _ a => [a] | View _ _ _ a os => a :: os | Overwrite v o => [v; o] | Pure _ _ l => l end.
Definition defs (o : op) : list id :=
  match o with CopyTo r _ | CopyVal r _ | View _ _ r _ _ | Pure _ r _ => [r] | Overwrite _ _ => [] end.
(** A block: the arguments that are !torch.tensor, the operations and the operands of func.return. *)
Record block := { nv_args : list id; ops : list op; ret : list id }.

(** * mvs l.44-53 getCastLikeAliasesOf. [casts]: result and operand of the casts, the last one first. *)
Fixpoint cast_aliases (casts : list (id * id)) (x : id) : list id :=
  match casts with
  | [] => []
  | (r, a) :: casts => if r =? x then a :: cast_aliases casts a else cast_aliases casts x
  end.

(** * mvs l.75-133 abstractlyInterpretSlice, with the collection of uses and the checks of l.206-282.
    [alias]: the tensors found so far; [avail]: the available ones. The result: all the aliases and casts. *)
Definition touches (alias : list id) (o : op) : bool := existsb (fun x => inb x alias) (uses o).
Fixpoint interpret (alias avail : list id) (casts : list (id * id)) (os : list op) (ret : list id) : option (list id * list (id * id)) :=
  match os with
  | [] => if forallb (fun x => negb (inb x alias) || inb x avail) ret then Some (alias, casts) else None
  | o :: rest =>
      if negb (touches alias o) then interpret alias avail casts rest ret
      else if negb (forallb (fun x => negb (inb x alias) || inb x avail) (uses o)) then None
      else match o with
           | View k nv r a _ =>
               if nv then
                 if inb a alias then interpret (r :: alias) (r :: avail) (match k with StaticInfoCast => (r, a) :: casts | ViewOf _ => casts end) rest ret
                 else None (* l.273-280 *)
               else interpret alias avail casts rest ret
           | CopyVal _ _ => interpret alias avail casts rest ret
           | Overwrite _ x => interpret alias (x :: cast_aliases casts x) casts rest ret
           | CopyTo _ _ | Pure _ _ _ => None
           end
  end.

(** * mvs l.137-203 rewriteSlice *)
Definition rename (from : list id) (to x : id) : id := if inb x from then to else x.
Definition rename_op (f : id -> id) (o : op) : op :=
  match o with
  | CopyTo r a => CopyTo r (f a) | CopyVal r a => CopyVal r (f a) | View k nv r a os => View k nv r (f a) (map f os)
  | Overwrite v x => Overwrite (f v) (f x) | Pure k r l => Pure k r (map f l)
  end.
Definition rename_all (from : list id) (to : id) (b : list op * list id) : list op * list id :=
  (map (rename_op (rename from to)) (fst b), map (rename from to) (snd b)).
Definition cons_op (o : op) (b : list op * list id) : list op * list id := (o :: fst b, snd b).
(** l.155-172: the overwrites from the last to the first; the uses after one are those of what follows. *)
Fixpoint drop_overwrites (alias : list id) (casts : list (id * id)) (os : list op) (ret : list id) : list op * list id :=
  match os with
  | [] => ([], ret)
  | Overwrite v x :: rest =>
      if inb x alias then rename_all (x :: cast_aliases casts x) v (drop_overwrites alias casts rest ret)
      else cons_op (Overwrite v x) (drop_overwrites alias casts rest ret)
  | o :: rest => cons_op o (drop_overwrites alias casts rest ret)
  end.
(** l.174-175: a copy is replaced by its operand. [copies]: the results of the copies. *)
Fixpoint drop_copies (copies : list id) (os : list op) (ret : list id) : list op * list id :=
  match os with
  | [] => ([], ret)
  | o :: rest =>
      match o with
      | CopyTo r a | CopyVal r a => if inb r copies then rename_all [r] a (drop_copies copies rest ret) else cons_op o (drop_copies copies rest ret)
      | _ => cons_op o (drop_copies copies rest ret)
      end
  end.
(** l.178-185: views get results that are values. *)
Definition value_view (views : list id) (o : op) : op :=
  match o with View k nv r a os => View k (nv && negb (inb r views)) r a os | _ => o end.
Definition copy_results (alias : list id) (os : list op) : list id :=
  flat_map (fun o => match o with CopyVal r a => if inb a alias then [r] else [] | _ => [] end) os.
Definition view_results (alias : list id) (os : list op) : list id :=
  flat_map (fun o => match o with View _ _ r _ _ => if touches alias o then [r] else [] | _ => [] end) os.
(** The values that are !torch.tensor. *)
Definition nonvalues (args : list id) (os : list op) : list id :=
  args ++ flat_map (fun o => match o with CopyTo r _ => [r] | View _ true r _ _ => [r] | _ => [] end) os.
(** TorchOps.cpp:98-119 copyTensorToType, for a type that is !torch.tensor; [recast]: sizes or dtype differ. *)
Definition copy_to_type (fresh : id) (recast nv : bool) (x : id) : list op * id :=
  let '(o1, x1) := if recast then ([View StaticInfoCast nv fresh x []], fresh) else ([], x) in
  let '(o2, x2) := if nv then ([CopyVal (S fresh) x1], S fresh) else ([], x1) in
  (o1 ++ o2 ++ [CopyTo (S (S fresh)) x2], S (S fresh)).
(** l.186-202: the operands of the return that were !torch.tensor are copied back to that type. *)
Fixpoint restore (recast : id -> bool) (fresh : id) (before : list bool) (after ret : list id) : list op * list id :=
  match before, ret with
  | b :: before, x :: ret =>
      if b then let '(os, y) := copy_to_type fresh (recast x) (inb x after) x in let '(os', ys) := restore recast (S (S (S fresh))) before after ret in (os ++ os', y :: ys)
      else let '(os', ys) := restore recast fresh before after ret in (os', x :: ys)
  | _, _ => ([], ret)
  end.

(** * mvs l.205-292 matchAndRewrite, for the copy whose result is [r0]. [fresh]: a number that is not in use. *)
Fixpoint split_at (r0 : id) (os : list op) : option (list op * id * list op) :=
  match os with
  | [] => None
  | CopyTo r a :: rest => if r =? r0 then Some ([], a, rest) else do x <- split_at r0 rest; let '(pre, a', post) := x in Some (CopyTo r a :: pre, a', post)
  | o :: rest => do x <- split_at r0 rest; let '(pre, a', post) := x in Some (o :: pre, a', post)
  end.
Definition rewrite (recast : id -> bool) (fresh r0 : id) (b : block) : option block :=
  do x <- split_at r0 (ops b); let '(pre, a0, post) := x in
  if negb (existsb (touches [r0]) post) && inb r0 (ret b) then None (* l.267-270 *)
  else
    do s <- interpret [r0] [r0] [] post (ret b); let '(alias, casts) := s in
    let '(os1, ret1) := drop_overwrites alias casts post (ret b) in
    let '(os2, ret2) := drop_copies (r0 :: copy_results alias post) (CopyTo r0 a0 :: os1) ret1 in
    let os3 := pre ++ map (value_view (view_results alias post)) os2 in
    if existsb (fun x => inb x alias) (ret b) then
      let '(os4, ret4) := restore recast fresh (map (fun x => inb x (nonvalues (nv_args b) (ops b))) (ret b)) (nonvalues (nv_args b) os3) ret2 in
      Some {| nv_args := nv_args b; ops := os3 ++ os4; ret := ret4 |}
    else Some {| nv_args := nv_args b; ops := os3; ret := ret2 |}.

(** * mvs l.296-374 RewriteViewLikeSubgraph, in one block *)
Fixpoint view_tree (reach : list id) (os : list op) : option (list id) :=
  match os with
  | [] => Some reach
  | o :: rest =>
      if negb (touches reach o) then view_tree reach rest
      else match o with
           | CopyVal _ _ => view_tree reach rest
           | View _ _ r _ _ => view_tree (r :: reach) rest
           | _ => None
           end
  end.
Definition rewrite_views (recast : id -> bool) (fresh r0 : id) (b : block) : option block :=
  do x <- split_at r0 (ops b); let '(pre, a0, post) := x in
  do reach <- view_tree [r0] post;
  let copies := copy_results reach post in let views := view_results reach post in
  if match copies, views with [], [] => true | _, _ => false end then None
  else
    let '(os2, ret2) := drop_copies (r0 :: copies) (CopyTo r0 a0 :: post) (ret b) in
    let os3 := pre ++ map (value_view views) os2 in
    let original := filter (fun x => inb x (nonvalues [] post)) views in
    if existsb (fun x => inb x reach) (ret b) then
      let '(os4, ret4) := restore recast fresh (map (fun x => inb x original) ret2) (nonvalues (nv_args b) os3) ret2 in
      Some {| nv_args := nv_args b; ops := os3 ++ os4; ret := ret4 |}
    else Some {| nv_args := nv_args b; ops := os3; ret := ret2 |}.
