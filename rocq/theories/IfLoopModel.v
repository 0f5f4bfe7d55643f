(** The canonicalisations of torch.prim.If (lib/Dialect/Torch/IR/TorchOps.cpp l.535-635) and the unrolling of torch.prim.Loop (lib/Dialect/Torch/Transforms/SimplifyAbstractInterpCalculationsUtils.cpp l.33-101 (sa); PrimLoopOp::isForLike, TorchOps.cpp l.450-453).

    Simplified: values are numbers and regions have one block; a pattern gets the operation, the operations after it in its block and what the block yields, and gives the new operations and yields; constants are known through functions that say which values are results of constant operations. Values of a copied body get new numbers above all others: copy [i] of value [v] is number [n + k + i * n + v], if [n] is above all numbers and [k] the number of copies; index constant [i] is [n + i]. *)
From Coq Require Import Bool PeanoNat ZArith List.
From Verif Require Import Prelude.
Import ListNotations.
Open Scope nat_scope.

Inductive stmt :=
| Op (rs : list nat) (name : nat) (args : list nat)
| CBool (r : nat) (b : bool)
| CInt (r : nat) (z : Z)
| If (c : nat) (t : stmts) (ty : list nat) (f : stmts) (fy : list nat) (rs : list nat)
| Loop (trip init : nat) (inits params : list nat) (body : stmts) (cond : nat) (yields rs : list nat)
with stmts := Nil | Cons (s : stmt) (ss : stmts).
Fixpoint sapp (a b : stmts) : stmts := match a with Nil => b | Cons s a => Cons s (sapp a b) end.
Definition in_list (v : nat) (l : list nat) : bool := existsb (Nat.eqb v) l.

(** the values that an operation defines, in its regions too, and those that it uses *)
Fixpoint binders_s (s : stmt) : list nat :=
  match s with
  | Op rs _ _ => rs
  | CBool r _ | CInt r _ => [r]
  | If _ t _ f _ rs => binders t ++ binders f ++ rs
  | Loop _ _ _ ps body _ _ rs => ps ++ binders body ++ rs
  end
with binders (ss : stmts) : list nat := match ss with Nil => [] | Cons s ss => binders_s s ++ binders ss end.
Fixpoint uses_s (s : stmt) : list nat :=
  match s with
  | Op _ _ args => args
  | CBool _ _ | CInt _ _ => []
  | If c t ty f fy _ => c :: uses t ++ ty ++ uses f ++ fy
  | Loop trip init inits _ body cond ys _ => trip :: init :: inits ++ uses body ++ cond :: ys
  end
with uses (ss : stmts) : list nat := match ss with Nil => [] | Cons s ss => uses_s s ++ uses ss end.
(** replaceAllUsesWith, and IRMapping for copies *)
Section Subst.
Context (g : nat -> nat).
Fixpoint subst_s (s : stmt) : stmt :=
  match s with
  | Op rs name args => Op (map g rs) name (map g args)
  | CBool r b => CBool (g r) b
  | CInt r z => CInt (g r) z
  | If c t ty f fy rs => If (g c) (subst t) (map g ty) (subst f) (map g fy) (map g rs)
  | Loop trip init inits ps body cond ys rs => Loop (g trip) (g init) (map g inits) (map g ps) (subst body) (g cond) (map g ys) (map g rs)
  end
with subst (ss : stmts) : stmts := match ss with Nil => Nil | Cons s ss => Cons (subst_s s) (subst ss) end.
End Subst.
Fixpoint replace (rs vs : list nat) (v : nat) : nat :=
  match rs, vs with
  | r :: rs, w :: vs => if v =? r then w else replace rs vs v
  | _, _ => v
  end.
(** TorchOps.cpp l.552-561 with l.535-546 *)
Definition if_constant (known : nat -> option bool) (s : stmt) (rest : stmts) (ys : list nat) : option (stmts * list nat) :=
  match s with
  | If c t ty f fy rs =>
      do b <- known c ;
      let g := replace rs (if b : bool then ty else fy) in
      Some (sapp (if b then t else f) (subst g rest), map g ys)
  | _ => None
  end.
(** l.564-585: the pairs of results and values that both branches yield *)
Fixpoint agreed (rs ty fy : list nat) : list (nat * nat) :=
  match rs, ty, fy with
  | r :: rs, t :: ty, f :: fy => if t =? f then (r, t) :: agreed rs ty fy else agreed rs ty fy
  | _, _, _ => []
  end.
Definition used (rest : stmts) (ys : list nat) (r : nat) : bool := in_list r (uses rest ++ ys).
Definition if_agreed (s : stmt) (rest : stmts) (ys : list nat) : option (stmts * list nat) :=
  match s with
  | If c t ty f fy rs =>
      let ps := agreed rs ty fy in
      assert existsb (fun p => used rest ys (fst p)) ps ;
      let g := replace (map fst ps) (map snd ps) in
      Some (Cons s (subst g rest), map g ys)
  | _ => None
  end.
(** l.587-634 *)
Fixpoint keep (flags : list bool) (l : list nat) : list nat :=
  match flags, l with
  | b :: flags, x :: l => if b then x :: keep flags l else keep flags l
  | _, _ => []
  end.
Definition empty (ss : stmts) : bool := match ss with Nil => true | _ => false end.
Definition if_dead (s : stmt) (rest : stmts) (ys : list nat) : option (stmts * list nat) :=
  match s with
  | If c t ty f fy rs =>
      let live := map (used rest ys) rs in
      if forallb negb live && empty t && empty f then Some (rest, ys)
      else assert existsb negb live ;
           Some (Cons (If c t (keep live ty) f (keep live fy) (keep live rs)) rest, ys)
  | _ => None
  end.
(** sa l.33-101; None if the pattern does not match, [Some None] if a yielded value is not in the map of the copy (an assertion) *)
Section Unroll.
Context (n k : nat).
(** sa l.75-79 *)
Definition copy_map (i : nat) (params : list nat) (body : stmts) (iters : list nat) (v : nat) : nat :=
  if in_list v params then replace params ((n + i) :: iters) v
  else if in_list v (binders body) then n + k + i * n + v
  else v.
(** IRMapping::lookup, sa l.70-71 and l.93-95 *)
Definition lookup (i : nat) (params : list nat) (body : stmts) (iters : list nat) (v : nat) : option nat :=
  if in_list v (params ++ binders body) then Some (copy_map i params body iters v) else None.
Fixpoint copies (more i : nat) (params : list nat) (body : stmts) (ys iters : list nat) : option (stmts * list nat) :=
  match more with
  | 0 => Some (Nil, iters)
  | S more =>
      do iters' <- mapM (lookup i params body iters) ys ;
      do (rest, last) <- copies more (S i) params body ys iters' ;
      Some (sapp (subst (copy_map i params body iters) body) rest, last)
  end.
Fixpoint indices (more i : nat) : stmts := match more with 0 => Nil | S more => Cons (CInt (n + i) (Z.of_nat i)) (indices more (S i)) end.
End Unroll.
Inductive unrolled := Mismatch | Missing | Unrolled (ss : stmts) (ys : list nat).
Definition unroll (in_calculation : bool) (known : nat -> option bool) (known_int : nat -> option Z) (n : nat) (s : stmt) (rest : stmts) (ys : list nat) : unrolled :=
  match s with
  | Loop trip init inits params body cond yields rs =>
      match in_calculation, known init, known_int trip with
      | true, Some true, Some z =>
          if (z <? 0)%Z then
            match yields with
            | [] => Unrolled (subst (replace rs []) rest) (map (replace rs []) ys)
            | _ => Missing
            end
          else
            let k := Z.to_nat z in
            match copies n k k 0 params body yields inits with
            | Some (cs, last) => let g := replace rs last in Unrolled (sapp (indices n k 0) (sapp cs (subst g rest))) (map g ys)
            | None => Missing
            end
      | _, _, _ => Mismatch
      end
  | _ => Mismatch
  end.
