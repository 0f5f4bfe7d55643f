(** lib/Dialect/Torch/Transforms/SimplifyAbstractInterpCalculationsUtils.cpp l.104-255 (sa), with potentiallyMutatesListOperands (lib/Dialect/Torch/IR/TorchOps.cpp l.126-144) and matchLegalConstantIndexIntoListOfSize (lib/Dialect/Torch/Utils/Utils.cpp l.32-54): the pattern that replaces a list construction and the operations that change the list by constructions of the successive lists.

    Simplified: values are numbers; the block is the construction and the operations after it; an operation that is not one of append, insert, _set_item, a construction or an alias (derefine, casts, tuples: pure operations whose result is or holds their operand) is given by its users: the operation itself and those in its regions, each with whether it is in a region, whether it may change the lists it gets (no ReadOnly trait and some memory effect), and its operands. Users in one region operation come in any order (the order of the use list). A user that gets the list twice is one user. *)
From Coq Require Import Bool PeanoNat ZArith List.
From Verif Require Import Prelude.
Import ListNotations.
Open Scope nat_scope.

Definition value := nat.
Record inner := { nested : bool; mutates : bool; operands : list value }.
Inductive op :=
| Int (r : value) (z : Z)
| Make (r : value) (els : list value)
| Append (self el : value) (used : bool)
| Insert (self idx el : value) (used : bool)
| SetItem (self idx el : value) (used : bool)
| Alias (r v : value)
| Other (r : value) (inners : list inner).
Definition result (o : op) : list value := match o with Int r _ | Make r _ | Alias r _ | Other r _ => [r] | _ => [] end.
(** the users that the pattern meets, sa l.109-126 *)
Inductive user :=
| UAppend (self el : value) (used : bool)
| UInsert (self idx el : value) (used : bool)
| USet (self idx el : value) (used : bool)
| UInner (nested mutates : bool).
Definition has (l : value) (vs : list value) : bool := existsb (Nat.eqb l) vs.
Definition users (l : value) (o : op) : list user :=
  match o with
  | Int _ _ => []
  | Make _ els => if has l els then [UInner false false] else []
  | Append self el used => if has l [self; el] then [UAppend self el used] else []
  | Insert self idx el used => if has l [self; idx; el] then [UInsert self idx el used] else []
  | SetItem self idx el used => if has l [self; idx; el] then [USet self idx el used] else []
  | Alias _ v => if l =? v then [UInner false false] else []
  | Other _ inners => flat_map (fun i => if has l (operands i) then [UInner (nested i) (mutates i)] else []) inners
  end.
(** how far the users are interpreted, sa l.128-150 *)
Fixpoint interpreted (us : list user) : list user :=
  match us with
  | [] => []
  | UInner true true :: _ => []
  | u :: us => u :: interpreted us
  end.
(** m_TorchConstantInt, include/torch-mlir/Dialect/Torch/IR/TorchOps.h *)
Fixpoint const (prog : list op) (v : value) : option Z :=
  match prog with
  | [] => None
  | Int r z :: prog => if r =? v then Some z else const prog v
  | _ :: prog => const prog v
  end.
(** Utils.cpp l.32-54 *)
Definition legal_index (prog : list op) (v : value) (length : nat) : option nat :=
  do dim <- const prog v ;
  let dim := if (dim <? 0)%Z then (dim + Z.of_nat length)%Z else dim in
  if ((0 <=? dim) && (dim <? Z.of_nat length))%Z then Some (Z.to_nat dim) else None.
Definition insert_at (i : nat) (v : value) (vs : list value) : list value := firstn i vs ++ v :: skipn i vs.
(** the lists after each changing user, and whether one was new; None if the pattern does not match, sa l.152-209 *)
Section Literals.
Context (prog : list op) (l : value).
Fixpoint literals (running : list value) (us : list user) : option (list (list value) * bool) :=
  match us with
  | [] => Some ([], false)
  | UAppend self el used :: us =>
      assert negb used ;
      let mine := self =? l in
      let running := if mine then running ++ [el] else running in
      do (ls, g) <- literals running us ;
      Some (running :: ls, mine || g)
  | UInsert self idx el used :: us =>
      assert negb used ;
      do index <- const prog idx ;
      assert negb ((index <? 0) || (Z.of_nat (List.length running) <? index))%Z ;
      let mine := self =? l in
      let running := if mine then insert_at (Z.to_nat index) el running else running in
      do (ls, g) <- literals running us ;
      Some (running :: ls, mine || g)
  | USet self idx el used :: us =>
      assert negb used ;
      do index <- legal_index prog idx (List.length running) ;
      let mine := self =? l in
      let running := if mine then set_nth index el running else running in
      do (ls, g) <- literals running us ;
      Some (running :: ls, mine || g)
  | UInner _ true :: _ => Some ([], false)
  | UInner _ false :: us => literals running us
  end.
End Literals.
Definition swap (l cur v : value) : value := if v =? l then cur else v.
Definition changed (o : op) : option value := match o with Append self _ _ | Insert self _ _ _ | SetItem self _ _ _ => Some self | _ => None end.
(** the operands of the users that are interpreted, sa l.243-247 *)
Section Rewrite.
Context (l : value).
Fixpoint redirect_inners (k : nat) (cur : value) (is : list inner) : list inner * nat :=
  match is with
  | [] => ([], k)
  | i :: is =>
      match k with
      | S k' => if has l (operands i) then let (is', k2) := redirect_inners k' cur is in ({| nested := nested i; mutates := mutates i; operands := map (swap l cur) (operands i) |} :: is', k2)
                else let (is', k2) := redirect_inners k cur is in (i :: is', k2)
      | 0 => (i :: is, 0)
      end
  end.
Definition redirect (k : nat) (cur : value) (o : op) : op * nat :=
  match o, k with
  | Make r els, S k' => if has l els then (Make r (map (swap l cur) els), k') else (o, k)
  | Alias r v, S k' => if l =? v then (Alias r cur, k') else (o, k)
  | Other r is, _ => let (is', k') := redirect_inners k cur is in (Other r is', k')
  | _, _ => (o, k)
  end.
(** None if there are fewer literals than changing users, sa l.211-251 *)
Fixpoint rewrite (k : nat) (lits : list (list value)) (cur next : value) (post : list op) : option (list op * value) :=
  match post with
  | [] => Some ([], cur)
  | o :: post =>
      match changed o, users l o, k with
      | Some self, _ :: _, S k' =>
          match lits with
          | [] => None
          | lit :: lits => do (rest, last) <- rewrite k' lits next (S next) post ; Some (Make next lit :: (if self =? l then [] else [o]) ++ rest, last)
          end
      | _, _, _ => let (o', k') := redirect k cur o in do (rest, last) <- rewrite k' lits cur next post ; Some (o' :: rest, last)
      end
  end.
End Rewrite.
Definition rename_op (l cur : value) (o : op) : op :=
  let s := swap l cur in
  match o with
  | Int r z => Int r z
  | Make r els => Make r (map s els)
  | Append self el used => Append (s self) (s el) used
  | Insert self idx el used => Insert (s self) (s idx) (s el) used
  | SetItem self idx el used => SetItem (s self) (s idx) (s el) used
  | Alias r v => Alias r (s v)
  | Other r is => Other r (map (fun i => {| nested := nested i; mutates := mutates i; operands := map s (operands i) |}) is)
  end.
Inductive outcome := Fails | Crashes | Gives (post : list op) (last : value).
(** matchAndRewrite on the construction of [l] from [els], followed by [post]; [prog] is the whole program, [next] the first free number, sa l.106-255 *)
Definition interpret (prog : list op) (l : value) (els : list value) (post : list op) (next : value) : outcome :=
  let us := interpreted (flat_map (users l) post) in
  match literals prog l els us with
  | Some (lits, true) =>
      match rewrite l (List.length us) lits next (S next) post with
      | Some (post', last) => Gives (Make next els :: map (rename_op l last) post') last
      | None => Crashes
      end
  | _ => Fails
  end.
