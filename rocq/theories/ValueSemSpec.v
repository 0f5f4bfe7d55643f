(** What a block of tensor operations computes (used by C103 and C104).

    Tensors have contents, of any type. A !torch.tensor is a reference: a storage and the views
    through which it is looked at. A view is a lens: what it shows of the contents, and how contents
    change when what it shows is overwritten. Whether an operation that may be a view shares
    storage or copies depends on the operation and its operands; a cast always shares. *)
From Coq Require Import Arith List Bool.
From Verif Require Import Prelude ValueSemModel.
Import ListNotations.
Open Scope nat_scope.

Inductive loc := Arg (n : nat) | New (r : id).
Definition loc_eqb (a b : loc) : bool := match a, b with Arg n, Arg m | New n, New m => n =? m | _, _ => false end.
Section Semantics.
Variable C : Type.
Variable get : view -> list C -> C -> C.
Variable put : view -> list C -> C -> C -> C.
Variable shares : view -> list C -> C -> bool.
Variable pure : nat -> list C -> C.
Definition path := list (view * list C).
Inductive rval := Val (c : C) | Ref (l : loc) (p : path).
Definition env := id -> rval.
Definition mem := loc -> C.
Fixpoint read (b : C) (p : path) : C := match p with [] => b | (k, os) :: p => read (get k os b) p end.
Fixpoint write (b : C) (p : path) (v : C) : C := match p with [] => v | (k, os) :: p => put k os b (write (get k os b) p v) end.
Definition set (e : env) (r : id) (v : rval) : env := fun x => if x =? r then v else e x.
Definition store (m : mem) (l : loc) (c : C) : mem := fun x => if loc_eqb x l then c else m x.
Definition contents (e : env) (m : mem) (x : id) : C := match e x with Val c => c | Ref l p => read (m l) p end.
Definition step (o : op) (s : env * mem) : env * mem :=
  let (e, m) := s in
  match o with
  | CopyTo r a => (set e r (Ref (New r) []), store m (New r) (contents e m a))
  | CopyVal r a => (set e r (Val (contents e m a)), m)
  | View k nv r a os =>
      let cs := map (contents e m) os in
      let shown := get k cs (contents e m a) in
      match e a with
      | Ref l p =>
          if nv then if shares k cs (contents e m a) then (set e r (Ref l (p ++ [(k, cs)])), m) else (set e r (Ref (New r) []), store m (New r) shown)
          else (set e r (Val shown), m)
      | Val _ => (set e r (Val shown), m)
      end
  | Overwrite v x => match e x with Ref l p => (e, store m l (write (m l) p (contents e m v))) | Val _ => (e, m) end
  | Pure k r args => (set e r (Val (pure k (map (contents e m) args))), m)
  end.
Definition run (os : list op) (s : env * mem) : env * mem := fold_left (fun s o => step o s) os s.
(** What is seen of a block from outside: the contents of the results, and the storages of the arguments. *)
Definition results (b : block) (e : env) (m : mem) : list C := let (e', m') := run (ops b) (e, m) in map (contents e' m') (ret b).
Definition effects (b : block) (e : env) (m : mem) (n : nat) : C := snd (run (ops b) (e, m)) (Arg n).
(** The laws: what was written through a view is what it shows; casts show all of the contents, and share storage. *)
Record laws : Prop := {
  put_get : forall k os b v, get k os (put k os b v) = v;
  cast_get : forall os b, get StaticInfoCast os b = b;
  cast_put : forall os b v, put StaticInfoCast os b v = v;
  cast_shares : forall os b, shares StaticInfoCast os b = true }.
(** The storages of the values that are there at the start are arguments'; a value that is not a !torch.tensor has contents. *)
Definition start (nv : list id) (e : env) : Prop := forall x, match e x with Val _ => True | Ref l _ => In x nv /\ exists n, l = Arg n end.
End Semantics.
(** A block is in SSA form: an operation defines a new value and uses defined ones; a copy is of a value, and so is what overwrites. *)
Fixpoint ssa (defined nonvalue : list id) (os : list op) : Prop :=
  match os with
  | [] => True
  | o :: rest =>
      (forall x, In x (uses o) -> In x defined) /\ (forall r, In r (defs o) -> ~ In r defined) /\
      match o with CopyTo _ a => ~ In a nonvalue | Overwrite v _ => ~ In v nonvalue | _ => True end /\
      ssa (defs o ++ defined) nonvalue rest
  end.
Definition well_formed (args : list id) (b : block) : Prop :=
  ssa args (nonvalues (nv_args b) (ops b)) (ops b) /\ (forall x, In x (ret b) -> In x (flat_map defs (ops b)) \/ In x args) /\ (forall x, In x (nv_args b) -> In x args).
Definition unused (fresh : id) (b : block) : Prop := forall x, In x (nv_args b) \/ In x (ret b) \/ In x (flat_map defs (ops b)) \/ In x (flat_map uses (ops b)) -> x < fresh.
(** The members of a slice: what the copy makes, and the !torch.tensor views of members. *)
Inductive member (r0 : id) (os : list op) : id -> Prop :=
| member_root : member r0 os r0
| member_view : forall k r a l, In (View k true r a l) os -> member r0 os a -> member r0 os r.
(** [y] is a tensor that [x] is a cast of, in some number of steps. *)
Inductive cast_of (os : list op) : id -> id -> Prop :=
| cast_self : forall x, cast_of os x x
| cast_step : forall x r a l, In (View StaticInfoCast true r a l) os -> cast_of os a x -> cast_of os r x.
(** The slices that are handled: members are used by copies, overwrites and views (of which the first operand is a member when
    the result is a !torch.tensor); after an overwrite, the members in use are what was overwritten, what it is a cast of, or newer. *)
Definition handled (r0 : id) (post : list op) (ret : list id) : Prop :=
  (forall o x, In o post -> In x (uses o) -> member r0 post x -> match o with CopyVal _ _ | Overwrite _ _ => True | View _ nv _ a _ => nv = true -> member r0 post a | CopyTo _ _ | Pure _ _ _ => False end) /\
  (forall p1 v x p2 y, post = p1 ++ Overwrite v x :: p2 -> member r0 post x -> member r0 post y -> In y (flat_map uses p2) \/ In y ret -> cast_of post x y \/ In y (flat_map defs p2)).
(** Rewritings one after the other, each with numbers that are not in use. *)
Inductive rewrites (args : list id) : block -> block -> Prop :=
| rewrites_done : forall b, rewrites args b b
| rewrites_more : forall recast fresh r0 b b1 b2, unused fresh b -> (forall x, In x args -> x < fresh) -> rewrite recast fresh r0 b = Some b1 -> rewrites args b1 b2 -> rewrites args b b2.
Definition tensors (b : block) : list bool := map (fun x => inb x (nonvalues (nv_args b) (ops b))) (ret b).
