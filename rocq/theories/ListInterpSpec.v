(** What operations on lists do, independently of the pattern that interprets them. *)
From Coq Require Import Bool PeanoNat ZArith List.
From Verif Require Import Prelude ListInterpModel.
Import ListNotations.
Open Scope nat_scope.

Section Run.
Context {D : Type}.
(** Data are integers and others; values are data and lists, which are objects in memory *)
Definition datum := (Z + D)%type.
Inductive rt := Val (d : datum) | Ref (a : nat).
Definition env := nat -> option rt.
Definition memory := nat -> option (list rt).
Definition upd {X} (f : nat -> option X) (k : nat) (x : X) : nat -> option X := fun i => if i =? k then Some x else f i.
Inductive arg := One (d : datum) | Many (l : list datum).
(** The meaning of the other operations: from the contents of their operands, their result and the new contents of the lists that they may change *)
Context (computes : nat -> list arg -> option (datum * (nat -> list datum))).
Definition plain (x : rt) : option datum := match x with Val d => Some d | Ref _ => None end.
Definition fetch (e : env) (m : memory) (v : value) : option arg :=
  do x <- e v ;
  match x with
  | Val d => Some (One d)
  | Ref a => do l <- m a ; do ds <- mapM plain l ; Some (Many ds)
  end.
Fixpoint write (e : env) (news : nat -> list datum) (i : nat) (fs : list (bool * value)) (m : memory) : memory :=
  match fs with
  | [] => m
  | (b, v) :: fs => write e news (S i) fs (match b, e v with true, Some (Ref a) => upd m a (map Val (news i)) | _, _ => m end)
  end.
Definition flags (is : list inner) : list (bool * value) := flat_map (fun i => map (fun v => (mutates i, v)) (operands i)) is.
(** Insertion in Python: negative positions count from the end, and all are limited to the list *)
Definition insert_position (z : Z) (n : nat) : nat := if (z <? 0)%Z then Z.to_nat (z + Z.of_nat n) else Nat.min (Z.to_nat z) n.
Definition list_at (e : env) (m : memory) (v : value) : option (nat * list rt) :=
  do x <- e v ; match x with Ref a => do l <- m a ; Some (a, l) | Val _ => None end.
Definition int_at (e : env) (v : value) : option Z := do x <- e v ; match x with Val (inl z) => Some z | _ => None end.
Definition step (o : op) (e : env) (m : memory) : option (env * memory) :=
  match o with
  | Int r z => Some (upd e r (Val (inl z)), m)
  | Make r els => do xs <- mapM e els ; Some (upd e r (Ref r), upd m r xs)
  | Append self el _ => do (a, l) <- list_at e m self ; do x <- e el ; Some (e, upd m a (l ++ [x]))
  | Insert self idx el _ =>
      do (a, l) <- list_at e m self ; do z <- int_at e idx ; do x <- e el ;
      let i := insert_position z (List.length l) in
      Some (e, upd m a (firstn i l ++ x :: skipn i l))
  | SetItem self idx el _ =>
      do (a, l) <- list_at e m self ; do z <- int_at e idx ; do x <- e el ;
      let i := if (z <? 0)%Z then (z + Z.of_nat (List.length l))%Z else z in
      if ((0 <=? i) && (i <? Z.of_nat (List.length l)))%Z then Some (e, upd m a (firstn (Z.to_nat i) l ++ x :: skipn (S (Z.to_nat i)) l)) else None
  | Alias r v => do x <- e v ; Some (upd e r x, m)
  | Other r is =>
      do args <- mapM (fun f => fetch e m (snd f)) (flags is) ;
      do (d, news) <- computes r args ;
      Some (upd e r (Val d), write e news 0 (flags is) m)
  end.
Fixpoint run (p : list op) (e : env) (m : memory) : option (env * memory) :=
  match p with
  | [] => Some (e, m)
  | o :: p => do (e, m) <- step o e m ; run p e m
  end.
End Run.
Arguments rt : clear implicits.
Arguments env : clear implicits.
Arguments memory : clear implicits.
Arguments datum : clear implicits.
Arguments arg : clear implicits.

(** Results are defined once, with numbers below [n], and not before the program starts *)
Definition fresh_program {D} (p : list op) (n : nat) (e : env D) (m : memory D) : Prop :=
  NoDup (flat_map result p) /\ (forall k, In k (flat_map result p) -> k < n /\ e k = None /\ m k = None)
  /\ (forall k x, e k = Some x -> k < n /\ match x with Ref a => m a <> None | Val _ => True end)
  /\ (forall a xs, m a = Some xs -> a < n /\ Forall (fun x => match x with Ref b => m b <> None | Val _ => True end) xs).
(** Nothing else comes to hold the list: it is not put into another list, nor given another name *)
Definition holds (l : value) (o : op) : Prop :=
  match o with
  | Make _ els => In l els
  | Append _ el _ => el = l
  | Insert _ idx el _ | SetItem _ idx el _ => el = l \/ idx = l
  | Alias _ v => v = l
  | _ => False
  end.
(** The lists that a user makes the interpretation give up on, if the list has [n] elements by then *)
Definition refuses (prog : list op) (n : nat) (u : user) : Prop :=
  match u with
  | UAppend _ _ used => used = true
  | UInsert _ idx _ used => used = true \/ ~ exists z, const prog idx = Some z /\ (0 <= z <= Z.of_nat n)%Z
  | USet _ idx _ used => used = true \/ ~ exists z, const prog idx = Some z /\ (- Z.of_nat n <= z < Z.of_nat n)%Z
  | UInner _ _ => False
  end.
Definition grows (l : value) (u : user) : bool := match u with UAppend s _ _ | UInsert s _ _ _ => s =? l | _ => false end.
Definition changes (l : value) (u : user) : Prop := match u with UAppend s _ _ | UInsert s _ _ _ | USet s _ _ _ => s = l | _ => False end.
Definition special (u : user) : Prop := match u with UInner _ _ => False | _ => True end.
Definition stops (u : user) : Prop := match u with UInner _ true => True | _ => False end.
