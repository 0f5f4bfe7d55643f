(** What structured programs do. *)
From Coq Require Import Bool PeanoNat ZArith List.
From Verif Require Import Prelude IfLoopModel.
Import ListNotations.
Open Scope nat_scope.

Section Run.
Context {D state : Type}.
Inductive val := VB (b : bool) | VZ (z : Z) | VD (d : D).
Definition env := nat -> option val.
Definition upd (e : env) (k : nat) (x : val) : env := fun i => if i =? k then Some x else e i.
Fixpoint binds (rs : list nat) (xs : list val) (e : env) : option env :=
  match rs, xs with
  | [], [] => Some e
  | r :: rs, x :: xs => binds rs xs (upd e r x)
  | _, _ => None
  end.
(** Operations compute results from operands, and may change a state *)
Context (computes : nat -> list val -> state -> option (list val * state)).
Definition bool_at (e : env) (v : nat) : option bool := do x <- e v ; match x with VB b => Some b | _ => None end.
Definition int_at (e : env) (v : nat) : option Z := do x <- e v ; match x with VZ z => Some z | _ => None end.
(** A branch or a body sees the values around it; only what it yields is seen outside. A loop runs while its condition is true, at most as often as its trip count says. *)
Fixpoint run_s (s : stmt) (e : env) (st : state) : option (env * state) :=
  match s with
  | Op rs name args => do xs <- mapM e args ; do (ys, st1) <- computes name xs st ; do e1 <- binds rs ys e ; Some (e1, st1)
  | CBool r b => Some (upd e r (VB b), st)
  | CInt r z => Some (upd e r (VZ z), st)
  | If c t ty f fy rs =>
      do b <- bool_at e c ;
      if b : bool then do (e1, st1) <- run t e st ; do ys <- mapM e1 ty ; do e2 <- binds rs ys e ; Some (e2, st1)
      else do (e1, st1) <- run f e st ; do ys <- mapM e1 fy ; do e2 <- binds rs ys e ; Some (e2, st1)
  | Loop trip init inits params body cond yields rs =>
      do z <- int_at e trip ; do b <- bool_at e init ; do xs <- mapM e inits ;
      do (ys, st1) <- (fix loop (more : nat) (i : Z) (b : bool) (xs : list val) (st : state) : option (list val * state) :=
          match more with
          | 0 => Some (xs, st)
          | S more =>
              if b then
                do e1 <- binds params (VZ i :: xs) e ;
                do (e2, st1) <- run body e1 st ;
                do b' <- bool_at e2 cond ;
                do ys <- mapM e2 yields ;
                loop more (i + 1)%Z b' ys st1
              else Some (xs, st)
          end) (Z.to_nat z) 0%Z b xs st ;
      do e2 <- binds rs ys e ; Some (e2, st1)
  end
with run (ss : stmts) (e : env) (st : state) : option (env * state) :=
  match ss with
  | Nil => Some (e, st)
  | Cons s ss => do (e1, st1) <- run_s s e st ; run ss e1 st1
  end.
Definition run_block (ss : stmts) (ys : list nat) (e : env) (st : state) : option (list val * state) :=
  do (e1, st1) <- run ss e st ; do xs <- mapM e1 ys ; Some (xs, st1).
End Run.
Arguments val : clear implicits.
Arguments env : clear implicits.

(** Every value is defined once, and not before; a value used is in scope of its definition *)
Definition fresh {D} (e : env D) (bs : list nat) : Prop := NoDup bs /\ forall b, In b bs -> e b = None.
