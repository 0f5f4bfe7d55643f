(** What functions with tensors in memory return, independently of the pass. *)
From Coq Require Import Bool PeanoNat List.
From Verif Require Import Prelude ReturnModel.
Import ListNotations.
Open Scope nat_scope.

(** Values: contents of a tensor, the cell of a tensor in memory, anything else *)
Section Meaning.
Context {content thing : Type}.
Inductive rt := VT (c : content) | Ref (a : nat) | Any (x : thing).
Definition memory := list content.
Definition env := list (nat * rt).
Definition get (e : env) (v : nat) : option rt := option_map snd (find (fun p => fst p =? v) e).
Fixpoint gets (e : env) (l : list value) : option (list rt) := match l with [] => Some [] | v :: r => do x <- get e (fst v); do xs <- gets e r; Some (x :: xs) end.
Fixpoint bind (l : list value) (xs : list rt) (e : env) : option env :=
  match l, xs with [], [] => Some e | v :: r, x :: xs => bind r xs ((fst v, x) :: e) | _, _ => None end.
(** Any other operation: it changes only the cells it gets, and returns these or new ones *)
Record world := { other : nat -> list rt -> memory -> option (list rt * memory);
                  other_grows : forall k xs m ys m', other k xs m = Some (ys, m') -> List.length m <= List.length m';
                  other_local : forall k xs m ys m' a, other k xs m = Some (ys, m') -> a < List.length m -> ~ In (Ref a) xs -> nth_error m' a = nth_error m a;
                  other_results : forall k xs m ys m' a, other k xs m = Some (ys, m') -> In (Ref a) ys -> In (Ref a) xs \/ List.length m <= a < List.length m' }.
Context (w : world).
Definition run_op (o : op) (e : env) (m : memory) : option (env * memory) :=
  match o with
  | Cast r v | Derefine r v => do x <- get e (fst v); Some ((fst r, x) :: e, m)
  | CopyToNon r v => do x <- get e (fst v); match x with VT c => Some ((fst r, Ref (List.length m)) :: e, m ++ [c]) | _ => None end
  | CopyToVal r v => do x <- get e (fst v); match x with Ref a => do c <- nth_error m a; Some ((fst r, VT c) :: e, m) | _ => None end
  | Overwrite v t =>
      do x <- get e (fst v); do y <- get e (fst t);
      match x, y with VT c, Ref a => if a <? List.length m then Some (e, set_nth a c m) else None | _, _ => None end
  | Other k rs args => do xs <- gets e args; do (ys, m) <- other w k xs m; do e <- bind rs ys e; Some (e, m)
  end.
Fixpoint run (l : list op) (e : env) (m : memory) : option (env * memory) :=
  match l with [] => Some (e, m) | o :: r => do (e, m) <- run_op o e m; run r e m end.
(** What the caller sees of a returned value: the contents at the time of the return *)
Definition seen (m : memory) (x : rt) : option rt := match x with Ref a => do c <- nth_error m a; Some (VT c) | x => Some x end.
Fixpoint all_seen (m : memory) (e : env) (l : list value) : option (list rt) :=
  match l with [] => Some [] | v :: r => do x <- get e (fst v); do y <- seen m x; do ys <- all_seen m e r; Some (y :: ys) end.
Definition outcome (f : function) (xs : list rt) (m : memory) : option (list rt * memory) :=
  do e <- bind (arguments f) xs [];
  do (e, m') <- run (body f) e m;
  match returns f with [ret] => do ys <- all_seen m' e ret; Some (ys, m') | _ => None end.
End Meaning.
Arguments rt : clear implicits. Arguments world : clear implicits. Arguments env : clear implicits. Arguments memory : clear implicits.

(** Values are defined once, with numbers below [next] *)
Definition numbers (f : function) : list nat := map fst (arguments f) ++ flat_map (fun o => map fst (results o)) (body f).
Definition numbered (f : function) (next : nat) : Prop := NoDup (numbers f) /\ Forall (fun n => n < next) (numbers f).
(** Casts stay within value tensors or within the others; copies make tensors in memory *)
Definition typed_op (o : op) : Prop :=
  match o with
  | Cast r v | Derefine r v => (forall n, snd r = VTensor n -> exists n', snd v = VTensor n')
  | CopyToNon r v => (exists n, snd r = NTensor n) /\ exists n, snd v = VTensor n
  | _ => True
  end.
(** A value has one type *)
Definition one_type (l : list op) (ret : list value) : Prop :=
  forall o v r o', In o l -> In r (results o) -> (In o' l /\ In v (operands o') \/ In v ret) -> fst v = fst r -> v = r.
(** An operation, or the return, that uses the value *)
Definition uses (o : op) (v : value) : Prop := exists u, In u (operands o) /\ fst u = fst v.
(** A renamed tensor in memory has no other user than the one through which it is seen *)
Definition renamed_once (f : function) (ret : list value) : Prop :=
  forall r v, In (Cast r v) (body f) \/ In (Derefine r v) (body f) -> (forall n, snd r <> VTensor n) -> users (body f) ret r <= 1.
(** Values of a run are what their types say *)
Definition respects {content thing} (e : env content thing) (v : value) : Prop :=
  match snd v, get e (fst v) with NTensor _, Some (Ref _) | NTensor _, None | VTensor _, Some (VT _) | VTensor _, None => True | NTensor _, _ | VTensor _, _ => False | OtherTy _, _ => True end.
Definition used_in (l : list op) (ret : list value) (v : value) : Prop := In v ret \/ exists o, In o l /\ In v (operands o).
(** One step of looking through *)
Definition step (l : list op) (ret : list value) (v v' : value) : Prop :=
  exists o, In o l /\ (exists r, In r (results o) /\ fst r = fst v)
    /\ ((exists r, o = Cast r v') \/ (exists r, o = Derefine r v') \/ exists r, o = CopyToNon r v' /\ users l ret r = 1).
Inductive steps (l : list op) (ret : list value) : value -> value -> Prop :=
| no_step : forall v, steps l ret v v
| more_steps : forall u v v', step l ret u v -> steps l ret v v' -> steps l ret u v'.
(** Operations use what was made before them *)
Definition ordered (l : list op) : Prop :=
  forall pre o post, l = pre ++ o :: post -> forall v, In v (operands o) -> ~ In (fst v) (flat_map (fun o => map fst (results o)) (o :: post)).
