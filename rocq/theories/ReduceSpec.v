(** What programs over tensors in memory do, independently of the pass. *)
From Coq Require Import Bool Ascii String PeanoNat List.
From Verif Require Import Prelude ReduceModel.
Import ListNotations.
Open Scope nat_scope.

Section Meaning.
Context {content thing : Type}.
(** Values: the contents of a tensor, the address of a tensor or list in memory, anything else. Objects get the number of the value they are made for as their address. *)
Inductive rt := Val (c : content) | Ref (a : nat) | Any (x : thing).
Inductive cell := Tensor (c : content) | Items (l : list rt).
Definition env := nat -> option rt.
Definition memory := nat -> option cell.
Definition upd {A} (f : nat -> option A) (n : nat) (a : A) : nat -> option A := fun k => if k =? n then Some a else f k.
(** What an operation that only reads gets: contents, or lists of contents *)
Definition datum := (content + thing)%type.
Inductive arg := One (d : datum) | Many (l : list datum).
Definition read1 (m : memory) (x : rt) : option datum :=
  match x with Val c => Some (inl c) | Ref a => match m a with Some (Tensor c) => Some (inl c) | _ => None end | Any t => Some (inr t) end.
Definition read (m : memory) (x : rt) : option arg :=
  match x with
  | Ref a => match m a with Some (Items l) => do ds <- mapM (read1 m) l; Some (Many ds) | _ => do d <- read1 m x; Some (One d) end
  | _ => do d <- read1 m x; Some (One d)
  end.

(** Memories that agree on a set of addresses, from where nothing else is reached *)
Definition agree (P : nat -> Prop) (m m' : memory) : Prop := forall a, P a -> m' a = m a.
Definition below (P : nat -> Prop) (x : rt) : Prop := match x with Ref a => P a | _ => True end.
Definition closed (P : nat -> Prop) (m : memory) : Prop := forall a l, P a -> m a = Some (Items l) -> Forall (below P) l.
(** A tensor, a list, nothing *)
Definition kind (c : option cell) : option bool := match c with Some (Tensor _) => Some true | Some (Items _) => Some false | None => None end.

(** Names with and without the underscore of operations that work in place *)
Definition dotless (t : text) : Prop := t <> [] /\ ~ In "."%char t.
Definition suffixed (r : list text) : text := flat_map (fun t => "."%char :: t) r.
Definition functional (name name' : text) : Prop :=
  exists a b c r, dotless a /\ dotless b /\ dotless c /\ Forall dotless r
    /\ name = a ++ "."%char :: b ++ "."%char :: (c ++ ["_"%char]) ++ suffixed r /\ name' = a ++ "."%char :: b ++ "."%char :: c ++ suffixed r.

(** The operations. What works in place writes what the operation without underscore computes, in the dtype of the tensor it writes to; other operations see and change what they reach, and make objects for their results. *)
Record world := {
  computes : text -> list arg -> option (list datum);
  operators : text -> list arg -> option (list datum);
  writes : text -> list arg -> option content;
  bernoulli : list arg -> option content;
  dtype_of : content -> thing;
  cast_to : thing -> content -> option content;
  is_of : thing -> content -> bool;
  the_bool : bool -> thing;
  the_none : thing;
  literal : nat -> content;
  other : text -> list nat -> list rt -> memory -> option (list rt * memory);
  is_of_cast : forall d c, is_of d c = true -> cast_to d c = Some c;
  writes_result : forall name name' s args c, functional name name' -> writes name (One (inl s) :: args) = Some c -> exists c', computes name' (One (inl s) :: args) = Some [inl c'] /\ cast_to (dtype_of s) c' = Some c;
  bernoulli_result : forall args c, bernoulli args = Some c -> computes (txt "torch.valsem.aten.bernoulli.float") args = Some [inl c];
  flash_result : forall q k v dropout causal mask scale more ys, operators (txt "torch.aten._scaled_dot_product_flash_attention_for_cpu") (q :: k :: v :: dropout :: causal :: mask :: scale :: more) = Some ys ->
    exists y ys', ys = y :: ys' /\ computes (txt "torch.aten.scaled_dot_product_attention") [q; k; v; mask; dropout; causal; scale; One (inr (the_bool false))] = Some [y];
  other_local : forall P name rs xs m m' ys m1, closed P m -> Forall (below P) xs -> Forall P rs -> agree P m m' -> other name rs xs m = Some (ys, m1) ->
    closed P m1 /\ Forall (below P) ys /\ exists m1', other name rs xs m' = Some (ys, m1') /\ agree P m1 m1';
  other_kind : forall name rs xs m ys m1, other name rs xs m = Some (ys, m1) -> forall a, ~ In a rs -> kind (m1 a) = kind (m a)
}.
Context (tr : traits) (w : world).

(** Operands are what their types say *)
Definition fits (m : memory) (t : ty) (x : rt) : bool :=
  match t with
  | NT _ => match x with Ref a => match m a with Some (Tensor _) => true | _ => false end | _ => false end
  | VT _ => match x with Val _ => true | _ => false end
  | _ => true
  end.
Definition fetch (e : env) (m : memory) (v : value) : option rt := do x <- e (fst v); if fits m (snd v) x then Some x else None.
Definition put (r : value) (d : datum) (e : env) (m : memory) : option (env * memory) :=
  match d, snd r with
  | inl c, NT _ => Some (upd e (fst r) (Ref (fst r)), upd m (fst r) (Tensor c))
  | inl c, VT _ => Some (upd e (fst r) (Val c), m)
  | inr t, NT _ | inr t, VT _ => None
  | inr t, _ => Some (upd e (fst r) (Any t), m)
  | inl _, _ => None
  end.
Fixpoint puts (rs : list value) (ds : list datum) (e : env) (m : memory) : option (env * memory) :=
  match rs, ds with [], [] => Some (e, m) | r :: rs, d :: ds => do (e, m) <- put r d e m; puts rs ds e m | _, _ => None end.
Fixpoint binds (rs : list value) (xs : list rt) (e : env) : option env :=
  match rs, xs with [], [] => Some e | r :: rs, x :: xs => binds rs xs (upd e (fst r) x) | _, _ => None end.
Definition write (f : list arg -> option content) (r : value) (xs : list rt) (e : env) (m : memory) : option (env * memory) :=
  do args <- mapM (read m) xs; do c <- f args;
  match xs with Ref a :: _ => match m a with Some (Tensor _) => Some (upd e (fst r) (Ref a), upd m a (Tensor c)) | _ => None end | _ => None end.
Definition tensor_at (m : memory) (x : rt) : option content := match x with Ref a => match m a with Some (Tensor c) => Some c | _ => None end | _ => None end.
Definition exec (o : op) (xs : list rt) (e : env) (m : memory) : option (env * memory) :=
  match o with
  | Aten name rs _ =>
      if value_semantics tr name then do args <- mapM (read m) xs; do ds <- computes w name args; puts rs ds e m
      else if in_place tr name then match rs with [r] => write (writes w name) r xs e m | _ => None end
      else do (ys, m) <- other w name (map fst rs) xs m; do e <- binds rs ys e; Some (e, m)
  | Operator name rs _ => do args <- mapM (read m) xs; do ds <- operators w name args; puts rs ds e m
  | ListC r _ => Some (upd e (fst r) (Ref (fst r)), upd m (fst r) (Items xs))
  | Deref r _ | Cast r _ => match xs with [x] => Some (upd e (fst r) x, m) | _ => None end
  | ToVal r _ => match xs with [x] => do c <- tensor_at m x; Some (upd e (fst r) (Val c), m) | _ => None end
  | ToNon r _ => match xs with [Val c] => Some (upd e (fst r) (Ref (fst r)), upd m (fst r) (Tensor c)) | _ => None end
  | Overwrite _ _ => match xs with [Val c; Ref a] => do _ <- tensor_at m (Ref a); Some (e, upd m a (Tensor c)) | _ => None end
  | NLit r c _ => Some (upd e (fst r) (Ref (fst r)), upd m (fst r) (Tensor (literal w c)))
  | VLit r c => Some (upd e (fst r) (Val (literal w c)), m)
  | CBool r b => Some (upd e (fst r) (Any (the_bool w b)), m)
  | CNone r => Some (upd e (fst r) (Any (the_none w)), m)
  | DtypeOf r _ => match xs with [x] => do c <- tensor_at m x; Some (upd e (fst r) (Any (dtype_of w c)), m) | _ => None end
  | ToDtype r _ _ =>
      match xs with
      | [x; Any d] => do c <- tensor_at m x; if is_of w d c then Some (upd e (fst r) x, m) else do c <- cast_to w d c; Some (upd e (fst r) (Ref (fst r)), upd m (fst r) (Tensor c))
      | _ => None
      end
  | Bernoulli r _ => write (bernoulli w) r xs e m
  end.
Definition run_op (o : op) (e : env) (m : memory) : option (env * memory) := do xs <- mapM (fetch e m) (operands o); exec o xs e m.
Fixpoint run (l : list op) (e : env) (m : memory) : option (env * memory) :=
  match l with [] => Some (e, m) | o :: l => do (e, m) <- run_op o e m; run l e m end.

(** The lists of a program stay as they were built *)
Definition keeps_lists (l : list op) : Prop :=
  forall name rs args, In (Aten name rs args) l -> forall xs m ys m1, other w name (map fst rs) xs m = Some (ys, m1) -> forall a items, m a = Some (Items items) -> ~ In a (map fst rs) -> m1 a = Some (Items items).
End Meaning.
Arguments rt : clear implicits. Arguments cell : clear implicits. Arguments env : clear implicits. Arguments memory : clear implicits. Arguments world : clear implicits. Arguments datum : clear implicits. Arguments arg : clear implicits.

(** What works in place has a variant without underscore that works on values; so do the two other operations that are introduced *)
Definition good_traits (tr : traits) : Prop :=
  (forall name, in_place tr name = true -> value_semantics tr name = false -> exists name', functional name name' /\ value_semantics tr name' = true)
  /\ value_semantics tr (txt "torch.valsem.aten.bernoulli.float") = true /\ value_semantics tr (txt "torch.aten.scaled_dot_product_attention") = true.
(** Values are defined once, with numbers below [n]; [start] holds those that exist before, and the addresses of their objects *)
Definition numbers (l : list op) : list nat := flat_map (fun o => map fst (results o)) l.
Definition well_formed (l : list op) (start : list nat) (n : nat) : Prop := NoDup (start ++ numbers l) /\ Forall (fun k => k < n) (start ++ numbers l).
Definition starts {content thing} (start : list nat) (e : env content thing) (m : memory content thing) : Prop :=
  (forall i x, e i = Some x -> In i start /\ below (fun a => In a start) x) /\ (forall a, m a <> None -> In a start) /\ closed (fun a => In a start) m.
(** The second results of flash attention, which are dropped when nothing uses them *)
Definition dropped (l : list op) : list nat := flat_map (fun o => match o with Operator name [_; r1] _ => if text_eqb name flash then [fst r1] else [] | _ => [] end) l.
(** Copies and overwritings go between a tensor in memory and a value tensor of the same sizes and dtype *)
Definition typed_op (o : op) : Prop :=
  match o with
  | ToVal r v => exists i, snd v = NT i /\ snd r = VT i
  | ToNon r v => exists i, snd v = VT i /\ snd r = NT i
  | Overwrite v t => exists i, snd v = VT i /\ snd t = NT i
  | _ => True
  end.
(** What the pass leaves: no tensors in memory among the operands and results of operations that work on values, and nothing that works in place *)
Definition direct (v : value) : Prop := exists i, snd v = NT i.
Definition done_op (tr : traits) (o : op) : Prop :=
  match o with
  | Aten name rs args => (value_semantics tr name = true -> forall v, In v (args ++ rs) -> ~ direct v) /\ (value_semantics tr name = false -> in_place tr name = false)
  | Operator name rs args => in_library tr name = true /\ forall v, In v (args ++ rs) -> ~ direct v
  | NLit _ _ _ | Bernoulli _ _ => False
  | _ => True
  end.
(** Value tensors for the tensors in memory inside lists and optionals *)
Inductive valued : ty -> ty -> Prop :=
| valued_tensor : forall i, valued (NT i) (VT i)
| valued_list : forall t t', valued t t' -> valued (ListT t) (ListT t')
| valued_optional : forall t t', valued t t' -> valued (OptT t) (OptT t').
(** Operands that can be made to be values *)
Definition convertible (l : list op) (v : value) : Prop :=
  match snd v with
  | ListT (NT _) => exists r els, defining l v = Some (ListC r els)
  | ListT (OptT t) => exists r els, defining l v = Some (ListC r els) /\ (els = [] \/ (exists t', valued t t') /\ forall u, In u els -> direct u \/ snd u = NoneT)
  | OptT (NT _) => exists r u, defining l v = Some (Deref r u)
  | _ => True
  end.
