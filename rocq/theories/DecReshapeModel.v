(** Operations that are replaced by views, splits and collapses of axes, and broadcasts:
    lib/Dialect/Torch/Transforms/DecomposeComplexOps.cpp (dco).

    As in DecMoveModel.v, ranks are taken to be known and dimensions to be constants, and the types
    given to intermediate results are not modelled. Whether the compiler knows a size or a repeat is
    an argument where the code asks for it. Integers are not bounded. *)
From Coq Require Import ZArith List Lia Bool.
From Verif Require Import Prelude TensorOps DecMoveModel.
Import ListNotations.
Open Scope Z_scope.

(** What a pattern answers: it does not apply; the compiler divides by zero or writes out of bounds;
    or it creates operations, whose value this is. *)
Inductive outcome (X : Type) := NoMatch | Undefined | Becomes (x : X).
Arguments NoMatch {X}. Arguments Undefined {X}. Arguments Becomes {X}.

(** lib/Dialect/Torch/Utils/Utils.cpp:25-31 *)
Definition to_positive_dim (d r : Z) : Z := if d >=? 0 then d else d + r.
Definition is_valid_dim (d r : Z) : bool := (d >=? 0) && (d <? r).
(** for (k = from; k < to; ++k) *)
Definition range (from to : Z) : list Z := map (fun i => from + Z.of_nat i) (seq 0 (Z.to_nat (to - from))).

Section Decompositions.
Context {A : Type}.
Implicit Types t : tensor A.

(** dco l.5393-5452 *)
Definition dec_flatten t (start stop : Z) : outcome (option (tensor A)) :=
  let r := rank t in
  if r =? 0 then Becomes (view t [1])
  else
    let s := to_positive_dim start r in
    let e := to_positive_dim stop r in
    if s >? e then NoMatch
    else Becomes (do a <- mapM (size_int t) (range 0 s); do b <- mapM (size_int t) (range (e + 1) r); view t (a ++ [-1] ++ b)).

(** dco l.5456-5546. l.5526 the size is divided by each given size, also if none is to be inferred. *)
Fixpoint divided (n : Z) (ss : list Z) : option Z :=
  match ss with
  | [] => Some n
  | s :: ss => if s =? -1 then divided n ss else if s =? 0 then None else divided (Z.quot n s) ss
  end.
Fixpoint find_inferred (j : nat) (ss : list Z) : option nat :=
  match ss with [] => None | s :: ss => if s =? -1 then Some j else find_inferred (S j) ss end.
Definition minus_ones (ss : list Z) : Z := zlen (filter (Z.eqb (-1)) ss).
Definition dec_unflatten t (static : bool) (dim : Z) (ss : list Z) : outcome (option (tensor A)) :=
  if minus_ones ss >? 1 then NoMatch
  else
    let d := to_positive_dim dim (rank t) in
    if negb (is_valid_dim d (rank t)) then NoMatch
    else if negb static && (minus_ones ss >? 0) then NoMatch
    else
      let k := Z.to_nat d in
      match divided (if static then get (sizes t) k else -1) ss with
      | None => Undefined
      | Some q =>
          let given := firstn k (sizes t) ++ filter (fun s => negb (s =? -1)) ss in
          let all := match find_inferred 0 ss with None => given | Some j => insert (j + k) q given end in
          Becomes (view t (all ++ skipn (S k) (sizes t)))
      end.

(** dco l.3795-3917 *)
Definition dec_pixel_shuffle t (factor : Z) : option (option (tensor A)) :=
  let r := rank t in
  if r <? 3 then None
  else
    let n := r - 3 in
    Some (do in_c <- size_int t n;
          do out_c <- (if factor * factor =? 0 then None else Some (in_c / (factor * factor)));
          do a <- split_dim t n out_c;
          do b <- split_dim a (n + 1) factor;
          do c <- permute b (range 0 n ++ map (Z.add n) [0; 3; 1; 4; 2]);
          do d <- collapse c (n + 3) (n + 4);
          collapse d (n + 1) (n + 2)).
(** dco l.3941-4059 *)
Definition dec_pixel_unshuffle t (factor : Z) : option (option (tensor A)) :=
  let r := rank t in
  if r <? 3 then None
  else
    let n := r - 3 in
    Some (do in_h <- size_int t (n + 1);
          do in_w <- size_int t (n + 2);
          do out_h <- (if factor =? 0 then None else Some (in_h / factor));
          do out_w <- (if factor =? 0 then None else Some (in_w / factor));
          do a <- split_dim t (n + 1) out_h;
          do b <- split_dim a (n + 3) out_w;
          do c <- permute b (range 0 n ++ map (Z.add n) [0; 2; 4; 1; 3]);
          collapse c n (n + 2)).
(** dco l.4087-4192. l.4171-4176 the outer length that is asked for is that of the inner axis. *)
Definition dec_channel_shuffle t (groups : Z) : option (option (tensor A)) :=
  let r := rank t in
  if r <? 3 then None
  else
    Some (do in_c <- size_int t 1;
          do temp_c <- (if groups =? 0 then None else Some (in_c / groups));
          do a <- split_dim t 1 temp_c;
          do b <- permute a ([0; 2; 1] ++ range 3 (r + 1));
          collapse b 1 2).

(** dco l.5059-5192. For each repeat: whether it is a constant, and its value; [static]: which sizes the type has. *)
Definition known (kx : bool * Z) : Z := if fst kx then snd kx else -1.
(** Of an axis of the tensor: the constant (or -1), whether it is broadcast in place, and the value at run time. *)
Definition plan_axis (sz : bool * Z) (rp : bool * Z) : Z * bool * Z := (known rp, (known sz =? 1) && (known rp >? 1), snd rp).
Definition kept (p : Z * bool * Z) : bool := (fst (fst p) =? 1) || snd (fst p).
Fixpoint lift_batch (i n : nat) t : option (tensor A) :=
  match n with O => Some t | S n => do u <- unsqueeze t (Z.of_nat i); lift_batch (S i) n u end.
Fixpoint lift_repeats (i extra : nat) (ps : list (Z * bool * Z)) t : option (tensor A) :=
  match ps with
  | [] => Some t
  | p :: ps => if kept p then lift_repeats (S i) extra ps t else do u <- unsqueeze t (Z.of_nat (i + extra)); lift_repeats (S i) (S extra) ps u
  end.
Fixpoint lengths (done : Z) (ps : list (Z * bool * Z)) t : option (list Z) :=
  match ps with
  | [] => Some []
  | (ri, broadcast, r) :: ps =>
      if (broadcast : bool) then do rest <- lengths (done + 1) ps t; Some (r :: rest)
      else if negb (ri =? 1) then do n <- size_int t (done + 1); do rest <- lengths (done + 2) ps t; Some (r :: n :: rest)
      else do n <- size_int t done; do rest <- lengths (done + 1) ps t; Some (n :: rest)
  end.
Fixpoint merge_repeats (i : nat) (ps : list (Z * bool * Z)) t : option (tensor A) :=
  match ps with
  | [] => Some t
  | p :: ps => if kept p then merge_repeats (S i) ps t else do u <- flatten t (Z.of_nat i) (Z.of_nat (S i)); merge_repeats (S i) ps u
  end.
Definition dec_repeat t (static : list bool) (repeats : list (bool * Z)) : option (option (tensor A)) :=
  if rank t >? zlen repeats then None
  else
    let batch := (length repeats - length (sizes t))%nat in
    let ps := map (fun x => plan_axis (fst x) (snd x)) (combine (combine static (sizes t)) (skipn batch repeats)) in
    Some (do a <- lift_batch 0 batch t;
          do b <- lift_repeats batch 0 ps a;
          do l <- lengths (Z.of_nat batch) ps b;
          do c <- expand b (map snd (firstn batch repeats) ++ l);
          merge_repeats batch ps c).
(** dco l.12795-12827 *)
Definition dec_tile t (static : list bool) (dims : list (bool * Z)) : option (option (tensor A)) :=
  let missing := (length (sizes t) - length dims)%nat in
  dec_repeat t static (repeat (true, 1) missing ++ dims).

(** dco l.5200-5283. l.5241 the list is written at dim + 1. *)
Definition dec_repeat_interleave t (repeats : Z) (dim : option Z) : outcome (option (tensor A)) :=
  let r := rank t in
  let d := match dim with None => r - 1 | Some d => to_positive_dim d r end in
  if negb (is_valid_dim (to_positive_dim (d + 1) (r + 1)) (r + 1)) then NoMatch
  else if d + 1 <? 0 then Undefined
  else
    let want := put (repeat (-1) (S (length (sizes t)))) (Z.to_nat (d + 1)) repeats in
    Becomes (do u <- unsqueeze t (d + 1);
             do v <- expand u want;
             match dim with None => flatten v 0 (-1) | Some _ => collapse v d (d + 1) end).
End Decompositions.

(** dco l.5296-5387: [output] is output_size, if it is a constant, [n] the declared length of the result.
    The index at a position is the number of cumulative sums that are not above it. *)
Fixpoint cumsum (acc : Z) (l : list Z) : list Z := match l with [] => [] | x :: l => (acc + x) :: cumsum (acc + x) l end.
Definition dec_repeat_indices (repeats : list Z) (output : option Z) (n : Z) : option (list Z) :=
  do o <- output;
  if (o <? 0) || negb (o =? n) then None
  else if negb (n =? 0) && (zlen repeats >? 2 ^ 20 / n) then None
  else Some (map (fun p => zlen (filter (fun c => p >=? c) (cumsum 0 repeats))) (range 0 o)).
