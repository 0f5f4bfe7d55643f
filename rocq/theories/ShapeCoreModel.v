(** Models of the shape functions of torch.jit._shape_functions in the form the compiler
    ships them, lib/Dialect/Torch/Transforms/AbstractInterpLibrary.cpp (line numbers below),
    and of their wrappers in
    projects/pt1/python/torch_mlir/jit_ir_importer/build_tools/abstract_interp_lib_gen.py
    ("gen"). Sizes are unbounded integers; a raised exception is [None]. A loop
    [for i in range(n): out.append(..)] is [mapM] over [zrange 0 n], one that appends
    zero or one element is [collect]. *)
From Coq Require Import ZArith Bool List.
From Verif Require Import Prelude.
Import ListNotations.
Open Scope Z_scope.

Definition collect {A} (f : A -> option (list Z)) (l : list A) : option (list Z) :=
  option_map (@concat Z) (mapM f l).
Definition zmem (x : Z) (l : list Z) : bool := existsb (Z.eqb x) l.

(** unary, l.26; _copy, l.38. *)
Definition unary (self : list Z) : option (list Z) := mapM (pyidx self) (zrange 0 (zlen self)).

(** maybe_wrap_dim(dim, dim_post_expr, wrap_scalar=True), l.309-355. *)
Definition wrap_dim (dim n : Z) : option Z :=
  let n := if n <=? 0 then 1 else n in
  let lo := - n in
  let hi := n - 1 in
  if (dim <? lo) || (hi <? dim) then None
  else Some (if dim <? 0 then dim + n else dim).

(** broadcast, l.1433-1498. *)
Definition size_or_one (s : list Z) (i : Z) : option Z :=
  if 0 <=? i then pyidx s i else Some 1.
Definition broadcast (a b : list Z) : option (list Z) :=
  let na := zlen a in
  let nb := zlen b in
  let n := Z.max na nb in
  mapM (fun i =>
    let off := n - 1 - i in
    do x <- size_or_one a (na - 1 - off);
    do y <- size_or_one b (nb - 1 - off);
    if negb (x =? y) && negb (x =? 1) && negb (y =? 1) then None
    else Some (if x =? 1 then y else x)) (zrange 0 n).
(** broadcast_three, l.6633: the first two, then the third. *)
Definition broadcast_three (a b c : list Z) : option (list Z) :=
  do ab <- broadcast a b; broadcast ab c.

(** expand, l.5569-5653. *)
Definition expand (self sizes : list Z) : option (list Z) :=
  if zlen sizes <? zlen self then None
  else
    let n := zlen sizes in
    let m := zlen self in
    if n =? 0 then unary sizes
    else
      mapM (fun i =>
        let off := n - 1 - i in
        let dim := m - 1 - off in
        do size <- size_or_one self dim;
        do target <- pyidx sizes i;
        do target <- (if target =? -1 then if dim <? 0 then None else Some size else Some target);
        if negb (size =? target) then if negb (size =? 1) then None else Some target
        else Some size) (zrange 0 n).

(** numel, l.4747; multiply_integers, l.804. *)
Definition numel (s : list Z) : Z := fold_left Z.mul s 1.

(** infer_size_impl, l.5486-5567. *)
Definition infer_step (shape : list Z) (st : Z * option Z) (i : Z) : option (Z * option Z) :=
  let '(newsize, infer) := st in
  do d <- pyidx shape i;
  if d =? -1 then match infer with Some _ => None | None => Some (newsize, Some i) end
  else if 0 <=? d then Some (newsize * d, infer) else None.
Definition infer_size (shape : list Z) (n : Z) : option (list Z) :=
  do (newsize, infer) <- foldM (infer_step shape) (zrange 0 (zlen shape)) (1, None);
  let ok := if n =? newsize then true
            else match infer with
                 | Some _ => if 0 <? newsize then (n mod newsize =? 0) else false
                 | None => false
                 end in
  if negb ok then None
  else
    do out <- unary shape;
    match infer with
    | Some i => if newsize =? 0 then None else pyset out i (n / newsize)
    | None => Some out
    end.
(** view, l.5389-5484. *)
Definition view (self sizes : list Z) : option (list Z) := infer_size sizes (numel self).

(** slice, l.492-627. *)
Definition max_int : Z := 9223372036854775807.
Definition slice_up (self : list Z) (dim : Z) (start end_ : option Z) (step : Z) : option (list Z) :=
  if zlen self =? 0 then None
  else
    do dim <- wrap_dim dim (zlen self);
    let start := match start with Some s => s | None => 0 end in
    let end_ := match end_ with Some e => e | None => max_int end in
    if step <=? 0 then None
    else
      do d <- pyidx self dim;
      let start := if start =? max_int then 0 else start in
      let start := if start <? 0 then start + d else start in
      let end_ := if end_ <? 0 then end_ + d else end_ in
      let start := if start <? 0 then 0 else if d <? start then d else start in
      let end_ := if end_ <? start then start else if d <=? end_ then d else end_ in
      let len := end_ - start in
      do out <- unary self;
      pyset out dim ((len + step - 1) / step).
(** aten.slice.Tensor, gen l.2173-2205. *)
Definition slice_Tensor (self : list Z) (dim : Z) (start end_ : option Z) (step : Z)
  : option (list Z) :=
  let start := match start with Some s => s | None => 0 end in
  let end_ := match end_ with Some e => e | None => max_int end in
  if step <? 0 then
    do d <- pyidx self dim;
    let start := if start <? 0 then start + d else start in
    let start := if start <? 0 then 0 else start in
    let end_ := if end_ <? 0 then end_ + d else end_ in
    let end_ := if end_ <? 0 then -1 else end_ in
    slice_up self dim (Some (end_ + 1)) (Some (start + 1)) (- step)
  else slice_up self dim (Some start) (Some end_) step.

(** select, l.632-710. *)
Definition select (self : list Z) (dim index : Z) : option (list Z) :=
  let n := zlen self in
  if n =? 0 then None
  else
    do dim <- wrap_dim dim n;
    do size <- pyidx self dim;
    if (index <? - size) || (size <=? index) then None
    else collect (fun i => if negb (i =? dim) then option_map (fun x => [x]) (pyidx self i)
                           else Some []) (zrange 0 n).
(** index_select, l.711-803. *)
Definition index_select (self : list Z) (dim : Z) (index : list Z) : option (list Z) :=
  do dim <- wrap_dim dim (zlen self);
  let k := numel index in
  if 1 <? zlen index then None
  else if negb ((dim =? 0) || (dim <? zlen self)) then None
  else mapM (fun i => if dim =? i then Some k else pyidx self i) (zrange 0 (zlen self)).

(** Python [list.insert(i, v)] for 0 <= i <= len. *)
Definition py_insert (l : list Z) (i : Z) (v : Z) : list Z := slice_to l i ++ v :: slice_from l i.
(** squeeze_nodim, l.226; squeeze, l.246; squeeze_dims, l.356; unsqueeze, l.442. *)
Definition squeeze_nodim (self : list Z) : option (list Z) :=
  collect (fun i => do x <- pyidx self i; if negb (x =? 1) then Some [x] else Some [])
    (zrange 0 (zlen self)).
Definition squeeze (self : list Z) (dim : Z) : option (list Z) :=
  do dim <- wrap_dim dim (zlen self);
  collect (fun i => do x <- pyidx self i;
    if i =? dim then if negb (x =? 1) then Some [x] else Some [] else Some [x])
    (zrange 0 (zlen self)).
Definition squeeze_dims (self dims : list Z) : option (list Z) :=
  if zlen dims =? 0 then Some self
  else
    do dims <- unary dims;
    do dims <- mapM (fun d => wrap_dim d (zlen self)) dims;
    collect (fun i => do x <- pyidx self i;
      if x =? 1 then if negb (zmem i dims) then Some [x] else Some [] else Some [x])
      (zrange 0 (zlen self)).
Definition unsqueeze (self : list Z) (dim : Z) : option (list Z) :=
  do dim <- wrap_dim dim (zlen self + 1);
  do out <- unary self;
  Some (py_insert out dim 1).

(** mm, l.913; dot, l.962; mv, l.1006; bmm, l.6219; t, l.1984. *)
Definition mm (a b : list Z) : option (list Z) :=
  if negb (zlen a =? 2) then None else if negb (zlen b =? 2) then None
  else
    do x <- pyidx a 1; do y <- pyidx b 0;
    if negb (x =? y) then None
    else do r <- pyidx a 0; do c <- pyidx b 1; Some [r; c].
Definition dot_shape (a b : list Z) : option (list Z) :=
  if negb ((zlen a =? 1) && (zlen b =? 1)) then None
  else do x <- pyidx a 0; do y <- pyidx b 0; if negb (x =? y) then None else Some [].
Definition mv (a b : list Z) : option (list Z) :=
  if negb ((zlen a =? 2) && (zlen b =? 1)) then None
  else
    do x <- pyidx a 1; do y <- pyidx b 0;
    if negb (x =? y) then None else do r <- pyidx a 0; Some [r].
Definition bmm (a b : list Z) : option (list Z) :=
  if negb (zlen a =? 3) then None else if negb (zlen b =? 3) then None
  else
    do x <- pyidx a 0; do y <- pyidx b 0;
    if negb (x =? y) then None
    else
      do x <- pyidx a 2; do y <- pyidx b 1;
      if negb (x =? y) then None
      else do n <- pyidx a 0; do r <- pyidx a 1; do c <- pyidx b 2; Some [n; r; c].
Definition t_shape (s : list Z) : option (list Z) :=
  if 2 <? zlen s then None
  else if zlen s =? 0 then Some []
  else if zlen s =? 1 then do x <- pyidx s 0; Some [x]
  else do x <- pyidx s 1; do y <- pyidx s 0; Some [x; y].
(** matmul, l.1052-1432. *)
Definition matmul (a b : list Z) : option (list Z) :=
  let na := zlen a in
  let nb := zlen b in
  if (na =? 1) && (nb =? 1) then dot_shape a b
  else if (na =? 2) && (nb =? 1) then mv a b
  else if (na =? 1) && (nb =? 2) then
    do u <- unsqueeze a 0; do r <- mm u b; squeeze r 0
  else if (na =? 2) && (nb =? 2) then mm a b
  else if (1 <=? na) && (1 <=? nb) then
    do n <- (if 1 <? na then pyidx a (-2) else Some 1);
    do ba <- mapM (pyidx a) (zrange 0 (na - 2));
    do p <- pyidx b (-1);
    do bb <- mapM (pyidx b) (zrange 0 (nb - 2));
    do out <- broadcast ba bb;
    Some (out ++ (if 1 <? na then [n] else []) ++ (if 1 <? nb then [p] else []))
  else None.

(** transpose, l.3013-3119. *)
Definition transpose (self : list Z) (d0 d1 : Z) : option (list Z) :=
  let n := zlen self in
  do d0 <- wrap_dim d0 n;
  do d1 <- wrap_dim d1 n;
  if d0 =? d1 then unary self
  else mapM (fun i => if i =? d0 then pyidx self d1
                      else if i =? d1 then pyidx self d0 else pyidx self i) (zrange 0 n).
(** permute, l.5069-5155. *)
Definition permute (self dims : list Z) : option (list Z) :=
  if negb (zlen self =? zlen dims) then None
  else
    let n := zlen dims in
    do pd <- mapM (fun i => do d <- pyidx dims i; wrap_dim d n) (zrange 0 n);
    do new <- mapM (pyidx self) pd;
    do dup <- mapM (fun i =>
       do x <- pyidx pd i;
       do ys <- mapM (pyidx pd) (zrange 0 i);
       Some (zmem x ys)) (zrange 1 n);
    if existsb (fun b => b) dup then None else Some new.
(** movedim, l.5156-5388. *)
Definition movedim (self src dst : list Z) : option (list Z) :=
  let n := zlen self in
  if n <=? 1 then Some self
  else
    do ns <- mapM (fun i => do d <- pyidx src i; wrap_dim d n) (zrange 0 (zlen src));
    do nd <- mapM (fun i => do d <- pyidx dst i; wrap_dim d n) (zrange 0 (zlen src));
    do (order, sd, dd) <- foldM (fun '(order, sd, dd) i =>
        do s <- pyidx ns i;
        do d <- pyidx nd i;
        do order <- pyset order d s;
        do sd <- pyset sd s (-1);
        do dd <- pyset dd d (-1);
        Some (order, sd, dd)) (zrange 0 (zlen src))
      (map (fun _ => -1) (zrange 0 n), zrange 0 n, zrange 0 n);
    let sd := filter (fun x => negb (x =? -1)) sd in
    let dd := filter (fun x => negb (x =? -1)) dd in
    do order <- foldM (fun order i =>
        do s <- pyidx sd i; do d <- pyidx dd i; pyset order d s)
      (zrange 0 (n - zlen src)) order;
    permute self order.
(** aten.numpy_T, gen l.892-896. *)
Definition numpy_T (self : list Z) : option (list Z) := Some (fold_left (fun result i => i :: result) self []).

(** sum_mean_dim(self, opt_dims, keep_dim, dt), l.5747-5840. *)
Definition sum_mean_dim (self : list Z) (dims : option (list Z)) (keep : bool) : option (list Z) :=
  let dims := match dims with
              | None => zrange 0 (zlen self)
              | Some d => if zlen d =? 0 then zrange 0 (zlen self) else d
              end in
  collect (fun i =>
    do ws <- mapM (fun d => wrap_dim d (zlen self)) dims;
    if zmem i ws then if keep then Some [1] else Some []
    else option_map (fun x => [x]) (pyidx self i)) (zrange 0 (zlen self)).
(** max_dim, l.5841: both results. *)
Definition max_dim (self : list Z) (dim : Z) (keep : bool) : option (list Z * list Z) :=
  do o <- sum_mean_dim self (Some [dim]) keep; Some (o, o).
(** _reduce_along_dim, l.6189; argmax, l.6118-6188. *)
Definition reduce_along_dim (self : list Z) (dim : Z) (keep : bool) : option (list Z) :=
  do dim <- wrap_dim dim (zlen self);
  collect (fun i => do x <- pyidx self i;
    if i =? dim then if keep then Some [1] else Some [] else Some [x]) (zrange 0 (zlen self)).
Definition argmax (self : list Z) (dim : option Z) (keep : bool) : option (list Z) :=
  match dim with None => Some [] | Some d => reduce_along_dim self d keep end.
(** topk, l.6288: both results. *)
Definition topk (self : list Z) (k dim : Z) : option (list Z) :=
  if zlen self =? 0 then Some []
  else
    do d <- pyidx self dim;
    if d <? k then None else do out <- unary self; pyset out dim k.

(** should_skip, l.4732. *)
Definition should_skip (t : list Z) : bool := (numel t =? 0) && (zlen t =? 1).
(** legacy_cat_wrap_dim, l.4685. *)
Definition cat_wrap_dim (dim : Z) (ts : list (list Z)) : option Z :=
  do out <- foldM (fun out t =>
      do z <- (if zlen t =? 1 then do x <- pyidx t 0; Some (x =? 0) else Some false);
      if negb z then
        match out with
        | None => do d <- wrap_dim dim (zlen t); Some (Some d)
        | Some d => Some (Some d)
        end
      else Some out) ts (@None Z);
  Some (match out with None => dim | Some d => d end).
(** check_cat_shape_except_dim, l.4759. *)
Definition check_cat (first second : list Z) (dim : Z) : option unit :=
  if negb (zlen first =? zlen second) then None
  else
    do oks <- mapM (fun i => if negb (i =? dim)
                             then do x <- pyidx first i; do y <- pyidx second i; Some (x =? y)
                             else Some true) (zrange 0 (zlen first));
    guard (forallb (fun b => b) oks).
(** cat, l.4449-4663. *)
Definition cat (ts : list (list Z)) (dim : Z) : option (list Z) :=
  do _ <- guard (forallb (fun t => negb (zlen t <=? 0)) ts);
  do dim <- cat_wrap_dim dim ts;
  if zlen ts <=? 0 then None
  else
    match fold_left (fun acc t => if negb (should_skip t) then Some t else acc) ts (@None (list Z)) with
    | None => Some [0]
    | Some base =>
        do size <- foldM (fun acc t =>
            if negb (should_skip t) then
              do _ <- check_cat base t dim;
              do x <- pyidx t dim;
              Some (acc + x)
            else Some acc) ts 0;
        do out <- unary base;
        pyset out dim size
    end.
(** stack, l.4805-5068. *)
Definition stack (ts : list (list Z)) (dim : Z) : option (list Z) :=
  do us <- mapM (fun t => unsqueeze t dim) ts;
  cat us dim.

(** flatten, l.4319-4448. *)
Definition flatten (self : list Z) (start end_ : Z) : option (list Z) :=
  do s <- wrap_dim start (zlen self);
  do e <- wrap_dim end_ (zlen self);
  if e <? s then None
  else if zlen self =? 0 then Some [1]
  else if s =? e then unary self
  else
    do xs <- mapM (pyidx self) (zrange s (e + 1));
    do pre <- mapM (pyidx self) (zrange 0 s);
    do post <- mapM (pyidx self) (zrange (e + 1) (zlen self));
    Some (pre ++ [numel xs] ++ post).
