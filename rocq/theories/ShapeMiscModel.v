(** Models of shape functions written in
    projects/pt1/python/torch_mlir/jit_ir_importer/build_tools/abstract_interp_lib_gen.py
    (line numbers below). Conventions as in ShapeCoreModel: sizes are unbounded integers, a
    failed assertion or any raised exception is [None]. Functions that update their
    argument list in place are modelled by the value they return. *)
From Coq Require Import ZArith Bool List.
From Verif Require Import Prelude ShapeCoreModel.
Import ListNotations.
Open Scope Z_scope.

(** prims.collapse, l.459-497. *)
Definition collapse (a : list Z) (start end_ : Z) : option (list Z) :=
  assert start <? zlen a;
  assert end_ <? zlen a;
  assert 0 <=? start;
  assert 0 <=? end_;
  assert start <=? end_;
  do pre <- mapM (pyidx a) (zrange 0 start);
  do combined <- foldM (fun acc i => do x <- pyidx a i; Some (acc * x)) (zrange start (end_ + 1)) 1;
  do post <- mapM (pyidx a) (zrange (end_ + 1) (zlen a));
  Some (pre ++ [combined] ++ post).

(** Python [%] and [//] by zero raise. *)
Definition pymod (x y : Z) : option Z := if y =? 0 then None else Some (x mod y).
Definition pydiv (x y : Z) : option Z := if y =? 0 then None else Some (x / y).

(** prims.split_dim, l.499-516. *)
Definition split_dim (a : list Z) (dim outer : Z) : option (list Z) :=
  assert 0 <=? dim;
  assert dim <? zlen a;
  assert 0 <? outer;
  do d <- pyidx a dim;
  do r <- pymod d outer;
  assert r =? 0;
  do pre <- mapM (pyidx a) (zrange 0 dim);
  do q <- pydiv d outer;
  do post <- mapM (pyidx a) (zrange (dim + 1) (zlen a));
  Some (pre ++ [outer; q] ++ post).

(** aten.unflatten.int, l.1423-1429. *)
Definition unflatten (self : list Z) (dim : Z) (sizes : list Z) : option (list Z) :=
  let dim := if dim <? 0 then dim + zlen self else dim in
  do d <- pyidx self dim;
  do mid <- view [d] sizes;
  Some (slice_to self dim ++ mid ++ slice_from self (dim + 1)).

(** aten.tril_indices, l.2307-2329: the second size of the result ([2, n]). *)
Definition tril_count (row col offset : Z) : Z :=
  let m_first_row := if 0 <? offset then Z.min col (1 + offset)
                     else if 0 <? row + offset then 1 else 0 in
  let m_last_row := Z.max 0 (Z.min col (row + offset)) in
  let n_row_all := Z.max 0 (Z.min row (row + offset)) in
  let n_row_trapezoid := m_last_row - m_first_row + 1 in
  let trapezoid_size := (m_first_row + m_last_row) * n_row_trapezoid / 2 in
  let diff_row := n_row_all - n_row_trapezoid in
  let rectangle_size := Z.max 0 (diff_row * col) in
  trapezoid_size + rectangle_size.
Definition tril_indices (row col offset : Z) : list Z :=
  if (row =? 0) || (col =? 0) then [2; 0] else [2; tril_count row col offset].
(** aten.triu_indices, l.2276-2305. *)
Definition triu_indices (row col offset : Z) : list Z :=
  if (row =? 0) || (col =? 0) then [2; 0]
  else [2; row * col - tril_count row col (offset - 1)].

(** aten.diagonal, l.117-138. *)
Definition diagonal (self : list Z) (offset dim1 dim2 : Z) : option (list Z) :=
  assert 2 <=? zlen self;
  do dim1 <- wrap_dim dim1 (zlen self);
  do dim2 <- wrap_dim dim2 (zlen self);
  assert negb (dim1 =? dim2);
  do rest <- collect (fun i => do x <- pyidx self i;
      if (i =? dim1) || (i =? dim2) then Some [] else Some [x]) (zrange 0 (zlen self));
  do s1 <- pyidx self dim1;
  do s2 <- pyidx self dim2;
  let size := if offset <? 0 then Z.max (Z.min (s1 + offset) s2) 0
              else Z.max (Z.min s1 (s2 - offset)) 0 in
  Some (rest ++ [size]).
(** _diag_embed_shape_helper, l.55-80. *)
Definition diag_embed (self : list Z) (offset dim1 dim2 : Z) : option (list Z) :=
  let n := zlen self + 1 in
  assert negb (dim1 =? dim2);
  assert dim1 <? n;
  assert - n <=? dim1;
  assert dim2 <? n;
  assert - n <=? dim2;
  let dim1 := if dim1 <? 0 then n + dim1 else dim1 in
  let dim2 := if dim2 <? 0 then n + dim2 else dim2 in
  do (out, _) <- foldM (fun '(out, k) i =>
      if (i =? dim1) || (i =? dim2)
      then do x <- pyidx self (-1); Some (out ++ [x + Z.abs offset], k)
      else do x <- pyidx self k; Some (out ++ [x], k + 1)) (zrange 0 n) (@nil Z, 0);
  Some out.
(** aten.diag, l.1579-1586. *)
Definition diag (self : list Z) (offset : Z) : option (list Z) :=
  assert (zlen self =? 1) || (zlen self =? 2);
  if zlen self =? 1 then do x <- pyidx self 0; Some [x + Z.abs offset; x + Z.abs offset]
  else diagonal self offset 0 1.

(** pad_shape_fn, l.2405-2416. *)
Definition pad_shape_fn (input pad : list Z) (validate : bool) : option (list Z) :=
  assert zlen pad mod 2 =? 0;
  assert zlen pad / 2 <=? zlen input;
  foldM (fun input i =>
    do lo <- pyidx pad (2 * i);
    do hi <- pyidx pad (2 * i + 1);
    do x <- pyidx input (- (i + 1));
    assert negb validate || ((lo <? x) && (hi <? x));
    pyset input (- (i + 1)) (x + (lo + hi))) (zrange 0 (zlen pad / 2)) input.
(** aten.constant_pad_nd and aten.pad, l.2425, l.2455. *)
Definition constant_pad_nd (self pad : list Z) : option (list Z) := pad_shape_fn self pad false.
(** aten.replication_pad{1,2,3}d, l.2428-2441; aten.reflection_pad{1,2,3}d, l.2465-2494. *)
Definition replication_pad (n : Z) (self pad : list Z) : option (list Z) :=
  assert (if n =? 3 then 3 else 2) <=? zlen self;
  assert zlen pad =? 2 * n;
  pad_shape_fn self pad false.
Definition reflection_pad (n : Z) (self pad : list Z) : option (list Z) :=
  assert (if n =? 3 then 3 else 2) <=? zlen self;
  assert (n =? 1) || (zlen pad =? 2 * n);
  pad_shape_fn self pad true.

(** aten.repeat, l.989-1003; aten.tile, l.1022-1027. *)
Definition repeat_shape (self repeats : list Z) : option (list Z) :=
  assert zlen self <=? zlen repeats;
  if zlen repeats =? 0 then unary self
  else
    let leading := zlen repeats - zlen self in
    do a <- mapM (pyidx repeats) (zrange 0 leading);
    do b <- mapM (fun i => do x <- pyidx self i; do r <- pyidx repeats (i + leading); Some (x * r))
              (zrange 0 (zlen self));
    Some (a ++ b).
Definition tile (self dims : list Z) : option (list Z) :=
  let dims := if zlen dims <? zlen self
              then repeat 1 (Z.to_nat (zlen self - zlen dims)) ++ dims else dims in
  repeat_shape self dims.
(** aten.repeat_interleave.self_int, l.1005-1011. *)
Definition repeat_interleave (self : list Z) (repeats : Z) (dim : option Z) : option (list Z) :=
  match dim with
  | None => do f <- flatten self 0 (-1); do n <- pyidx f 0; Some [n * repeats]
  | Some dim => do d <- pyidx self dim;
      Some (slice_to self dim ++ [d * repeats] ++ slice_from self (dim + 1))
  end.

(** aten.pixel_shuffle, l.845-855; aten.pixel_unshuffle, l.857-868. *)
Definition pixel_shuffle (self : list Z) (f : Z) : option (list Z) :=
  assert 3 <=? zlen self;
  do c <- pyidx self (-3);
  do r <- pymod c (f * f);
  assert r =? 0;
  do c' <- pydiv c (f * f);
  do h <- pyidx self (-2);
  do w <- pyidx self (-1);
  Some (pyslice self 0 (-3) ++ [c'; h * f; w * f]).
Definition pixel_unshuffle (self : list Z) (f : Z) : option (list Z) :=
  assert 3 <=? zlen self;
  do h <- pyidx self (-2);
  do r <- pymod h f;
  assert r =? 0;
  do w <- pyidx self (-1);
  do r <- pymod w f;
  assert r =? 0;
  do c <- pyidx self (-3);
  do h' <- pydiv h f;
  do w' <- pydiv w f;
  Some (pyslice self 0 (-3) ++ [c * (f * f); h'; w']).

(** aten.rot90, l.1597-1606. *)
Definition rot90 (self : list Z) (k : Z) (dims : list Z) : option (list Z) :=
  assert 2 <=? zlen self;
  assert zlen dims =? 2;
  let k := (k mod 4 + 4) mod 4 in
  if (k =? 1) || (k =? 3) then
    do d0 <- pyidx dims 0;
    do d1 <- pyidx dims 1;
    do y <- pyidx self d1;
    do x <- pyidx self d0;
    do s <- pyset self d0 y;
    pyset s d1 x
  else Some self.
(** aten.glu, l.369-373. *)
Definition glu (self : list Z) (dim : Z) : option (list Z) :=
  let dim := if dim <? 0 then dim + zlen self else dim in
  do d <- pyidx self dim;
  do r <- pymod d 2;
  assert r =? 0;
  do h <- pydiv d 2;
  Some (slice_to self dim ++ [h] ++ slice_from self (dim + 1)).
(** aten.cosine_similarity, l.231-233. *)
Definition cosine_similarity (x1 x2 : list Z) (dim : Z) : option (list Z) :=
  do b <- broadcast x1 x2;
  Some (slice_to b dim ++ slice_from b (dim + 1)).
(** aten.count_nonzero, l.1618-1621. *)
Definition count_nonzero (self : list Z) (dim : option Z) : option (list Z) :=
  match dim with
  | None => Some []
  | Some d => assert negb ((d <? - zlen self) || (zlen self <=? d)); argmax self (Some d) false
  end.
(** patched_argmax_shape_func, l.762-768: aten.argmax, aten.argmin, and each result of aten.aminmax. *)
Definition patched_argmax (self : list Z) (dim : option Z) (keep : bool) : option (list Z) :=
  match dim with
  | None => if keep then Some (map (fun _ => 1) self) else argmax self None keep
  | Some d => argmax self (Some d) keep
  end.
(** aten.t, l.886-887. *)
Definition aten_t (self : list Z) : option (list Z) := transpose self 0 1.

(** aten.atleast_1d, l.2561; aten.atleast_2d, l.2567. *)
Definition atleast_1d (self : list Z) : option (list Z) :=
  if zlen self =? 0 then Some [1] else Some self.
Definition atleast_2d (self : list Z) : option (list Z) :=
  if zlen self =? 0 then Some [1; 1]
  else if zlen self =? 1 then do x <- pyidx self 0; Some [1; x]
  else Some self.
(** aten.hstack, l.2583-2590; aten.column_stack, l.2595-2604. *)
Definition hstack (tensors : list (list Z)) : option (list Z) :=
  do ts <- mapM atleast_1d tensors;
  do t0 <- pyidx ts 0;
  if zlen t0 =? 1 then cat ts 0 else cat ts 1.
Definition column_stack (tensors : list (list Z)) : option (list Z) :=
  let ts := map (fun t => if zlen t =? 0 then [1; 1]
                          else if zlen t =? 1 then t ++ [1] else t) tensors in
  cat ts 1.
(** aten.broadcast_tensors, l.1040-1050. *)
Definition broadcast_tensors (tensors : list (list Z)) : option (list (list Z)) :=
  match tensors with
  | [] => Some []
  | t :: r => do res <- foldM broadcast r t; Some (map (fun _ => res) tensors)
  end.

(** index_tensor_like, l.2497-2536. [indices]: the shape of each index tensor, or None. *)
Definition index_tensor_like (self : list Z) (indices : list (option (list Z))) : option (list Z) :=
  assert zlen indices <=? zlen self;
  do (bc, unused) <- foldM (fun '(bc, unused) i =>
      if zlen indices <=? i then do x <- pyidx self i; Some (bc, unused ++ [x])
      else
        do ix <- pyidx indices i;
        match ix with
        | Some s => do b <- broadcast bc s; Some (b, unused)
        | None => do x <- pyidx self i; Some (bc, unused ++ [x])
        end) (zrange 0 (zlen self)) (@nil Z, @nil Z);
  if zlen unused =? 0 then Some bc
  else
    let '(first, _, together) := fold_left (fun '(first, last, together) '(e, ix) =>
        match ix with
        | None => (first, last, together)
        | Some _ =>
            if first =? -1 then (e, e, together)
            else if negb (e - last =? 1) then (first, e, false)
            else (first, e, together)
        end) (combine (zrange 0 (zlen indices)) indices) (-1, -1, true) in
    if negb together then Some (bc ++ unused)
    else
      do a <- mapM (pyidx unused) (zrange 0 first);
      do b <- mapM (pyidx unused) (zrange first (zlen unused));
      Some (a ++ bc ++ b).

(** The two-operand elementwise operators, by the line of their shape function. *)
Inductive elem2 :=
| ne_Tensor (* l.592 *) | pow_Tensor_Tensor (* l.646 *) | min_other (* l.697 *)
| max_other (* l.703 *) | add_Tensor (* l.1753 *) | sub_Tensor (* l.1756 *)
| mul_Tensor (* l.1759 *) | div_Tensor (* l.1762 *) | div_Tensor_mode (* l.1765 *)
| floor_divide (* l.1771 *) | atan2 (* l.1774 *) | ldexp_Tensor (* l.1783 *)
| copysign_Tensor (* l.1786 *) | and_Tensor (* l.1789 *) | or_Tensor (* l.1792 *)
| minimum (* l.1795 *) | maximum (* l.1798 *) | fmin (* l.1801 *) | fmax (* l.1804 *)
| bitwise_or_Tensor (* l.1807 *) | bitwise_and_Tensor (* l.1810 *)
| bitwise_xor_Tensor (* l.1816 *) | bitwise_right_shift_Tensor (* l.1819 *)
| bitwise_left_shift_Tensor (* l.1822 *) | logical_or (* l.1828 *) | logical_and (* l.1831 *)
| logical_xor (* l.1834 *) | eq_Tensor (* l.1846 *) | gt_Tensor (* l.1849 *)
| ge_Tensor (* l.1852 *) | lt_Tensor (* l.1855 *) | le_Tensor (* l.1858 *)
| isclose (* l.1861 *) | where_ScalarOther (* l.1925 *) | where_ScalarSelf (* l.1928 *)
| heaviside (* l.1931 *) | lerp_Scalar (* l.1940 *)
| remainder_Tensor (* l.631 *) | fmod_Tensor (* l.634 *) | polar (* l.352 *)
| clamp_min_Tensor (* l.402 *) | logaddexp (* l.1641 *) | logaddexp2 (* l.1644 *)
| masked_fill_Scalar (* l.1647 *) | mse_loss_none (* l.2354, reduction 0 *)
| l1_loss_none (* l.2359, reduction 0 *).
Definition elem2_shape (op : elem2) (self other : list Z) : option (list Z) :=
  match op with
  | remainder_Tensor | fmod_Tensor | polar | clamp_min_Tensor | logaddexp | logaddexp2
  | masked_fill_Scalar | mse_loss_none | l1_loss_none => unary self
  | _ => broadcast self other
  end.
(** The three-operand ones: where.self l.1919, lerp.Tensor l.1937, addcmul l.1943,
    addcdiv l.1946, clamp.Tensor l.396, masked_fill.Tensor l.1650. *)
Inductive elem3 := where_self | lerp_Tensor | addcmul | addcdiv | clamp_Tensor | masked_fill_Tensor.
Definition elem3_shape (op : elem3) (a b c : list Z) : option (list Z) :=
  match op with
  | where_self | lerp_Tensor | addcmul | addcdiv => do bc <- broadcast b c; broadcast a bc
  | clamp_Tensor | masked_fill_Tensor => unary a
  end.
