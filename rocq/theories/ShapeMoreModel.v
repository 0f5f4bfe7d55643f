(** Models of the remaining shape functions of
    projects/pt1/python/torch_mlir/jit_ir_importer/build_tools/abstract_interp_lib_gen.py
    (line numbers "l." below) and of the functions of torch.jit._shape_functions they call, as
    compiled into lib/Dialect/Torch/Transforms/AbstractInterpLibrary.cpp (line numbers "lib").
    Conventions as in ShapeCoreModel: sizes are unbounded integers; a failed assertion or any
    raised exception is [None]; functions that update their argument list in place are modelled
    by the value they return; operands that are never looked at are left out. Floating point
    operands are rationals, so rounding of products and quotients is not modelled. *)
From Coq Require Import ZArith QArith Qround Bool String List.
From Verif Require Import Prelude ShapeCoreModel ShapeMiscModel.
Import ListNotations.
Open Scope string_scope.
Open Scope list_scope.
Open Scope Z_scope.

(** ** Operators whose result has the shape of an operand *)

(** The bodies [return upstream_shape_functions.unary(x)], [return x], [return []] and pairs of
    them; [i] is the position of [x] among the parameters. *)
Inductive recipe :=
| Unary (i : nat)
| Arg (i : nat)
| Scalar
| Two (r1 r2 : recipe).
(** The shape functions with such a body, in the order of the file: l.82-2735 and l.6501-6534
    (l.82 triu ... l.2683 fft_ifft, then quantized_decomposed). *)
Definition recipes : list (string * recipe) := [
   ("aten.triu", Unary 0); ("aten.tril", Unary 0); ("aten.fake_quantize_per_tensor_affine", Unary 0);
     ("aten.fake_quantize_per_tensor_affine_cachemask", Two (Unary 0) (Unary 0));
     ("aten.fake_quantize_per_tensor_affine.tensor_qparams", Unary 0);
     ("aten._fake_quantize_per_tensor_affine_cachemask_tensor_qparams", Two (Unary 0) (Unary 0));
     ("aten.fake_quantize_per_channel_affine", Unary 0);
     ("aten.fake_quantize_per_channel_affine_cachemask", Two (Unary 0) (Unary 0));
     ("aten.rad2deg", Unary 0); ("aten.sin", Unary 0); ("aten.sinh", Unary 0); ("aten.asin", Unary 0);
     ("aten.asinh", Unary 0); ("aten.cos", Unary 0); ("aten.cosh", Unary 0); ("aten.acos", Unary 0);
     ("aten.acosh", Unary 0); ("aten.tan", Unary 0); ("aten.tanh", Unary 0); ("aten.atan", Unary 0);
     ("aten.atanh", Unary 0); ("aten.erf", Unary 0); ("aten.sigmoid", Unary 0);
     ("aten.hardsigmoid", Unary 0); ("aten.softplus", Unary 0); ("aten.square", Unary 0);
     ("aten.hardswish", Unary 0); ("aten.silu", Unary 0); ("aten.exp", Unary 0); ("aten.exp2", Unary 0);
     ("aten.expm1", Unary 0); ("aten.special_expm1", Unary 0); ("aten.isfinite", Arg 0);
     ("aten.hardtanh", Unary 0); ("aten.sqrt", Unary 0); ("prims.sqrt", Unary 0); ("aten.neg", Unary 0);
     ("aten.floor", Unary 0); ("aten.sign", Unary 0); ("aten.sgn", Unary 0); ("aten.detach", Unary 0);
     ("aten.log2", Unary 0); ("aten.log10", Unary 0); ("aten.log1p", Unary 0); ("aten.logit", Unary 0);
     ("aten.rsqrt", Unary 0); ("aten.abs", Unary 0); ("aten.absolute", Unary 0);
     ("aten.reciprocal", Unary 0); ("aten.tanh_backward", Unary 0); ("aten.sigmoid_backward", Unary 0);
     ("aten.gelu_backward", Unary 0); ("aten.elu_backward", Unary 0);
     ("aten.leaky_relu_backward", Unary 0); ("aten.rrelu_with_noise_backward", Unary 0);
     ("aten.hardtanh_backward", Unary 0); ("aten.softplus_backward", Unary 0); ("aten.ceil", Unary 0);
     ("aten.trunc", Unary 0); ("aten.fix", Unary 0); ("aten.log", Unary 0); ("aten.log_sigmoid", Unary 0);
     ("aten.hardshrink", Unary 0); ("aten.softshrink", Unary 0); ("aten.polar", Unary 0);
     ("aten.mish", Unary 0); ("aten.relu", Unary 0); ("aten.relu6", Unary 0); ("aten.round", Unary 0);
     ("aten.round.decimals", Unary 0); ("aten._softmax", Unary 0); ("aten._safe_softmax", Unary 0);
     ("aten.softmax.int", Unary 0); ("aten._log_softmax", Unary 0); ("aten.log_softmax.int", Unary 0);
     ("aten.clamp", Unary 0); ("aten.clamp.Tensor", Unary 0); ("aten.clamp_min", Unary 0);
     ("aten.clamp_min.Tensor", Unary 0); ("aten.clamp_max", Unary 0); ("aten.rsub.Scalar", Unary 0);
     ("aten.quantize_per_channel", Unary 0); ("aten.quantize_per_tensor", Unary 0);
     ("aten.dequantize.self", Unary 0); ("aten.dequantize.tensor", Unary 0); ("aten.int_repr", Unary 0);
     ("aten._make_per_channel_quantized_tensor", Unary 0);
     ("aten._make_per_tensor_quantized_tensor", Unary 0); ("prims.convert_element_type", Unary 0);
     ("aten.to.dtype", Unary 0); ("aten.to.dtype_layout", Arg 0); ("aten.to.device", Unary 0);
     ("aten.to.other", Unary 0); ("aten._cast_Float", Unary 0); ("aten._cast_Long", Unary 0);
     ("aten.type_as", Unary 0); ("aten.dropout", Unary 0);
     ("aten.native_dropout", Two (Unary 0) (Unary 0)); ("aten.gelu", Unary 0);
     ("aten.bucketize.Tensor", Unary 0); ("aten.contiguous", Unary 0); ("aten.clone", Unary 0);
     ("aten.lift_fresh_copy", Unary 0); ("aten._log_softmax_backward_data", Unary 0);
     ("aten.isnan", Unary 0); ("aten.isinf", Unary 0); ("aten.isneginf", Unary 0);
     ("aten.isposinf", Unary 0); ("aten.eq.Scalar", Unary 0); ("aten.ne.Scalar", Unary 0);
     ("aten.gt.Scalar", Unary 0); ("aten.ge.Scalar", Unary 0); ("aten.le.Scalar", Unary 0);
     ("aten.lt.Scalar", Unary 0); ("aten.add.Scalar", Unary 0); ("aten.sub.Scalar", Unary 0);
     ("aten.mul.Scalar", Unary 0); ("aten.div.Scalar", Unary 0); ("aten.remainder.Scalar", Unary 0);
     ("aten.__and__.Scalar", Unary 0); ("aten.remainder.Tensor", Unary 0); ("aten.fmod.Tensor", Unary 0);
     ("aten.floor_divide.Scalar", Unary 0); ("aten.pow.Scalar", Unary 1);
     ("aten.pow.Tensor_Scalar", Unary 0); ("aten.leaky_relu", Unary 0); ("aten.elu", Unary 0);
     ("aten.prelu", Unary 0); ("aten.celu", Unary 0); ("aten.rrelu", Unary 0);
     ("aten.rrelu_with_noise", Unary 0); ("aten.rrelu_with_noise_functional", Two (Unary 0) (Unary 1));
     ("aten.selu", Unary 0); ("aten.gather", Unary 2); ("aten.layer_norm", Unary 0);
     ("aten.rms_norm", Unary 0); ("aten._softmax_backward_data", Unary 1); ("aten.any", Scalar);
     ("aten.all", Scalar); ("aten.min", Scalar); ("aten.max", Scalar); ("aten.sum", Scalar);
     ("aten.prod", Scalar); ("aten.mean", Scalar); ("aten.var", Scalar);
     ("aten.var_mean", Two Scalar Scalar); ("aten.std", Scalar); ("aten.dot", Scalar);
     ("aten.roll", Unary 0); ("aten.expand_as", Unary 1); ("aten._unsafe_view", Arg 1);
     ("aten.resize_", Arg 1); ("aten.max_pool2d_with_indices_backward", Arg 1);
     ("aten.upsample_nearest2d_backward", Arg 2); ("aten.zeros", Arg 0); ("aten.ones", Arg 0);
     ("aten.empty.memory_format", Arg 0); ("aten.empty_strided", Arg 0); ("aten.full", Arg 0);
     ("aten.full_like", Arg 0); ("aten.new_full", Arg 1); ("aten.zeros_like", Unary 0);
     ("aten.ones_like", Unary 0); ("aten.empty_like", Unary 0); ("aten.new_zeros", Arg 1);
     ("aten.new_ones", Arg 1); ("aten.new_empty", Arg 1); ("aten.new_empty_strided", Arg 1);
     ("aten._to_copy", Unary 0); ("aten.logaddexp", Unary 0); ("aten.logaddexp2", Unary 0);
     ("aten.masked_fill.Scalar", Unary 0); ("aten.masked_fill.Tensor", Unary 0); ("aten.zero", Arg 0);
     ("aten.fill.Tensor", Arg 0); ("aten.fill.Scalar", Arg 0); ("aten.copy", Unary 0);
     ("aten.uniform", Arg 0); ("aten.exponential", Arg 0); ("aten.rand", Arg 0);
     ("aten.bernoulli.float", Arg 0); ("onnx.rotary_embedding", Arg 0); ("aten.bernoulli.Tensor", Arg 0);
     ("aten.bernoulli.p", Arg 0); ("aten._index_put_impl", Unary 0); ("aten.bernoulli", Arg 0);
     ("aten.cumsum", Arg 0); ("aten.cumprod", Arg 0); ("aten.logcumsumexp", Arg 0);
     ("aten.rand_like", Arg 0); ("aten.randn_like", Arg 0); ("aten.randint.low", Arg 2);
     ("aten.randint", Arg 1); ("aten.randn", Arg 0); ("aten.randn.generator", Arg 0);
     ("aten.normal_functional", Arg 0); ("aten.div.Scalar_mode", Unary 0); ("aten.frac", Arg 0);
     ("aten.signbit", Arg 0); ("aten.bitwise_and.Scalar", Unary 0); ("aten.bitwise_not", Unary 0);
     ("aten.logical_not", Unary 0); ("aten.threshold", Unary 0); ("prims.view_of", Arg 0);
     ("prim.NumToTensor.Scalar", Scalar); ("aten.tensor.float", Scalar); ("aten.tensor.int", Scalar);
     ("aten.tensor.bool", Scalar); ("aten.scalar_tensor", Scalar); ("aten.where.Scalar", Unary 0);
     ("aten.nan_to_num", Unary 0); ("aten.real", Unary 0); ("aten.imag", Unary 0); ("aten.flip", Arg 0);
     ("aten.group_norm", Unary 0); ("aten.instance_norm", Unary 0);
     ("aten._weight_norm_interface", Two (Unary 0) (Unary 1)); ("aten.as_strided", Arg 1);
     ("aten.sort", Two (Arg 0) (Arg 0)); ("aten.argsort", Arg 0); ("aten.slice_scatter", Arg 0);
     ("aten.masked_scatter", Arg 0); ("aten.select_scatter", Arg 0); ("aten.scatter_reduce.two", Arg 0);
     ("aten.scatter.src", Arg 0); ("aten.scatter.value", Arg 0); ("aten.scatter_add", Arg 0);
     ("aten.index_put", Unary 0); ("aten.index_put.hacked_twin", Unary 0); ("aten.deg2rad", Unary 0);
     ("aten.nll_loss_backward", Unary 1); ("aten.fft_fft", Arg 0); ("aten.fft_ifft", Arg 0);
     ("aten.renorm", Arg 0); ("quantized_decomposed.quantize_per_tensor", Unary 0);
     ("quantized_decomposed.dequantize_per_tensor", Unary 0);
     ("quantized_decomposed.quantize_per_channel", Unary 0);
     ("quantized_decomposed.dequantize_per_channel", Unary 0)
  ]%string%nat.
Fixpoint run_recipe (r : recipe) (args : list (list Z)) : option (list (list Z)) :=
  match r with
  | Unary i => do a <- nth_error args i; do s <- unary a; Some [s]
  | Arg i => do a <- nth_error args i; Some [a]
  | Scalar => Some [[]]
  | Two r1 r2 => do x <- run_recipe r1 args; do y <- run_recipe r2 args; Some (x ++ y)
  end.
Fixpoint assoc {A} (k : string) (l : list (string * A)) : option A :=
  match l with
  | [] => None
  | (n, v) :: r => if String.eqb n k then Some v else assoc k r
  end.
Definition simple_shape (op : string) (args : list (list Z)) : option (list (list Z)) :=
  do r <- assoc op recipes; run_recipe r args.

(** The calls of [sum_mean_dim]: which dims are passed, whether [keepdim] is an operand (else
    False is passed), and whether the result is returned twice. *)
Inductive dims_source := DimList | OneDim | AllDims.
Definition reductions : list (string * (dims_source * bool * bool)) := [
   ("prims.var", (DimList, false, false)) (* l.718 *);
   ("aten.var.dim", (DimList, true, false)) (* l.721 *);
   ("aten.var.correction", (DimList, true, false)) (* l.724 *);
   ("aten.var_mean.correction", (DimList, true, true)) (* l.727 *);
   ("aten.var_mean.dim", (DimList, true, true)) (* l.731 *);
   ("aten.std.dim", (DimList, true, false)) (* l.745 *);
   ("aten.std.correction", (DimList, true, false)) (* l.748 *);
   ("aten.any.dims", (DimList, true, false)) (* l.796 *);
   ("aten.amax", (DimList, true, false)) (* l.810 *);
   ("aten.amin", (DimList, true, false)) (* l.813 *);
   ("aten.mean.dim", (DimList, true, false)) (* l.830 *);
   ("aten.sum.dim_IntList", (DimList, true, false)) (* l.833 *);
   ("prims.sum", (DimList, false, false)) (* l.836 *);
   ("prims.prod", (DimList, false, false)) (* l.839 *);
   ("aten.prod.dim_int", (OneDim, true, false)) (* l.842 *);
   ("aten.linalg_vector_norm", (DimList, true, false)) (* l.2737 *);
   ("aten.linalg_norm", (DimList, true, false)) (* l.2740 *);
   ("aten.frobenius_norm.dim", (DimList, true, false)) (* l.2743 *);
   ("aten.norm.Scalar", (AllDims, false, false)) (* l.2749 *);
   ("aten.norm.ScalarOpt_dim", (DimList, true, false)) (* l.2752 *)
  ]%string.
Definition reduce_shape (op : string) (self : list Z) (dims : option (list Z)) (dim : Z) (keepdim : bool)
  : option (list (list Z)) :=
  do (src, has_keep, twice) <- assoc op reductions;
  do out <- sum_mean_dim self
              (match src with DimList => dims | OneDim => Some [dim] | AllDims => None end)
              (if has_keep then keepdim else false);
  Some (if twice then [out; out] else [out]).

(** ** Products, lookups and attention *)

Fixpoint list_eqb (a b : list Z) : bool :=
  match a, b with
  | [], [] => true
  | x :: a', y :: b' => (x =? y) && list_eqb a' b'
  | _, _ => false
  end.

(** linear, lib l.1499-1983: aten.linear, l.1431. *)
Definition linear (input weight : list Z) (bias : option (list Z)) : option (list Z) :=
  do wt <- t_shape weight;
  do out <- matmul input wt;
  match bias with
  | None => Some out
  | Some b => do e <- broadcast b out; assert list_eqb e out; Some out
  end.
(** addmm, lib l.5914-6019: aten.addmm, l.961. *)
Definition addmm (self mat1 mat2 : list Z) : option (list Z) :=
  do out <- mm mat1 mat2; broadcast self out.
(** aten.addbmm, l.969-971; aten.baddbmm, l.983. *)
Definition addbmm (self b1 b2 : list Z) : option (list Z) :=
  do out <- bmm b1 b2; expand self (slice_from out 1).
Definition baddbmm (self b1 b2 : list Z) : option (list Z) := bmm b1 b2.
(** aten.outer, l.898. *)
Definition outer (self vec2 : list Z) : option (list Z) :=
  do x <- pyidx self 0; do y <- pyidx vec2 0; Some [x; y].
(** aten.bilinear, l.1441-1456. *)
Definition bilinear (i1 i2 weight : list Z) (bias : option (list Z)) : option (list Z) :=
  assert zlen i1 =? zlen i2;
  assert zlen weight =? 3;
  do x <- pyidx i1 (zlen i1 - 1); do w1 <- pyidx weight 1; assert x =? w1;
  do y <- pyidx i2 (zlen i2 - 1); do w2 <- pyidx weight 2; assert y =? w2;
  do pre <- mapM (fun i => do a <- pyidx i1 i; do b <- pyidx i2 i; assert a =? b; Some a)
                 (zrange 0 (zlen i1 - 1));
  do w0 <- pyidx weight 0;
  let out := pre ++ [w0] in
  match bias with
  | None => Some out
  | Some b =>
      assert zlen b =? 1;
      do b0 <- pyidx b 0; assert b0 =? w0;
      broadcast out b
  end.
(** aten._trilinear, l.1465-1494. Python's [list.insert] is [py_insert]. *)
Definition tri_expand (s dims : list Z) : option (list Z) :=
  foldM (fun l d => assert d <=? zlen s; Some (py_insert l d 1)) dims s.
Definition trilinear (i1 i2 i3 e1 e2 e3 sumdim : list Z) (unroll : Z) : option (list Z) :=
  assert (0 <=? unroll) && (unroll <? zlen i1 + zlen e1);
  do a <- tri_expand i1 e1;
  do b <- tri_expand i2 e2;
  do c <- tri_expand i3 e3;
  assert (zlen a =? zlen b) && (zlen b =? zlen c);
  do out <- broadcast_three a b c;
  do bools <- foldM (fun bs d => pyset bs d true) sumdim (map (fun _ => false) out);
  foldM (fun o i => do b <- pyidx bools i; if b : bool then reduce_along_dim o i false else Some o)
        (rev (zrange 0 (zlen out))) out.
(** aten.scaled_dot_product_attention, l.1501-1505: the query list itself is updated. *)
Definition sdpa (query key value : list Z) : option (list Z) :=
  do v <- pyidx value (-1);
  do out <- pyset query (-1) v;
  do q0 <- pyidx out 0; do k0 <- pyidx key 0; do v0 <- pyidx value 0;
  do b <- broadcast_three [q0] [k0] [v0];
  do b0 <- pyidx b 0;
  pyset out 0 b0.
(** embedding, lib l.816-912: aten.embedding, l.986. *)
Definition embedding (weight indices : list Z) : option (list Z) :=
  assert zlen weight =? 2;
  if zlen indices =? 1 then index_select weight 0 indices
  else do s <- unary indices; do w <- pyidx weight 1; Some (s ++ [w]).
(** _embedding_bag_helper, l.22-54; [psw] and [pad] tell whether the operand is given.
    aten.embedding_bag.padding_idx, l.2267; aten._embedding_bag, l.2271, always gives [pad]. *)
Definition embedding_bag (weight indices offsets : list Z) (last : bool) (mode : Z) (psw pad : bool)
  : option (list Z * list Z * list Z * list Z) :=
  assert zlen weight =? 2;
  assert zlen indices =? 1;
  assert zlen offsets =? 1;
  do o <- pyidx offsets 0;
  let d0 := if last then o - 1 else o in
  do d1 <- pyidx weight 1;
  let bag := [d0; d1] in
  do o2b <- (if mode =? 1 then Some [0]
             else if negb psw && negb pad then Some [0] else unary indices);
  do size <- unary offsets;
  do mx <- (if mode =? 2 then unary bag else unary offsets);
  Some (bag, o2b, size, mx).
(** aten.one_hot, l.789. *)
Definition one_hot (self : list Z) (n : Z) : option (list Z) :=
  assert negb (n =? -1); Some (self ++ [n]).
(** aten.linalg_det, l.256-261; aten._linalg_det, l.263; aten.linalg_slogdet, l.269-275. *)
Definition linalg_det (a : list Z) : option (list Z) :=
  assert (zlen a =? 2) || (zlen a =? 3);
  do x <- pyidx a (-1); do y <- pyidx a (-2); assert x =? y;
  if zlen a =? 3 then Some (slice_to a 1) else Some [].
Definition linalg_det3 (a : list Z) : option (list Z * list Z * list Z) :=
  do d <- linalg_det a; Some (d, a, slice_to a (-1)).
Definition slogdet (a : list Z) : option (list Z * list Z) :=
  assert (zlen a =? 2) || (zlen a =? 3);
  do x <- pyidx a (-1); do y <- pyidx a (-2); assert x =? y;
  if zlen a =? 3 then Some (slice_to a 1, slice_to a 1) else Some ([], []).
(** aten.linalg_cross, l.563-567. *)
Definition linalg_cross (self other : list Z) : option (list Z) :=
  assert zlen self =? zlen other;
  do _ <- mapM (fun i => do a <- pyidx self i; do b <- pyidx other i;
                         assert (a =? b) || (a =? 1) || (b =? 1); Some tt)
               (zrange 0 (zlen self));
  broadcast self other.
(** aten.trace, l.756; aten.kthvalue, l.573-575; aten.channel_shuffle, l.871. *)
Definition trace (self : list Z) : option (list Z) := assert zlen self =? 2; Some [].
Definition kthvalue (self : list Z) (dim : Z) (keep : bool) : option (list Z * list Z) :=
  do s <- argmax self (Some dim) keep; Some (s, s).
Definition channel_shuffle (self : list Z) : option (list Z) := assert 3 <=? zlen self; Some self.

(** ** Sliding windows *)

(** aten.unfold, l.6460-6483. *)
Definition unfold_shape (self : list Z) (dimension size step : Z) : option (list Z) :=
  if zlen self =? 0 then
    assert dimension =? 0; assert size <=? 1; Some [size]
  else
    let dim := if dimension <? 0 then dimension + zlen self else dimension in
    assert (0 <=? dim) && (dim <? zlen self);
    do n <- pyidx self dim;
    assert size <=? n;
    do q <- pydiv (n - size) step;
    do out <- unary self;
    do out <- pyset out dim (q + 1);
    Some (out ++ [size]).
(** aten.stft, l.2624-2648, [center = None]; aten.stft.center, l.2653-2681. [onesided] and
    [return_complex] are optional booleans. *)
Definition stft (self : list Z) (n_fft : Z) (hop : option Z) (center onesided return_complex : option bool)
  (is_center : bool) : option (list Z) :=
  assert (zlen self =? 1) || (zlen self =? 2);
  do batch <- (if zlen self =? 1 then Some None else option_map Some (pyidx self 0));
  do len <- (if zlen self =? 1 then pyidx self 0 else pyidx self 1);
  let hop := match hop with None => n_fft / 4 | Some h => h end in
  assert (0 <? n_fft) && (n_fft <=? len);
  assert 0 <? hop;
  let out := match batch with Some b => [b] | None => [] end in
  let out := out ++ [match onesided with
                     | None | Some true => n_fft / 2 + 1
                     | Some false => n_fft end] in
  let out := out ++ [if is_center
                     then match center with
                          | None | Some true => 1 + len / hop
                          | Some false => 1 + (len - n_fft) / hop end
                     else 1 + (len - n_fft) / hop] in
  Some (out ++ match return_complex with Some false => [2] | _ => [] end).
(** aten.fft_rfft, l.2612-2619. *)
Definition fft_rfft (self : list Z) (dim : Z) : option (list Z) :=
  let dim := if dim <? 0 then dim + zlen self else dim in
  assert (0 <=? dim) && (dim <? zlen self);
  do n <- pyidx self dim;
  pyset self dim (n / 2 + 1).
(** aten.col2im, l.1956-1987. *)
Definition col2im (self out kernel dilation padding stride : list Z) : option (list Z) :=
  let ndim := zlen self in
  do ok <- (if ndim =? 2 then do x <- pyidx self 0; do y <- pyidx self 1;
                               Some (negb (x =? 0) && negb (y =? 0))
            else if ndim =? 3 then do x <- pyidx self 1; do y <- pyidx self 2;
                               Some (negb (x =? 0) && negb (y =? 0))
            else Some false);
  assert ok;
  assert zlen out =? 2; assert zlen kernel =? 2; assert zlen dilation =? 2;
  assert zlen stride =? 2; assert zlen padding =? 2;
  do k0 <- pyidx kernel 0; do k1 <- pyidx kernel 1; assert (0 <? k0) && (0 <? k1);
  do d0 <- pyidx dilation 0; do d1 <- pyidx dilation 1; assert (0 <? d0) && (0 <? d1);
  do p0 <- pyidx padding 0; do p1 <- pyidx padding 1; assert (0 <=? p0) && (0 <=? p1);
  do s0 <- pyidx stride 0; do s1 <- pyidx stride 1; assert (0 <? s0) && (0 <? s1);
  let batch_dim := if ndim =? 3 then 0 else -1 in
  do plane <- pyidx self (batch_dim + 1);
  do r <- pymod plane (k0 * k1); assert r =? 0;
  do len <- pyidx self (batch_dim + 2);
  do o0 <- pyidx out 0; do o1 <- pyidx out 1;
  do h <- pydiv (o0 + 2 * p0 - d0 * (k0 - 1) - 1) s0;
  do w <- pydiv (o1 + 2 * p1 - d1 * (k1 - 1) - 1) s1;
  assert len =? (h + 1) * (w + 1);
  do c <- pydiv plane (k0 * k1);
  do first <- (if batch_dim =? 0 then do n <- pyidx self 0; Some [n; c] else Some [c]);
  Some (first ++ out).

(** ** Resizing and regions *)

(** Python's [int] of a number. *)
Definition qtrunc (q : Q) : Z := if Qle_bool 0 q then Qfloor q else Qceiling q.
Definition zmulq (z : Z) (q : Q) : Q := (inject_Z z * q)%Q.
(** aten.__interpolate.size_list_scale_list, l.439-455. *)
Definition interpolate (input : list Z) (size : option (list Z)) (scale : option (list Q)) : option (list Z) :=
  do n <- pyidx input 0; do c <- pyidx input 1;
  match size, scale with
  | Some sz, None => do h <- pyidx sz 0; do w <- pyidx sz 1; Some [n; c; h; w]
  | Some _, Some _ => None
  | None, Some sf =>
      do f0 <- pyidx sf 0; do h <- pyidx input 2;
      do f1 <- pyidx sf 1; do w <- pyidx input 3;
      Some [n; c; qtrunc (zmulq h f0); qtrunc (zmulq w f1)]
  | None, None => None
  end.
(** aten.upsample_nearest1d, l.2758; aten.upsample_nearest2d, l.2778; aten.upsample_bilinear2d, l.2798. *)
Definition upsample1d (self out : list Z) : option (list Z) :=
  do n <- pyidx self 0; do c <- pyidx self 1; do w <- pyidx out 0; Some [n; c; w].
Definition upsample2d (self out : list Z) : option (list Z) :=
  do n <- pyidx self 0; do c <- pyidx self 1; do h <- pyidx out 0; do w <- pyidx out 1; Some [n; c; h; w].
(** aten.upsample_nearest1d.vec, l.2766-2773. *)
Definition upsample1d_vec (input : list Z) (size : option (list Z)) (scale : option (list Q)) : option (list Z) :=
  match size, scale with
  | Some sz, None => do n <- pyidx input 0; do c <- pyidx input 1; do w <- pyidx sz 0; Some [n; c; w]
  | None, Some sf =>
      do n <- pyidx input 0; do c <- pyidx input 1; do w <- pyidx input 2; do f <- pyidx sf 0;
      Some [n; c; qtrunc (zmulq w f)]
  | _, _ => None
  end.
(** aten.upsample_nearest2d.vec, l.2786-2793; aten.upsample_bilinear2d.vec, l.2806. *)
Definition upsample2d_vec (input : list Z) (size : option (list Z)) (scale : option (list Q)) : option (list Z) :=
  match size, scale with
  | Some sz, None =>
      do n <- pyidx input 0; do c <- pyidx input 1; do h <- pyidx sz 0; do w <- pyidx sz 1; Some [n; c; h; w]
  | None, Some sf =>
      do n <- pyidx input 0; do c <- pyidx input 1;
      do h <- pyidx input 2; do f0 <- pyidx sf 0; do w <- pyidx input 3; do f1 <- pyidx sf 1;
      Some [n; c; qtrunc (zmulq h f0); qtrunc (zmulq w f1)]
  | _, _ => None
  end.
(** aten.grid_sampler, l.435. *)
Definition grid_sampler (input grid : list Z) : option (list Z) :=
  do n <- pyidx input 0; do c <- pyidx input 1; do h <- pyidx grid 1; do w <- pyidx grid 2; Some [n; c; h; w].
(** torchvision.roi_align, l.89; torchvision.roi_pool, l.95 returns it twice. *)
Definition roi_align (input rois : list Z) (h w : Z) : option (list Z) :=
  do k <- pyidx rois 0; do c <- pyidx input 1; Some [k; c; h; w].
Definition roi_pool (input rois : list Z) (h w : Z) : option (list Z * list Z) :=
  do o <- roi_align input rois h w; Some (o, o).
(** torchvision.deform_conv2d, l.2057. *)
Definition deform_conv2d (input weight offset : list Z) : option (list Z) :=
  do n <- pyidx input 0; do c <- pyidx weight 0; do h <- pyidx offset 2; do w <- pyidx offset 3; Some [n; c; h; w].

(** ** Ranges and tensors built from numbers *)

Definition qlt (a b : Q) : bool := negb (Qle_bool b a).
(** arange_end, lib l.133-151; arange_start, lib l.152-181; arange_start_step, lib l.182-225:
    aten.arange, l.1741; aten.arange.start, l.1738; aten.arange.start_step, l.1735. *)
Definition arange_end (end_ : Q) : option (list Z) :=
  if qlt end_ 0 then None else Some [Qceiling end_].
Definition arange_start (start end_ : Q) : option (list Z) :=
  if qlt end_ 0 then None else if qlt end_ start then None else Some [Qceiling (end_ - start)].
Definition arange_start_step (start end_ step : Q) : option (list Z) :=
  if Qeq_bool step 0 then None
  else if (if qlt step 0 then qlt start end_ else qlt end_ start) then None
  else Some [Qceiling ((end_ - start) / step)].
(** aten.linspace, l.1744; aten.eye, l.1513; aten.eye.m, l.1516; prims.iota, l.1884;
    aten.hann_window.periodic, l.343; aten._shape_as_tensor, l.1916;
    aten.multinomial, l.1698-1703. *)
Definition linspace (steps : Z) : list Z := [steps].
Definition eye (n : Z) : list Z := [n; n].
Definition eye_m (n m : Z) : list Z := [n; m].
Definition iota (length : Z) : list Z := [length].
Definition hann_window (length : Z) : list Z := [length].
Definition shape_as_tensor (self : list Z) : list Z := [zlen self].
Definition multinomial (self : list Z) (num : Z) : option (list Z) :=
  assert (zlen self =? 1) || (zlen self =? 2);
  if zlen self =? 1 then Some [num] else do r <- pyidx self 0; Some [r; num].

(** ** Losses and normalisations *)

(** nll_loss_forward, lib l.6325-6435: aten.nll_loss_forward, l.2347; cross_entropy_loss, lib
    l.6523-6632: aten.cross_entropy_loss, l.2364. Both begin with the same checks. *)
Definition nll_checks (self target : list Z) (weight : option (list Z)) : option unit :=
  assert (0 <? zlen self) && (zlen self <=? 2);
  assert zlen target <=? 1;
  do ok <- (if (zlen self =? 1) && (zlen target =? 0) then Some true
            else do a <- pyidx self 0; do b <- pyidx target 0; Some (a =? b));
  assert ok;
  do n <- pyidx self (-1);
  match weight with
  | None => Some tt
  | Some w =>
      do good <- (if zlen w =? 1 then do w0 <- pyidx w 0; Some (w0 =? n) else Some false);
      guard good
  end.
Definition nll_result (self : list Z) (reduction : Z) : option (list Z) :=
  if (reduction =? 0) && (zlen self =? 2) then do b <- pyidx self 0; Some [b] else Some [].
Definition nll_loss_forward (self target : list Z) (weight : option (list Z)) (reduction : Z)
  : option (list Z * list Z) :=
  do _ <- nll_checks self target weight;
  do r <- nll_result self reduction; Some (r, []).
Definition cross_entropy_loss (self target : list Z) (weight : option (list Z)) (reduction : Z)
  : option (list Z) :=
  do _ <- nll_checks self target weight; nll_result self reduction.
(** aten.kl_div, l.2333-2339. *)
Definition kl_div (self : list Z) (reduction : Z) : option (list Z) :=
  if reduction =? 0 then unary self
  else if (reduction =? 1) || (reduction =? 2) then Some [] else None.
(** aten.mse_loss, l.2354; aten.l1_loss, l.2359; aten.binary_cross_entropy_with_logits, l.2367-2373;
    aten.poisson_nll_loss, l.2380-2383. *)
Definition pointwise_loss (self : list Z) (reduction : Z) : option (list Z) :=
  if reduction =? 0 then unary self else Some [].
Definition poisson_nll_loss (input : list Z) (reduction : Z) : option (list Z) :=
  if reduction =? 0 then Some input else Some [].
(** native_layer_norm, lib l.6436-6480: aten.native_layer_norm, l.2388. *)
Definition native_layer_norm (input normalized : list Z) : option (list Z * list Z * list Z) :=
  let n := zlen input - zlen normalized in
  assert 0 <=? n;
  do pre <- mapM (pyidx input) (zrange 0 n);
  let stat := pre ++ map (fun _ => 1) (zrange n (zlen input)) in
  do out <- unary input;
  Some (out, stat, stat).
(** native_batch_norm, lib l.6482-6504: aten.native_batch_norm, l.2401. *)
Definition native_batch_norm (input : list Z) (training : bool) : option (list Z * list Z * list Z) :=
  do stat <- (if training then do c <- pyidx input 1; Some [c] else Some [0]);
  do out <- unary input;
  Some (out, stat, stat).
(** batch_norm, lib l.3798-3809: aten.batch_norm, l.2163; aten.native_group_norm, l.2169. *)
Definition batch_norm (input : list Z) : option (list Z) := unary input.
Definition native_group_norm (input : list Z) (n group : Z) : option (list Z * list Z * list Z) :=
  do out <- unary input; Some (out, [n; group], [n; group]).

(** ** Further views, and shapes that depend on the data *)

(** aten.narrow, l.2223; aten.narrow.Tensor, l.2227-2229. *)
Definition narrow (self : list Z) (dim start length : Z) : option (list Z) :=
  slice_up self dim (Some start) (Some (start + length)) 1.
Definition narrow_Tensor (self : list Z) (dim length : Z) : option (list Z) := pyset self dim length.
(** aten.view_as_complex, l.2023-2028; aten.view_as_real, l.2045. *)
Definition view_as_complex (self : list Z) : option (list Z) := mapM (pyidx self) (zrange 0 (zlen self - 1)).
Definition view_as_real (self : list Z) : list Z := self ++ [2].
(** aten.fliplr, l.2152; aten.flipud, l.2156. *)
Definition fliplr (self : list Z) : option (list Z) := assert 2 <=? zlen self; Some self.
Definition flipud (self : list Z) : option (list Z) := assert 1 <=? zlen self; Some self.
(** aten.repeat_interleave.Tensor, l.1012-1014. *)
Definition repeat_interleave_Tensor (output_size : option Z) : option (list Z) :=
  do n <- output_size; Some [n].
(** aten.count_nonzero.dim_IntList, l.1632-1636. *)
Definition count_nonzero_dims (self dim : list Z) : option (list Z) :=
  do _ <- mapM (fun d => assert negb ((d <? - zlen self) || (zlen self <=? d)); Some tt) dim;
  sum_mean_dim self (Some dim) false.
(** broadcast_inplace, lib l.6821-6879. *)
Definition broadcast_inplace (a b : list Z) : option (list Z) :=
  if zlen a <? zlen b then None
  else
    do _ <- mapM (fun i =>
                    let j := zlen b - zlen a + i in
                    do x <- pyidx a i;
                    do y <- (if 0 <=? j then pyidx b j else Some 1);
                    if negb (x =? y) && negb (y =? 1) then None else Some tt) (zrange 0 (zlen a));
    unary a.
(** hacky_get_unknown_dimension_size, l.2690-2722, is an integer the compiler cannot know: [u].
    aten.bincount, l.2725; aten.nonzero, l.2728; aten.masked_select, l.2731;
    aten.nonzero_static, l.2734; torchvision.nms, l.102. *)
Definition bincount (u : Z) : list Z := [u].
Definition nonzero (u : Z) (self : list Z) : list Z := [u; zlen self].
Definition masked_select (u : Z) : list Z := [u].
Definition nonzero_static (self : list Z) (size : Z) : list Z := [size; zlen self].
Definition nms (u : Z) (dets : list Z) : list Z := [u; zlen dets].
