(** What the shapes computed in ShapeMoreModel.v should be, from the documentation of the
    operators and independently of the functions that compute them. *)
From Coq Require Import ZArith QArith Bool String List.
From Verif Require Import Prelude ShapeCoreSpec.
Import ListNotations.
Open Scope string_scope.
Open Scope list_scope.
Open Scope Z_scope.

(** ** Operators that follow an operand *)

Inductive doc := SameAs (i : nat) | TwoSame (i j : nat) | ZeroDim | TwoZeroDim.
Definition doc_says (d : doc) (args outs : list (list Z)) : Prop :=
  match d with
  | SameAs i => exists s, nth_error args i = Some s /\ outs = [s]
  | TwoSame i j => exists s t, nth_error args i = Some s /\ nth_error args j = Some t /\ outs = [s; t]
  | ZeroDim => outs = [[]]
  | TwoZeroDim => outs = [[]; []]
  end.
(** Functions applied to every element. *)
Definition pointwise : list string := [
    "aten.rad2deg"; "aten.deg2rad"; "aten.sin"; "aten.sinh"; "aten.asin"; "aten.asinh"; "aten.cos";
    "aten.cosh"; "aten.acos"; "aten.acosh"; "aten.tan"; "aten.tanh"; "aten.atan"; "aten.atanh";
    "aten.erf"; "aten.sigmoid"; "aten.hardsigmoid"; "aten.softplus"; "aten.square"; "aten.hardswish";
    "aten.silu"; "aten.exp"; "aten.exp2"; "aten.expm1"; "aten.special_expm1"; "aten.hardtanh";
    "aten.sqrt"; "prims.sqrt"; "aten.neg"; "aten.floor"; "aten.sign"; "aten.sgn"; "aten.log2";
    "aten.log10"; "aten.log1p"; "aten.logit"; "aten.rsqrt"; "aten.abs"; "aten.absolute";
    "aten.reciprocal"; "aten.ceil"; "aten.trunc"; "aten.fix"; "aten.log"; "aten.log_sigmoid";
    "aten.hardshrink"; "aten.softshrink"; "aten.mish"; "aten.relu"; "aten.relu6"; "aten.round";
    "aten.round.decimals"; "aten.clamp"; "aten.clamp_min"; "aten.clamp_max"; "aten.gelu";
    "aten.bucketize.Tensor"; "aten.isnan"; "aten.isinf"; "aten.isneginf"; "aten.isposinf";
    "aten.isfinite"; "aten.leaky_relu"; "aten.elu"; "aten.prelu"; "aten.celu"; "aten.rrelu";
    "aten.rrelu_with_noise"; "aten.selu"; "aten.bitwise_not"; "aten.logical_not"; "aten.threshold";
    "aten.nan_to_num"; "aten.real"; "aten.imag"; "aten.frac"; "aten.signbit"]%string.
(** An element-wise operation with a number. *)
Definition with_number : list string := [
    "aten.rsub.Scalar"; "aten.eq.Scalar"; "aten.ne.Scalar"; "aten.gt.Scalar"; "aten.ge.Scalar";
    "aten.le.Scalar"; "aten.lt.Scalar"; "aten.add.Scalar"; "aten.sub.Scalar"; "aten.mul.Scalar";
    "aten.div.Scalar"; "aten.div.Scalar_mode"; "aten.remainder.Scalar"; "aten.__and__.Scalar";
    "aten.floor_divide.Scalar"; "aten.pow.Tensor_Scalar"; "aten.bitwise_and.Scalar";
    "aten.where.Scalar"]%string.
(** Gradients with respect to an element-wise function. *)
Definition gradients : list string := [
    "aten.tanh_backward"; "aten.sigmoid_backward"; "aten.gelu_backward"; "aten.elu_backward";
    "aten.leaky_relu_backward"; "aten.rrelu_with_noise_backward"; "aten.hardtanh_backward";
    "aten.softplus_backward"; "aten._log_softmax_backward_data"]%string.
(** Functions that keep every axis. *)
Definition along_an_axis : list string := [
    "aten.triu"; "aten.tril"; "aten._softmax"; "aten._safe_softmax"; "aten.softmax.int";
    "aten._log_softmax"; "aten.log_softmax.int"; "aten.layer_norm"; "aten.rms_norm";
    "aten.group_norm"; "aten.instance_norm"; "aten.renorm"; "aten.roll"; "aten.flip"; "aten.cumsum";
    "aten.cumprod"; "aten.logcumsumexp"; "aten.argsort"; "onnx.rotary_embedding"]%string.
(** Quantization element by element. *)
Definition quantization : list string := [
    "aten.fake_quantize_per_tensor_affine"; "aten.fake_quantize_per_tensor_affine.tensor_qparams";
    "aten.fake_quantize_per_channel_affine"; "aten.quantize_per_channel"; "aten.quantize_per_tensor";
    "aten.dequantize.self"; "aten.dequantize.tensor"; "aten.int_repr";
    "aten._make_per_channel_quantized_tensor"; "aten._make_per_tensor_quantized_tensor";
    "quantized_decomposed.quantize_per_tensor"; "quantized_decomposed.dequantize_per_tensor";
    "quantized_decomposed.quantize_per_channel"; "quantized_decomposed.dequantize_per_channel"]%string.
(** Conversions and copies. *)
Definition copies : list string := [
    "prims.convert_element_type"; "aten.to.dtype"; "aten.to.dtype_layout"; "aten.to.device";
    "aten.to.other"; "aten._cast_Float"; "aten._cast_Long"; "aten.type_as"; "aten.contiguous";
    "aten.clone"; "aten.detach"; "aten.lift_fresh_copy"; "aten._to_copy"; "prims.view_of"]%string.
(** A tensor with some of its elements replaced. *)
Definition updates : list string := [
    "aten.copy"; "aten._index_put_impl"; "aten.index_put"; "aten.index_put.hacked_twin";
    "aten.slice_scatter"; "aten.select_scatter"; "aten.scatter_reduce.two"; "aten.scatter.src";
    "aten.scatter.value"; "aten.scatter_add"; "aten.zero"; "aten.fill.Tensor"; "aten.fill.Scalar"]%string.
(** New or random contents with the shape of a tensor. *)
Definition likes : list string := [
    "aten.zeros_like"; "aten.ones_like"; "aten.empty_like"; "aten.full_like"; "aten.rand_like";
    "aten.randn_like"; "aten.uniform"; "aten.exponential"; "aten.bernoulli.float";
    "aten.bernoulli.Tensor"; "aten.bernoulli.p"; "aten.bernoulli"; "aten.normal_functional";
    "aten.dropout"]%string.
(** A new tensor of the given size. *)
Definition sized : list string := [
    "aten.zeros"; "aten.ones"; "aten.empty.memory_format"; "aten.empty_strided"; "aten.full";
    "aten.rand"; "aten.randn"; "aten.randn.generator"]%string.
(** The size is the second operand. *)
Definition sized_second : list string := [
    "aten.new_full"; "aten.new_zeros"; "aten.new_ones"; "aten.new_empty"; "aten.new_empty_strided";
    "aten.randint"; "aten.as_strided"; "aten.resize_"]%string.
(** The size is the third operand. *)
Definition sized_third : list string := [
    "aten.randint.low"; "aten.upsample_nearest2d_backward"]%string.
(** The result has the shape of the second operand. *)
Definition second_operand : list string := [
    "aten.pow.Scalar"; "aten._softmax_backward_data"; "aten.expand_as"; "aten.nll_loss_backward";
    "aten.max_pool2d_with_indices_backward"]%string.
(** One element for each index. *)
Definition third_operand : list string := [
    "aten.gather"]%string.
(** A result and a tensor of the same shape. *)
Definition with_mask : list string := [
    "aten.fake_quantize_per_tensor_affine_cachemask";
    "aten._fake_quantize_per_tensor_affine_cachemask_tensor_qparams";
    "aten.fake_quantize_per_channel_affine_cachemask"; "aten.native_dropout"; "aten.sort"]%string.
(** Two results, one for each of the first two operands. *)
Definition two_operands : list string := [
    "aten.rrelu_with_noise_functional"; "aten._weight_norm_interface"]%string.
(** One number. *)
Definition whole_tensor : list string := [
    "aten.any"; "aten.all"; "aten.min"; "aten.max"; "aten.sum"; "aten.prod"; "aten.mean"; "aten.var";
    "aten.std"; "prim.NumToTensor.Scalar"; "aten.tensor.float"; "aten.tensor.int";
    "aten.tensor.bool"; "aten.scalar_tensor"]%string.
(** Two numbers. *)
Definition two_numbers : list string := [
    "aten.var_mean"]%string.
(** What the documentation says of each family. *)
Definition documented : list (list string * doc) := [
   (pointwise, SameAs 0);
   (with_number, SameAs 0);
   (gradients, SameAs 0);
   (along_an_axis, SameAs 0);
   (quantization, SameAs 0);
   (copies, SameAs 0);
   (updates, SameAs 0);
   (likes, SameAs 0);
   (sized, SameAs 0);
   (sized_second, SameAs 1);
   (sized_third, SameAs 2);
   (second_operand, SameAs 1);
   (third_operand, SameAs 2);
   (with_mask, TwoSame 0 0);
   (two_operands, TwoSame 0 1);
   (whole_tensor, ZeroDim);
   (two_numbers, TwoZeroDim)].
(** Operators whose operands are broadcast together. *)
Definition broadcasting : list string := [
    "aten.clamp.Tensor"; "aten.clamp_min.Tensor"; "aten.remainder.Tensor"; "aten.fmod.Tensor";
    "aten.logaddexp"; "aten.logaddexp2"; "aten.polar"; "aten.masked_fill.Scalar";
    "aten.masked_fill.Tensor"; "aten.masked_scatter"]%string.
(** Operators whose result depends on more than the sizes of one operand. *)
Definition others : list string := [
    "aten.fft_fft"; "aten.fft_ifft"; "aten._unsafe_view"; "aten.dot"]%string.

(** Reductions: sizes of the axes in [ks] become 1 or disappear. *)
Definition reduced (keep : bool) (ks : list nat) (s out : list Z) : Prop :=
  if keep
  then length out = length s /\
       forall i, (i < length s)%nat -> (In i ks -> nth_error out i = Some 1) /\
                                       (~ In i ks -> nth_error out i = nth_error s i)
  else out = keep_axes (fun i => negb (existsb (Nat.eqb i) ks)) s.

(** ** Products, lookups and attention *)

Definition bias_fits (bias : option (list Z)) (out : list Z) : Prop :=
  match bias with None => True | Some b => broadcasts b out out end.
(** [x @ weight.T + bias]. *)
Inductive linear_shape : list Z -> list Z -> list Z -> Prop :=
| lin_matrix : forall batch k m, linear_shape (batch ++ [k]) [m; k] (batch ++ [m])
| lin_vector : forall batch k, linear_shape (batch ++ [k]) [k] batch.
(** [sum_ij x1_i A_kij x2_j + b_k]. *)
Inductive bilinear_shape : list Z -> list Z -> list Z -> option (list Z) -> list Z -> Prop :=
| bil : forall batch a b o bias, bias = None \/ bias = Some [o] ->
    bilinear_shape (batch ++ [a]) (batch ++ [b]) [o; a; b] bias (batch ++ [o]).
(** Axes of size one inserted one after the other; Python counts negative positions from the end. *)
Definition insert_position (n : nat) (d : Z) : nat :=
  Z.to_nat (if d <? 0 then Z.max 0 (d + Z.of_nat n) else d).
Inductive with_ones (bound : Z) : list Z -> list Z -> list Z -> Prop :=
| wo_nil : forall s, with_ones bound s [] s
| wo_cons : forall s d ds out, d <= bound ->
    with_ones bound (insert_at (insert_position (length s) d) 1 s) ds out -> with_ones bound s (d :: ds) out.
Definition is_size3 (a b c out : list Z) : Prop := exists ab, broadcasts a b ab /\ broadcasts ab c out.
Definition summed (r : nat) (dims : list Z) (k : nat) : bool :=
  existsb (fun d => (d =? Z.of_nat k) || (d =? Z.of_nat k - Z.of_nat r)) dims.
Definition trilinear_shape (i1 i2 i3 e1 e2 e3 sumdim out : list Z) : Prop :=
  exists a b c o,
    with_ones (zlen i1) i1 e1 a /\ with_ones (zlen i2) i2 e2 b /\ with_ones (zlen i3) i3 e3 c /\
    length a = length b /\ length b = length c /\ is_size3 a b c o /\
    Forall (fun d => exists k, denotes (length o) d k) sumdim /\
    out = keep_axes (fun k => negb (summed (length o) sumdim k)) o.
(** Attention: [query] is (batch, L, E), [key] (batch, S, E), [value] (batch, S, Ev); the result is
    (batch, L, Ev). *)
Definition attention_shape (query key value out : list Z) : Prop :=
  exists bq bk bv b L S E Ev,
    query = bq ++ [L; E] /\ key = bk ++ [S; E] /\ value = bv ++ [S; Ev] /\
    is_size3 bq bk bv b /\ out = b ++ [L; Ev].

(** ** Windows *)

(** The window starts [0, step, 2 step, ...] whose [size] elements lie within [n]. *)
Definition window_starts (n size step : Z) : list Z :=
  filter (fun i => (i mod step =? 0) && (i + size <=? n)) (zrange 0 (n + 1)).
Definition windows (n size step : Z) : Z := zlen (window_starts n size step).
(** Frequencies of a transform of [n] real values: k/n for 2k <= n. *)
Definition real_frequencies (n : Z) : Z := zlen (filter (fun k => 2 * k <=? n) (zrange 0 (n + 1))).

(** ** Ranges *)

(** [out] is the number of values [start, start+step, ...] before [end_]. *)
Definition before (step end_ x : Q) : Prop := if Qle_bool 0 step then (x < end_)%Q else (end_ < x)%Q.
Definition range_count (start end_ step : Q) (n : Z) : Prop :=
  0 <= n /\ forall i, 0 <= i -> (before step end_ (start + inject_Z i * step)%Q <-> i < n).

(** ** Data *)

(** Positions of the elements of a tensor of sizes [s] that satisfy [p]. *)
Definition positions (p : list Z -> bool) (s : list Z) : list (list Z) := filter p (all_indices s).
(** Shape of the table of those positions: one row for each, one column for each axis. *)
Definition position_table (p : list Z -> bool) (s : list Z) : list Z :=
  [zlen (positions p s); Z.of_nat (length s)].
