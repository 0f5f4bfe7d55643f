(** What the dtype functions should compute. *)
From Coq Require Import ZArith Bool String List.
From Verif Require Import Prelude DtypeModel DtypeSpec DtypeProps DtypeFnModel.
Import ListNotations.
Open Scope Z_scope.

(** Kinds of dtypes. *)
Definition integral (t : scalar_type) : Prop := In t [Bool; Byte; Char; Short; Int; Long].
Definition floating (t : scalar_type) : Prop := In t [Half; BFloat16; Float; Double].
Definition complex (t : scalar_type) : Prop := In t [ComplexFloat; ComplexDouble].
(** The dtype of a function to the reals or complex numbers: integers become the default dtype. *)
Definition float_result (t r : scalar_type) : Prop := (integral t /\ r = Float) \/ (~ integral t /\ r = t).
(** The dtype of the absolute value. *)
Definition real_part (t r : scalar_type) : Prop :=
  (t = ComplexFloat /\ r = Float) \/ (t = ComplexDouble /\ r = Double) \/ (~ complex t /\ r = t).
(** The dtype of the complex numbers with these parts. *)
Inductive complex_over : scalar_type -> scalar_type -> Prop :=
| c_half : complex_over Half ComplexHalf | c_float : complex_over Float ComplexFloat | c_double : complex_over Double ComplexDouble.
(** Promotion of a list of operands, as C50 states it. *)
Definition promoted (l : list (option Z * scalar_type)) (r : scalar_type) : Prop :=
  exists dims zeros numbers low, lub_opt (dim_types l) dims /\ lub_opt (zero_types l) zeros /\
    lub_opt (map (number_dtype (only_numbers l)) (number_types l)) numbers /\
    outranks_opt zeros numbers low /\ outranks_opt dims low (Some r).
(** Operands: tensors with a rank and an ordinary dtype; integers and floating point numbers. *)
Definition ok (a : rd) : Prop := 0 <= fst a /\ ordinary (snd a).
Definition tensor (a : rd) : option Z * scalar_type := (Some (fst a), snd a).
Definition int_number : option Z * scalar_type := (None, Long).
Definition float_number : option Z * scalar_type := (None, Double).
Inductive number_is : number -> option Z * scalar_type -> Prop :=
| is_int : number_is NInt int_number | is_float : number_is NFloat float_number.

(** ** The operators *)
Open Scope string_scope.
Open Scope list_scope.
(** Operators that compute in floating point. *)
Definition transcendental : list string := [
    "aten.cosh"; "aten.acosh"; "aten.tanh"; "aten.exp"; "aten.exp2"; "aten.expm1"; "aten.special_expm1"; "aten.sin";
    "aten.sinh"; "aten.asin"; "aten.asinh"; "aten.cos"; "aten.acos"; "aten.sigmoid"; "aten.reciprocal"; "aten.sqrt";
    "aten.log"; "aten.log2"; "aten.log10"; "aten.log1p"; "aten.logit"; "aten.rsqrt"; "aten.erf"; "aten.deg2rad"; "aten.tan";
    "aten.atan"; "aten.atanh" ].
(** Operators on two tensors whose result has the promoted dtype. *)
Definition binary_promoting : list string := [
    "aten.clamp_min.Tensor"; "aten.gelu_backward"; "aten.elu_backward"; "aten.hardtanh_backward"; "aten.softplus_backward";
    "aten.leaky_relu_backward"; "aten.rrelu_with_noise_backward"; "aten.tanh_backward"; "aten.sigmoid_backward";
    "aten.__and__.Tensor"; "aten.__or__.Tensor"; "aten.add.Tensor"; "aten.bitwise_and.Tensor"; "aten.bitwise_or.Tensor";
    "aten.bitwise_xor.Tensor"; "aten.bitwise_right_shift.Tensor"; "aten.bitwise_left_shift.Tensor"; "aten.maximum";
    "aten.minimum"; "aten.fmax"; "aten.fmin"; "aten.outer"; "aten.kl_div"; "aten.mul.Tensor"; "aten.mv"; "aten.sub.Tensor";
    "aten.lerp.Scalar"; "aten.fmod.Tensor"; "aten.remainder.Tensor"; "aten.heaviside"; "aten.min.other"; "aten.max.other";
    "aten.linear" ].
(** The same on three tensors. *)
Definition ternary_promoting : list string := [
    "aten.addmm"; "aten.addbmm"; "aten.lerp.Tensor"; "aten.addcmul"; "aten.addcdiv"; "aten.bilinear"; "aten._trilinear" ].
(** The same on a list of tensors. *)
Definition list_promoting : list string := [
    "aten.cat"; "aten.hstack"; "aten.column_stack"; "aten.einsum" ].
(** The same on a tensor and a number. *)
Definition scalar_promoting : list string := [
    "aten.rsub.Scalar"; "aten.__and__.Scalar"; "aten.bitwise_and.Scalar"; "aten.add.Scalar"; "aten.sub.Scalar";
    "aten.mul.Scalar"; "aten.fmod.Scalar"; "aten.pow.Tensor_Scalar"; "aten.remainder.Scalar" ].
(** Sums and products. *)
Definition sums : list string := [
    "aten.cumsum"; "aten.cumprod"; "aten.sum"; "aten.prod"; "aten.sum.dim_IntList"; "aten.prod.dim_int" ].
(** Means. *)
Definition means : list string := [
    "aten.mean.dim"; "aten.mean" ].
(** Deviations and variances. *)
Definition deviations : list string := [
    "aten.std"; "aten.std.dim"; "aten.std.correction"; "aten.var"; "aten.var.dim"; "aten.var.correction"; "prims.var" ].
(** Sums and products of prims. *)
Definition prims_sums : list string := [
    "prims.sum"; "prims.prod" ].
(** Any and all. *)
Definition any_all : list string := [
    "aten.all"; "aten.any"; "aten.any.dim"; "aten.any.dims"; "aten.all.dim" ].
(** Norms with an optional dtype. *)
Definition norms : list string := [
    "aten.linalg_vector_norm"; "aten.linalg_norm" ].
(** Values and where they are. *)
Definition with_indices : list string := [
    "aten.kthvalue"; "aten.max_pool1d_with_indices"; "aten.max_pool2d_with_indices"; "aten.max_pool3d_with_indices";
    "aten.adaptive_max_pool1d"; "aten.adaptive_max_pool2d"; "aten.adaptive_max_pool3d"; "aten.max.dim"; "aten.min.dim" ].
(** Variance and mean. *)
Definition var_means : list string := [
    "aten.var_mean.correction"; "aten.var_mean" ].
(** Absolute values. *)
Definition absolutes : list string := [
    "aten.abs"; "aten.absolute" ].
(** New tensors, floating point unless a dtype is given. *)
Definition float_creators : list string := [
    "aten.rand"; "aten.tensor.float"; "aten.zeros"; "aten.eye"; "aten.eye.m"; "aten.ones"; "aten.empty.memory_format";
    "aten.empty_strided"; "aten.linspace"; "quantized_decomposed.dequantize_per_tensor";
    "quantized_decomposed.dequantize_per_channel" ].
(** The same, integral unless a dtype is given. *)
Definition int_creators : list string := [
    "aten.tensor.int"; "aten.triu_indices"; "aten.tril_indices" ].
(** Random normal numbers. *)
Definition normal_creators : list string := [
    "aten.randn"; "aten.randn.generator" ].
(** Ranges. *)
Definition ranges : list string := [
    "aten.arange"; "aten.arange.start"; "aten.arange.start_step" ].
(** Tensors like another one unless a dtype is given. *)
Definition likes : list string := [
    "aten.to.prim_Device"; "aten._scaled_mm"; "aten._scaled_mm_v2"; "aten.zeros_like"; "aten.ones_like"; "aten.empty_like";
    "aten.full_like"; "aten.new_full"; "aten.new_zeros"; "aten.new_ones"; "aten.new_empty"; "aten.new_empty_strided";
    "aten.rand_like"; "aten._to_copy"; "aten.to.dtype_layout"; "aten.softmax.int"; "aten._safe_softmax";
    "aten.log_softmax.int" ].
(** Conversions to a given dtype. *)
Definition conversions : list string := [
    "aten._log_softmax_backward_data"; "aten._softmax_backward_data"; "aten.to.dtype"; "prims.convert_element_type";
    "aten.to.device"; "aten.quantize_per_channel"; "aten.quantize_per_tensor"; "quantized_decomposed.quantize_per_tensor";
    "quantized_decomposed.quantize_per_channel" ].
(** Conversions to the dtype of another tensor. *)
Definition conversions_like : list string := [
    "aten.to.other"; "aten.type_as" ].
(** Tensors made of one number. *)
Definition number_tensors : list string := [
    "prim.abs.Scalar"; "prim.NumToTensor.Scalar" ].
(** Comparisons, logical operators and tests. *)
Definition predicates : list string := [
    "aten.isfinite"; "aten.eq.Scalar"; "aten.eq.Tensor"; "aten.ge.Scalar"; "aten.gt.Scalar"; "aten.gt.Tensor";
    "aten.ge.Tensor"; "aten.le.Scalar"; "aten.logical_and"; "aten.logical_not"; "aten.isclose"; "aten.logical_or";
    "aten.logical_xor"; "aten.lt.Scalar"; "aten.lt.Tensor"; "aten.le.Tensor"; "aten.isnan"; "aten.isinf"; "aten.ne.Tensor";
    "aten.ne.Scalar"; "aten.signbit" ].
(** Tests defined for real numbers only. *)
Definition infinity_tests : list string := [
    "aten.isneginf"; "aten.isposinf" ].
(** Operators that return indices or counts. *)
Definition index_ops : list string := [
    "aten.multinomial"; "aten.nonzero"; "aten.nonzero_static"; "aten.argmax"; "aten.argmin"; "aten.count_nonzero";
    "aten._cast_Long"; "aten._shape_as_tensor" ].
(** Operators that return float32. *)
Definition to_float : list string := [
    "aten._cast_Float"; "aten.dequantize.self"; "aten.dequantize.tensor" ].
(** Operators that keep the dtype of their first operand. *)
Definition keeping : list string := [
    "prims.split_dim"; "aten.adaptive_avg_pool1d"; "aten.pixel_shuffle"; "aten.pixel_unshuffle"; "aten.channel_shuffle";
    "aten.adaptive_avg_pool2d"; "aten.adaptive_avg_pool3d"; "aten.batch_norm"; "aten.instance_norm"; "aten.bernoulli_.float";
    "onnx.rotary_embedding"; "aten.bernoulli"; "aten.bernoulli.Tensor"; "aten.bitwise_not"; "aten.broadcast_to"; "aten.ceil";
    "aten.trunc"; "aten.fix"; "aten.clone"; "aten.constant_pad_nd"; "aten.grid_sampler";
    "aten.__interpolate.size_list_scale_list"; "aten.reflection_pad2d"; "aten.contiguous"; "aten.copy"; "aten.cpu";
    "aten.logcumsumexp"; "aten.detach"; "aten.dropout"; "aten.expand_as"; "aten.expand"; "aten.fill.Scalar";
    "aten.fill.Tensor"; "aten.flatten.using_ints"; "aten.unflatten.int"; "aten.flip"; "aten.fliplr"; "aten.flipud";
    "aten.sign"; "aten.sgn"; "aten.floor"; "aten.gather"; "aten.gelu"; "aten.hardsigmoid"; "aten.hardswish";
    "aten.index_put.hacked_twin"; "aten._unsafe_index_put.hacked_twin"; "aten._index_put_impl"; "aten.index_put";
    "aten.index_select"; "aten.index.Tensor_hacked_twin"; "aten.index.Tensor"; "aten.lift_fresh_copy";
    "aten.masked_fill.Scalar"; "aten.masked_fill_.Scalar"; "aten.masked_fill.Tensor"; "aten.masked_select";
    "aten.max_pool1d"; "aten.max_pool2d"; "aten.max_pool3d"; "aten.max_unpool3d"; "aten.max_unpool2d"; "aten.mish";
    "aten.narrow"; "aten.narrow.Tensor"; "aten.numpy_T"; "aten.pad"; "aten.permute"; "aten.celu"; "aten.rrelu"; "aten.relu";
    "aten.repeat"; "aten.repeat_interleave.self_int"; "aten.repeat_interleave.Tensor"; "aten.tile"; "aten._reshape_alias";
    "aten.reshape"; "aten.reshape_as"; "aten.resize_"; "aten.roll"; "aten.round"; "aten.round.decimals"; "aten.glu";
    "aten.scatter_reduce.two"; "aten.select.int"; "aten.select_scatter"; "aten.scatter.src"; "aten.scatter.value";
    "aten.scatter_add"; "aten.masked_scatter"; "aten.silu"; "aten.slice_scatter"; "aten.slice.Tensor"; "aten.as_strided";
    "aten.squeeze.dim"; "aten.squeeze"; "aten.threshold"; "aten.t"; "aten.transpose.int"; "aten.triu"; "aten.tril";
    "aten.diagonal"; "aten.uniform"; "aten.exponential"; "aten._unsafe_view"; "aten.unsqueeze";
    "aten.upsample_nearest2d_backward"; "aten.upsample_nearest1d"; "aten.upsample_nearest1d.vec"; "aten.upsample_nearest2d";
    "aten.upsample_nearest2d.vec"; "aten.upsample_bilinear2d"; "aten.upsample_bilinear2d.vec"; "aten.view"; "aten.zero";
    "aten.zero_"; "aten.conv2d"; "aten.conv3d"; "aten.conv_transpose1d"; "aten.conv_transpose2d.input";
    "aten.conv_transpose3d.input"; "aten.convolution"; "aten.col2im"; "aten.nan_to_num"; "aten.min"; "aten.max"; "aten.amax";
    "aten.amin"; "aten.binary_cross_entropy_with_logits"; "aten.diag_embed"; "aten.diag"; "aten.rot90"; "aten.atleast_1d";
    "aten.atleast_2d"; "aten.embedding"; "prims.squeeze"; "prims.collapse"; "aten.unfold" ].
(** Operators whose two operands must have the same dtype, which they keep. *)
Definition equal_dtypes : list string := [
    "aten.prelu"; "aten.max_pool2d_with_indices_backward"; "aten.bmm"; "aten.dot" ].
(** Embedding bags. *)
Definition embedding_bags : list string := [
    "aten._embedding_bag"; "aten.embedding_bag.padding_idx" ].
(** Operators that keep the dtype and reject uint8. *)
Definition not_uint8 : list string := [
    "aten.avg_pool1d"; "aten.avg_pool2d"; "aten.avg_pool3d" ].
(** The same rejecting booleans and integers. *)
Definition not_integer : list string := [
    "aten.group_norm"; "aten.linalg_det"; "aten.rms_norm"; "aten.scaled_dot_product_attention"; "aten.renorm";
    "aten.normal_functional" ].
(** The same rejecting booleans. *)
Definition not_bool : list string := [
    "aten.log_sigmoid"; "aten.neg"; "aten.relu6"; "aten.frac" ].
(** Operators that turn booleans into int64 and keep other dtypes. *)
Definition bool_to_int64 : list string := [
    "aten.hardshrink"; "aten.clamp_max"; "aten.clamp_min"; "aten.clamp"; "aten.square" ].
(** Simulated quantization. *)
Definition fake_quantizers : list string := [
    "aten.fake_quantize_per_tensor_affine.tensor_qparams"; "aten.fake_quantize_per_channel_affine" ].
(** Simulated quantization with a mask. *)
Definition fake_quantizers_mask : list string := [
    "aten._fake_quantize_per_tensor_affine_cachemask_tensor_qparams"; "aten.fake_quantize_per_channel_affine_cachemask" ].
(** Losses. *)
Definition losses : list string := [
    "aten.mse_loss"; "aten.l1_loss" ].
(** Convolutions that check their operands. *)
Definition convolutions : list string := [
    "aten._convolution"; "aten.conv1d"; "aten.conv_tbc"; "aten._convolution.deprecated" ].
(** Division rounded down, and the gradient of threshold, which has the same rule. *)
Definition floor_divisions : list string := [
    "aten.floor_divide"; "aten.threshold_backward" ].
(** Fourier transforms. *)
Definition ffts : list string := [
    "aten.fft_fft"; "aten.fft_ifft" ].
(** Short time Fourier transforms. *)
Definition stfts : list string := [
    "aten.stft"; "aten.stft.center" ].
(** Quantized tensors from their integers. *)
Definition quantized_makers : list string := [
    "aten._make_per_channel_quantized_tensor"; "aten._make_per_tensor_quantized_tensor" ].
(** Floating point operators that keep the integers. *)
Definition softplus_like : list string := [
    "aten.softplus"; "prims.sqrt" ].
