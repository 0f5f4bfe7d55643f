(** Decompositions of elementwise operations: lib/Dialect/Torch/Transforms/DecomposeComplexOps.cpp.

    Each definition computes one element of the tensor the pattern builds, from the elements of its
    operands and its scalar arguments. The operations it is built from (NumOps.v) are PyTorch's.
    Patterns that can refuse return an option ([None]: the operation is kept). Checks that a type has
    a dtype or sizes are not modelled; element types are floating-point unless said otherwise. A
    scalar turned into a tensor without dimensions (createRank0Tensor, Utils.cpp:688-699) is that
    scalar. Random numbers and the function exp are parameters. *)
From Coq Require Import ZArith QArith Bool List.
From Verif Require Import TensorOps NumOps.
Import ListNotations.
Open Scope Q_scope.

(** * Activation functions *)
(** DecomposeComplexOps.cpp:4193-4204 getRelu6Results; 4207-4221 DecomposeAtenRelu6Op. *)
Definition relu6_results (x : num) : num := minimum (relu x) (int 6).
Definition dec_relu6 (x : num) : num := relu6_results x.
(** DecomposeComplexOps.cpp:4226-4252 DecomposeAtenHardswishOp. *)
Definition dec_hardswish (x : num) : num :=
  let plus_three := add x (int 3) (int 1) in
  let divided := div (relu6_results plus_three) (int 6) in
  mul divided x.
(** DecomposeComplexOps.cpp:7608-7645 DecomposeAtenHardsigmoidOp. *)
Definition dec_hardsigmoid (x : num) : num :=
  let output := div (add x (int 3) (int 1)) (int 6) in
  let min_result := minimum (int 1) output in
  maximum (int 0) min_result.
(** DecomposeComplexOps.cpp:7649-7671 DecomposeAtenHardtanhOp. *)
Definition dec_hardtanh (x min_val max_val : num) : num := minimum max_val (maximum x min_val).
(** DecomposeComplexOps.cpp:4257-4288 DecomposeAtenLeakyReluOp. *)
Definition dec_leaky_relu (x negative_slope : num) : num :=
  let positive := maximum (int 0) x in
  let negative := minimum (int 0) x in
  add positive (mul negative negative_slope) (int 1).
(** DecomposeComplexOps.cpp:4293-4333 DecomposeAtenLeakyReluBackwardOp; the flag is None if it is not a constant. *)
Definition dec_leaky_relu_backward (grad x negative_slope : num) (self_is_result : option bool) : option num :=
  match self_is_result with
  | Some false =>
      let positive := maximum (int 0) grad in
      let negative := minimum (int 0) x in
      Some (add positive (mul negative negative_slope) (int 1))
  | _ => None
  end.
(** DecomposeComplexOps.cpp:4337-4386 DecomposeAtenRreluWithNoiseBackwardOp. The result is a product, or
    aten.leaky_relu_backward with this slope. *)
Inductive backward := Product (r : num) | LeakyBackward (grad x slope : num).
Definition dec_rrelu_with_noise_backward (grad x noise : num) (lower upper : option Q) (training self_is_result : option bool)
  : option backward :=
  match training, self_is_result, lower, upper with
  | Some training, Some false, Some lower, Some upper =>
      if training && qlt (1 # 1000000) (upper - lower) then Some (Product (mul grad noise))
      else Some (LeakyBackward grad x (Fin ((upper + lower) / 2)))
  | _, _, _, _ => None
  end.
(** DecomposeComplexOps.cpp:4421-4482 DecomposeAtenRreluOp; [sample] is the number drawn between lower and upper. *)
Definition dec_rrelu (x lower upper sample : num) (training : option bool) : option num :=
  match training with
  | Some training =>
      let alpha := if training then sample else div (plus lower upper) (int 2) in
      let positive := maximum (int 0) x in
      let scaled := mul x alpha in
      let negative := minimum (int 0) scaled in
      Some (add positive negative (int 1))
  | None => None
  end.
(** DecomposeComplexOps.cpp:4512-4585 DecomposeAtenRreluWithNoiseFunctionalOp: the result and the noise. *)
Definition dec_rrelu_with_noise_functional (x noise lower upper sample : num) (training : option bool) : option (num * num) :=
  match training with
  | Some training =>
      let alpha := if training then sample else div (plus lower upper) (int 2) in
      let positive := maximum (int 0) x in
      let scaled := mul x alpha in
      let noise := if training then select (le x (int 0)) alpha (int 1) else noise in
      let negative := minimum (int 0) scaled in
      Some (add positive negative (int 1), noise)
  | None => None
  end.
(** DecomposeComplexOps.cpp:4486-4508 DecomposeAtenRreluWithNoiseOp: the functional operation, not in
    training, and only its first result. *)
Definition dec_rrelu_with_noise (x noise lower upper sample : num) (training : option bool) : option num :=
  option_map fst (dec_rrelu_with_noise_functional x noise lower upper sample (Some false)).
(** DecomposeComplexOps.cpp:4390-4414 DecomposeAtenPreluOp, on elements and on tensors. *)
Definition prelu_element (x w : num) : num := select (lt x (int 0)) (mul x w) x.
Definition dec_prelu (input weight : tensor num) : option (tensor num) :=
  match map2 mul input weight with
  | Some product =>
      let less := map1 (fun x => lt x (int 0)) input in
      match map2 (fun (c : bool) x => (c, x)) less product with
      | Some chosen => map2 (fun cx y => select (fst cx) (snd cx) y) chosen input
      | None => None
      end
  | None => None
  end.
(** DecomposeComplexOps.cpp:4590-4628 DecomposeAtenCeluOp. *)
Definition dec_celu (e : Q -> Q) (x alpha : num) : num :=
  let positive := maximum (int 0) x in
  let scaled_input := div x alpha in
  let exp_m1 := sub (exp e scaled_input) (int 1) (int 1) in
  let negative := minimum (int 0) (mul exp_m1 alpha) in
  add positive negative (int 1).
(** DecomposeComplexOps.cpp:4692-4734 DecomposeAtenEluOp. *)
Definition dec_elu (e : Q -> Q) (x alpha scale input_scale : num) : num :=
  let positive := mul (maximum (int 0) x) scale in
  let scaled_min := mul (minimum (int 0) x) input_scale in
  let exp_m1 := sub (exp e scaled_min) (int 1) (int 1) in
  let negative := mul (mul exp_m1 scale) alpha in
  add positive negative (int 1).
(** DecomposeComplexOps.cpp:4739-4787 DecomposeAtenSeluOp; the two constants of lines 4752-4753. *)
Definition selu_scale : Q := 10507009873554804934193349852946 # 10000000000000000000000000000000.
Definition selu_alpha : Q := 16732632423543772848170429916717 # 10000000000000000000000000000000.
Definition dec_selu (e : Q -> Q) (x : num) : num :=
  let positive := maximum (int 0) x in
  let exp_m1 := sub (exp e (minimum (int 0) x)) (int 1) (int 1) in
  let negative := mul exp_m1 (Fin selu_alpha) in
  mul (add positive negative (int 1)) (Fin selu_scale).
(** DecomposeComplexOps.cpp:3295-3347 DecomposeAtenSoftshrinkOp; lambd is None if it is not a constant. *)
Definition dec_softshrink (x : num) (lambd : option Q) : option num :=
  match lambd with
  | Some lambd =>
      let neglambd := Fin (- lambd) in
      let poslambd := Fin lambd in
      let pos_mask := gt x poslambd in
      let neg_mask := lt x neglambd in
      let pos_value := sub x poslambd (int 1) in
      let neg_value := add x neglambd (int 1) in
      Some (select neg_mask neg_value (select pos_mask pos_value (int 0)))
  | None => None
  end.
(** DecomposeComplexOps.cpp:3356-3400 DecomposeAtenHardshrinkOp. *)
Definition dec_hardshrink (x : num) (lambd : option Q) : option num :=
  match lambd with
  | Some lambd => Some (select (lt x (Fin (- lambd))) x (select (gt x (Fin lambd)) x (int 0)))
  | None => None
  end.
(** DecomposeComplexOps.cpp:13054-13080 DecomposeAtenThresholdOp. *)
Definition dec_threshold (x threshold value : num) : num := select (gt x threshold) x value.

(** * Other operations *)
(** DecomposeComplexOps.cpp:1797-1808 DecomposeAtenIsnanOp. *)
Definition dec_isnan (x : num) : bool := ne x x.
(** DecomposeComplexOps.cpp:1811-1829 DecomposeAtenIsinfOp. *)
Definition dec_isinf (x : num) : bool := eq (abs x) PInf.
(** DecomposeComplexOps.cpp:1832-1845 DecomposeAtenIsneginfOp; 1849-1861 DecomposeAtenIsposinfOp. *)
Definition dec_isneginf (x : num) : bool := eq x MInf.
Definition dec_isposinf (x : num) : bool := eq x PInf.
(** DecomposeComplexOps.cpp:5660-5714 DecomposeAtenNanToNumOp; [largest] is the largest finite number of the element type. *)
Definition dec_nan_to_num (largest : Q) (x : num) (nan posinf neginf : option num) : num :=
  let nan := match nan with Some v => v | None => Fin 0 end in
  let posinf := match posinf with Some v => v | None => Fin largest end in
  let neginf := match neginf with Some v => v | None => Fin (- largest) end in
  let w := select (dec_isnan x) nan x in
  let w := select (dec_isposinf w) posinf w in
  select (dec_isneginf w) neginf w.
(** DecomposeComplexOps.cpp:5719-5737 DecomposeAtenMaskedFillScalarOp; 5741-5756 DecomposeAtenMaskedFillTensorOp. *)
Definition dec_masked_fill (x : num) (mask : bool) (value : num) : num := select mask value x.
(** DecomposeComplexOps.cpp:9761-9798 DecomposeAtenClampMinOp, DecomposeAtenClampMinTensorOp, DecomposeAtenClampMaxOp. *)
Definition dec_clamp_min (x lo : num) : num := clamp x (Some lo) None.
Definition dec_clamp_max (x hi : num) : num := clamp x None (Some hi).
(** DecomposeComplexOps.cpp:1279-1313 DecomposeAtenDeg2radOp, with llvm::numbers::pi for [pi]. *)
Definition dec_deg2rad (pi : Q) (x : num) : num := mul (div x (int 180)) (Fin pi).
(** DecomposeComplexOps.cpp:9803-9813 DecomposeAtenRad2degOp. *)
Definition dec_rad2deg (x : num) : num := mul x (Fin (180 / (314159 # 100000))).
(** DecomposeComplexOps.cpp:12246-12292 DecomposeAtenSgnOp. *)
Definition dec_sgn (x : num) : num :=
  let greater := gt x (int 0) in
  let less := lt x (int 0) in
  select less (int (-1)) (select greater (int 1) (int 0)).
(** DecomposeComplexOps.cpp:9883-9904 DecomposeAtenTruncOp; 9909-9917 DecomposeAtenFixOp. aten.sgn of NaN is 0. *)
Definition sgn (x : num) : num := if lt (int 0) x then int 1 else if lt x (int 0) then int (-1) else int 0.
Definition dec_trunc (x : num) : num := mul (sgn x) (floor (abs x)).
(** DecomposeComplexOps.cpp:9963-9978 DecomposeAtenFracOp: aten.trunc is decomposed as above. *)
Definition dec_frac (x : num) : num := sub x (dec_trunc x) (int 1).
(** DecomposeComplexOps.cpp:10038-10073 DecomposeAtenFmodTensorOp: tensors of floating-point numbers, and of
    integers, whose quotient is truncated (the lowerings of aten.div.Tensor to an integer type do so);
    a quotient by 0 is undefined. *)
Definition dec_fmod (x y : num) : num := sub x (mul (dec_trunc (div x y)) y) (int 1).
Definition dec_fmod_int (x y : Z) : option Z := if Z.eqb y 0 then None else Some (x - Z.quot x y * y)%Z.
(** DecomposeComplexOps.cpp:12305-12364 DecomposeAtenHeaviside. *)
Definition dec_heaviside (x v : num) : num :=
  let eq_zero := eq x (int 0) in
  let lt_zero := lt x (int 0) in
  let negative_or_nan := lt_zero || dec_isnan x in
  select eq_zero v (select negative_or_nan (int 0) (int 1)).
(** DecomposeComplexOps.cpp:13020-13049 DecomposeAtenFMaxMinOp. *)
Definition dec_fmaxmin (op : num -> num -> num) (x y : num) : num :=
  let normal := select (dec_isnan y) x (op x y) in
  select (dec_isnan x) y normal.
Definition dec_fmax := dec_fmaxmin maximum.
Definition dec_fmin := dec_fmaxmin minimum.
(** DecomposeComplexOps.cpp:13485-13529 DecomposeAtenRoundDecimalsOp; decimals is None if it is not a constant. *)
Definition dec_round_decimals (x : num) (decimals : option Z) : option num :=
  match decimals with
  | Some d =>
      let scale := Fin (Qpower 10 d) in
      let y := if Z.eqb d 0 then x else mul x scale in
      let y := round y in
      Some (if Z.eqb d 0 then y else div y scale)
  | None => None
  end.
(** DecomposeComplexOps.cpp:4633-4687 DecomposeAtenLerpScalarOp, DecomposeAtenLerpTensorOp. *)
Definition dec_lerp (start stop weight : num) : num :=
  let delta := sub stop start (int 1) in
  add start (mul delta weight) (int 1).
(** DecomposeComplexOps.cpp:7911-7925 DecomposeAtenAddCLikeOp, for aten.addcmul and aten.addcdiv. *)
Definition dec_addc (op : num -> num -> num) (x t1 t2 value : num) : num := add x (op t1 t2) value.
(** DecomposeComplexOps.cpp:2723-2749 DecomposeAtenTanhBackwardOp; createTensorSub has alpha 1. *)
Definition dec_tanh_backward (grad output : num) : num :=
  let square := mul output output in
  sub grad (mul square grad) (int 1).
(** DecomposeComplexOps.cpp:12886-12936 DecomposeAtenFakeQuantizePerTensorAffineOp: an element, and the
    sizes, the bounds being vectors of one element. *)
Definition dec_fake_quantize (x scale : num) (zero_point quant_min quant_max : Z) : num :=
  let rounded := round (div x scale) in
  let shifted := add rounded (int zero_point) (int 1) in
  let bounded := minimum (maximum shifted (int quant_min)) (int quant_max) in
  mul (sub bounded (int zero_point) (int 1)) scale.
Definition dec_fake_quantize_sizes (s : list Z) : option (list Z) :=
  match broadcast s [1%Z] with Some s => broadcast s [1%Z] | None => None end.
(** DecomposeComplexOps.cpp:9922-9957 DecomposeAtenSignbitOp: the replacement, and whether the pattern reports
    success. A floating-point number of [width] bits is its sign and its other bits. *)
Inductive element := FloatBits (width : Z) (sign : bool) (rest : Z) | IntValue (z : Z).
Definition view_as_int (width : Z) (sign : bool) (rest : Z) : Z := if sign then (rest - 2 ^ (width - 1))%Z else rest.
Definition dec_signbit (x : element) : option bool * bool :=
  match x with
  | FloatBits width sign rest => (Some (Z.ltb (view_as_int width sign rest) 0), true)
  | IntValue z => (Some (Z.ltb z 0), false)
  end.
(** DecomposeComplexOps.cpp:9983-10006 DecomposeAtenCopysignTensorOp, on a sign and a magnitude; [negative] is
    aten.signbit of the other operand. *)
Definition dec_copysign {A} (x : bool * A) (negative : bool) : bool * A :=
  let absolute := (false, snd x) in
  let negated := (negb (fst absolute), snd absolute) in
  select negative negated absolute.
