(** C109, C110: the decompositions of elementwise operations compute what PyTorch does. *)
From Coq Require Import ZArith QArith Qround Qabs Qpower Bool List Lia Lqa.
From Verif Require Import TensorOps NumOps DecElemModel DecElemSpec DecElemProofs.
Import ListNotations.
Open Scope Q_scope.

(** * C109: activation functions *)
Theorem C109_relu6_is_relu6 x : dec_relu6 x ~= torch_hardtanh x (int 0) (int 6).
Proof. exact (relu6_correct x). Qed.
Print Assumptions C109_relu6_is_relu6.
Theorem C109_hardtanh_is_hardtanh x lo hi : lo <= hi -> dec_hardtanh x (Fin lo) (Fin hi) ~= torch_hardtanh x (Fin lo) (Fin hi).
Proof. exact (hardtanh_correct x lo hi). Qed.
Print Assumptions C109_hardtanh_is_hardtanh.
Theorem C109_hardsigmoid_is_hardsigmoid x : dec_hardsigmoid x ~= torch_hardsigmoid x.
Proof. exact (hardsigmoid_correct x). Qed.
Print Assumptions C109_hardsigmoid_is_hardsigmoid.
Theorem C109_hardswish_is_hardswish x : x <> MInf -> dec_hardswish x ~= torch_hardswish x.
Proof. exact (hardswish_correct x). Qed.
Print Assumptions C109_hardswish_is_hardswish.
(** PyTorch's own kernel computes x * relu6(x + 3) / 6 and also gives NaN there; its documentation says 0. *)
Theorem C109_hardswish_of_minus_infinity_refuted : dec_hardswish MInf = NaN /\ torch_hardswish MInf = Fin 0.
Proof. split; reflexivity. Qed.
Print Assumptions C109_hardswish_of_minus_infinity_refuted.
Theorem C109_leaky_relu_is_leaky_relu x slope : dec_leaky_relu x (Fin slope) ~= torch_leaky_relu x (Fin slope).
Proof. exact (leaky_relu_correct x slope). Qed.
Print Assumptions C109_leaky_relu_is_leaky_relu.

(** The gradient of leaky_relu is computed as max(0, grad) + slope * min(0, x). *)
Theorem C109_leaky_relu_backward_partial grad x slope : 0 <= grad -> 0 < x ->
  exists r, dec_leaky_relu_backward (Fin grad) (Fin x) (Fin slope) (Some false) = Some r
            /\ r ~= torch_leaky_relu_backward (Fin grad) (Fin x) (Fin slope).
Proof. exact (leaky_relu_backward_ignores grad x slope). Qed.
Print Assumptions C109_leaky_relu_backward_partial.
Theorem C109_leaky_relu_backward_refuted :
  (exists r, dec_leaky_relu_backward (Fin (-1)) (Fin 1) (Fin (1 # 10)) (Some false) = Some r
     /\ r ~= Fin 0 /\ torch_leaky_relu_backward (Fin (-1)) (Fin 1) (Fin (1 # 10)) ~= Fin (-1))
  /\ (exists r, dec_leaky_relu_backward (Fin 1) (Fin (-5)) (Fin (1 # 10)) (Some false) = Some r
     /\ r ~= Fin (1 # 2) /\ torch_leaky_relu_backward (Fin 1) (Fin (-5)) (Fin (1 # 10)) ~= Fin (1 # 10)).
Proof. split; eexists; (split; [reflexivity|]); split; reflexivity. Qed.
Print Assumptions C109_leaky_relu_backward_refuted.
Theorem C109_leaky_relu_backward_of_the_result_is_kept grad x slope flag :
  dec_leaky_relu_backward grad x slope flag = None <-> flag <> Some false.
Proof. destruct flag as [[|]|]; cbn; split; congruence. Qed.
Print Assumptions C109_leaky_relu_backward_of_the_result_is_kept.

Theorem C109_rrelu_is_rrelu x lower upper sample (training : bool) :
  let slope := if training then sample else (lower + upper) / 2 in
  0 < slope \/ 0 <= slope /\ x <> PInf ->
  exists r, dec_rrelu x (Fin lower) (Fin upper) (Fin sample) (Some training) = Some r /\ r ~= torch_rrelu x lower upper sample training.
Proof. exact (rrelu_correct x lower upper sample training). Qed.
Print Assumptions C109_rrelu_is_rrelu.
Theorem C109_rrelu_of_a_negative_slope_refuted :
  (exists r, dec_rrelu (Fin 2) (Fin (-1)) (Fin (-1)) (Fin 0) (Some false) = Some r /\ r ~= Fin 0)
  /\ torch_rrelu (Fin 2) (-1) (-1) 0 false ~= Fin 2.
Proof. split; [eexists; split; [reflexivity|]|]; reflexivity. Qed.
Print Assumptions C109_rrelu_of_a_negative_slope_refuted.
Theorem C109_rrelu_of_infinity_refuted :
  dec_rrelu PInf (Fin 0) (Fin 0) (Fin 0) (Some false) = Some NaN /\ torch_rrelu PInf 0 0 0 false = PInf.
Proof. split; reflexivity. Qed.
Print Assumptions C109_rrelu_of_infinity_refuted.
Theorem C109_rrelu_noise x noise lower upper sample (training : bool) :
  exists r, dec_rrelu_with_noise_functional x noise lower upper sample (Some training) = Some (r, torch_rrelu_noise x noise sample training)
            /\ dec_rrelu x lower upper sample (Some training) = Some r.
Proof. exact (rrelu_noise x noise lower upper sample training). Qed.
Print Assumptions C109_rrelu_noise.
(** rrelu_with_noise never trains. *)
Theorem C109_rrelu_with_noise_partial x noise lower upper sample :
  dec_rrelu_with_noise x noise lower upper sample (Some false) = dec_rrelu x lower upper sample (Some false).
Proof. reflexivity. Qed.
Print Assumptions C109_rrelu_with_noise_partial.
Theorem C109_rrelu_with_noise_does_not_train_refuted :
  (exists r, dec_rrelu_with_noise (Fin (-1)) (Fin 0) (Fin (1 # 4)) (Fin (1 # 2)) (Fin (1 # 4)) (Some true) = Some r /\ r ~= Fin (- (3 # 8)))
  /\ torch_rrelu (Fin (-1)) (1 # 4) (1 # 2) (1 # 4) true ~= Fin (- (1 # 4)).
Proof. split; [eexists; split; [reflexivity|]|]; reflexivity. Qed.
Print Assumptions C109_rrelu_with_noise_does_not_train_refuted.
Theorem C109_rrelu_backward_is_rrelu_backward grad x noise lower upper (training : bool) :
  exists b, dec_rrelu_with_noise_backward grad x noise (Some lower) (Some upper) (Some training) (Some false) = Some b
    /\ match b with Product r => r | LeakyBackward g y s => torch_leaky_relu_backward g y s end
       ~= torch_rrelu_backward grad x noise lower upper training.
Proof. exact (rrelu_backward_correct grad x noise lower upper training). Qed.
Print Assumptions C109_rrelu_backward_is_rrelu_backward.

(** prelu with one weight for all channels, and of matrices. *)
Theorem C109_prelu_of_one_weight_is_prelu input weight w : sizes weight = [] \/ sizes weight = [1%Z] /\ sizes input <> [] ->
  (forall ix, elt weight ix = Fin w) ->
  exists r u, dec_prelu input weight = Some r /\ torch_prelu input weight = Some u /\ same_nums r u.
Proof. exact (prelu_one_weight input weight w). Qed.
Print Assumptions C109_prelu_of_one_weight_is_prelu.
Theorem C109_prelu_of_a_matrix_is_prelu input weight n c : sizes input = [n; c] -> sizes weight = [c] ->
  (forall ix, finite (elt weight ix)) ->
  exists r u, dec_prelu input weight = Some r /\ torch_prelu input weight = Some u /\ same_nums r u.
Proof. exact (prelu_matrix input weight n c). Qed.
Print Assumptions C109_prelu_of_a_matrix_is_prelu.
(** With more axes the weights go to the last axis, not to the channels. *)
Definition two_weights : tensor num := {| sizes := [2%Z]; elt := fun ix => int (1 + nth 0 ix 0%Z) |}.
Definition minus_ones (s : list Z) : tensor num := {| sizes := s; elt := fun _ => int (-1) |}.
Theorem C109_prelu_uses_the_wrong_axis_refuted :
  (exists r u, dec_prelu (minus_ones [1; 2; 2]%Z) two_weights = Some r /\ torch_prelu (minus_ones [1; 2; 2]%Z) two_weights = Some u
     /\ elt r [0; 0; 1]%Z ~= Fin (-2) /\ elt u [0; 0; 1]%Z ~= Fin (-1))
  /\ dec_prelu (minus_ones [1; 2; 3]%Z) two_weights = None /\ torch_prelu (minus_ones [1; 2; 3]%Z) two_weights <> None.
Proof.
  split; [|split; [reflexivity|discriminate]]. do 2 eexists. split; [reflexivity|]. split; [reflexivity|]. split; reflexivity.
Qed.
Print Assumptions C109_prelu_uses_the_wrong_axis_refuted.
Theorem C109_prelu_of_an_infinite_weight_refuted : prelu_element (Fin 0) PInf = Fin 0 /\ torch_prelu_element (Fin 0) PInf = NaN.
Proof. split; reflexivity. Qed.
Print Assumptions C109_prelu_of_an_infinite_weight_refuted.

Theorem C109_elu_is_elu e x alpha scale input_scale : exp_like e ->
  dec_elu e x (Fin alpha) (Fin scale) (Fin input_scale) ~= torch_elu e x alpha scale input_scale.
Proof. exact (elu_correct e x alpha scale input_scale). Qed.
Print Assumptions C109_elu_is_elu.
Theorem C109_celu_is_elu e x alpha : exp_like e -> ~ alpha == 0 -> dec_celu e x (Fin alpha) ~= torch_elu e x alpha 1 (/ alpha).
Proof. exact (celu_correct e x alpha). Qed.
Print Assumptions C109_celu_is_elu.
Theorem C109_selu_is_elu e x : exp_like e ->
  dec_selu e x ~= torch_elu e x (16732632423543772848170429916717 # 10000000000000000000000000000000)
                                (10507009873554804934193349852946 # 10000000000000000000000000000000) 1.
Proof. exact (selu_correct e x). Qed.
Print Assumptions C109_selu_is_elu.

(** softshrink is right above -lambd; below, lambd is subtracted once more instead of added. *)
Theorem C109_softshrink_partial x lambd : 0 <= lambd -> - lambd <= x ->
  exists r, dec_softshrink (Fin x) (Some lambd) = Some r /\ r ~= Fin (torch_softshrink x lambd).
Proof. exact (softshrink_above x lambd). Qed.
Print Assumptions C109_softshrink_partial.
Theorem C109_softshrink_of_negative_numbers_refuted x lambd : 0 < lambd -> x < - lambd ->
  exists r, dec_softshrink (Fin x) (Some lambd) = Some r /\ r ~= Fin (torch_softshrink x lambd - 2 * lambd).
Proof. exact (softshrink_below x lambd). Qed.
Print Assumptions C109_softshrink_of_negative_numbers_refuted.
Theorem C109_hardshrink_is_hardshrink x lambd : x <> NaN ->
  exists r, dec_hardshrink x (Some lambd) = Some r /\ r ~= torch_hardshrink x lambd.
Proof. exact (hardshrink_correct x lambd). Qed.
Print Assumptions C109_hardshrink_is_hardshrink.
Theorem C109_threshold_is_threshold x t v : x <> NaN -> t <> NaN -> dec_threshold x t v ~= torch_threshold x t v.
Proof. exact (threshold_correct x t v). Qed.
Print Assumptions C109_threshold_is_threshold.
(** A NaN is lost. *)
Theorem C109_nan_is_lost_refuted :
  dec_hardshrink NaN (Some (1 # 2)) = Some (Fin 0) /\ torch_hardshrink NaN (1 # 2) = NaN
  /\ forall t v, dec_threshold NaN t v = v /\ torch_threshold NaN t v = NaN.
Proof. split; [reflexivity|]. split; [reflexivity|]. intros t v. split; destruct t; reflexivity. Qed.
Print Assumptions C109_nan_is_lost_refuted.
Theorem C109_shrinks_need_a_constant x : dec_softshrink x None = None /\ dec_hardshrink x None = None.
Proof. split; reflexivity. Qed.
Print Assumptions C109_shrinks_need_a_constant.

(** A rational function that grows like exp. *)
Definition growth (q : Q) : Q := if qlt q 0 then / (1 - q) else 1 + q.
Lemma growth_exp_like : exp_like growth.
Proof.
  unfold exp_like, growth. split; [|split; [|split]].
  - intros a b H. destruct (qlt_spec a 0), (qlt_spec b 0); try (exfalso; lra); [|lra]. rewrite H. reflexivity.
  - reflexivity.
  - intros a H. destruct (qlt_spec a 0); [|exfalso; lra].
    apply Qlt_shift_inv_r; lra.
  - intros a H. destruct (qlt_spec a 0); [exfalso; lra|]. lra.
Qed.
Example C109_nonvacuous :
  dec_hardswish (Fin 1) ~= Fin (2 # 3) /\ dec_hardsigmoid (Fin 0) ~= Fin (1 # 2)
  /\ dec_leaky_relu (Fin (-4)) (Fin (1 # 100)) ~= Fin (- (1 # 25)) /\ exp_like growth
  /\ dec_elu growth (Fin (-1)) (Fin 2) (Fin 3) (Fin 1) ~= Fin (-3) /\ dec_celu growth (Fin (-2)) (Fin 2) ~= Fin (-1)
  /\ torch_softshrink (-2) (1 # 2) == - (3 # 2)
  /\ (exists r, dec_softshrink (Fin (-2)) (Some (1 # 2)) = Some r /\ r ~= Fin (- (5 # 2)))
  /\ (exists r, dec_prelu (minus_ones [3; 2]%Z) two_weights = Some r /\ elt r [2; 1]%Z ~= Fin (-2))
  /\ sizes two_weights = [2%Z] /\ (forall ix, finite (elt two_weights ix)).
Proof.
  split; [reflexivity|]. split; [reflexivity|]. split; [reflexivity|]. split; [exact growth_exp_like|].
  split; [reflexivity|]. split; [reflexivity|]. split; [reflexivity|].
  split; [eexists; split; reflexivity|]. split; [eexists; split; reflexivity|]. split; [reflexivity|].
  intros ix. eexists. reflexivity.
Qed.

(** * C110: tests of numbers, rounding, remainders and the rest *)
Theorem C110_isnan x : dec_isnan x = true <-> x = NaN.
Proof. exact (isnan_correct x). Qed.
Print Assumptions C110_isnan.
Theorem C110_isinf x : dec_isinf x = true <-> x = PInf \/ x = MInf.
Proof. exact (isinf_correct x). Qed.
Print Assumptions C110_isinf.
Theorem C110_isneginf x : dec_isneginf x = true <-> x = MInf.
Proof. exact (isneginf_correct x). Qed.
Print Assumptions C110_isneginf.
Theorem C110_isposinf x : dec_isposinf x = true <-> x = PInf.
Proof. exact (isposinf_correct x). Qed.
Print Assumptions C110_isposinf.
Theorem C110_nan_to_num_is_nan_to_num largest x nan posinf neginf :
  nan <> Some PInf -> nan <> Some MInf -> posinf <> Some MInf ->
  dec_nan_to_num largest x nan posinf neginf = torch_nan_to_num largest x nan posinf neginf.
Proof. exact (nan_to_num_correct largest x nan posinf neginf). Qed.
Print Assumptions C110_nan_to_num_is_nan_to_num.
(** A replacement that is infinite is replaced again. *)
Theorem C110_nan_to_num_twice_refuted largest :
  dec_nan_to_num largest NaN (Some PInf) None None = Fin largest /\ torch_nan_to_num largest NaN (Some PInf) None None = PInf
  /\ dec_nan_to_num largest NaN (Some MInf) None None = Fin (- largest) /\ torch_nan_to_num largest NaN (Some MInf) None None = MInf
  /\ dec_nan_to_num largest PInf None (Some MInf) None = Fin (- largest) /\ torch_nan_to_num largest PInf None (Some MInf) None = MInf.
Proof. repeat split; reflexivity. Qed.
Print Assumptions C110_nan_to_num_twice_refuted.
Theorem C110_masked_fill_is_masked_fill x (mask : bool) v :
  (mask = true -> dec_masked_fill x mask v = v) /\ (mask = false -> dec_masked_fill x mask v = x).
Proof. split; intros ->; reflexivity. Qed.
Print Assumptions C110_masked_fill_is_masked_fill.
Theorem C110_clamp_min_is_clamp_min x lo :
  x <> NaN -> dec_clamp_min x (Fin lo) = (if lt x (Fin lo) then Fin lo else x) /\ dec_clamp_max x (Fin lo) = (if lt (Fin lo) x then Fin lo else x).
Proof. intros H. destruct x; try congruence; split; reflexivity. Qed.
Print Assumptions C110_clamp_min_is_clamp_min.
Theorem C110_clamp_keeps_nan x y : x = NaN \/ y = NaN -> dec_clamp_min x y = NaN /\ dec_clamp_max x y = NaN.
Proof. intros [->| ->]; [split; reflexivity|]. destruct x; split; reflexivity. Qed.
Print Assumptions C110_clamp_keeps_nan.
Theorem C110_deg2rad_is_deg2rad pi q : exists r, dec_deg2rad pi (Fin q) = Fin r /\ r == q * pi / 180.
Proof. eexists. split; [reflexivity|]. change (inject_Z 180) with 180. field. Qed.
Print Assumptions C110_deg2rad_is_deg2rad.
(** The factor of rad2deg is that of 3.14159, not of pi: it is wrong by almost a millionth. *)
Theorem C110_rad2deg_partial pi q : 3141592 # 1000000 < pi -> pi < 3141593 # 1000000 -> 0 <= q ->
  exists r, dec_rad2deg (Fin q) = Fin r /\ r * (999999 # 1000000) <= q * (180 / pi) /\ q * (180 / pi) <= r.
Proof.
  intros L U Hq. eexists. split; [reflexivity|].
  assert (E0 : 180 / (314159 # 100000) == 18000000 # 314159) by reflexivity. rewrite E0.
  assert (P0 : 0 < pi) by lra.
  assert (I1 : 180 / pi <= 18000000 # 314159) by (apply Qle_shift_div_r; lra).
  assert (I2 : (18000000 # 314159) * (999999 # 1000000) <= 180 / pi) by (apply Qle_shift_div_l; lra).
  split; nra.
Qed.
Print Assumptions C110_rad2deg_partial.
Theorem C110_rad2deg_refuted pi q : 3141592 # 1000000 < pi -> pi < 3141593 # 1000000 -> 0 < q ->
  exists r, dec_rad2deg (Fin q) = Fin r /\ q * (180 / pi) < r * (9999995 # 10000000).
Proof.
  intros L U Hq. eexists. split; [reflexivity|].
  assert (E0 : 180 / (314159 # 100000) == 18000000 # 314159) by reflexivity. rewrite E0.
  assert (I1 : 180 / pi < (18000000 # 314159) * (9999995 # 10000000)) by (apply Qlt_shift_div_r; lra).
  nra.
Qed.
Print Assumptions C110_rad2deg_refuted.
Theorem C110_sgn_is_sgn x : dec_sgn x ~= torch_sgn x.
Proof. exact (sgn_correct x). Qed.
Print Assumptions C110_sgn_is_sgn.
Theorem C110_trunc_is_trunc x : dec_trunc x ~= torch_trunc x.
Proof. exact (trunc_correct x). Qed.
Print Assumptions C110_trunc_is_trunc.
Theorem C110_frac_is_frac q :
  exists r, dec_frac (Fin q) = Fin r /\ 0 <= r * q /\ Qabs r < 1 /\ exists k : Z, q == r + inject_Z k.
Proof. destruct (frac_correct q) as (r & A & B & C & D). exists r. split; [exact A|]. split; [exact B|]. split; [exact C|]. now exists (whole q). Qed.
Print Assumptions C110_frac_is_frac.
Theorem C110_fmod_is_fmod x y : ~ y == 0 -> exists r, dec_fmod (Fin x) (Fin y) = Fin r /\ is_fmod x y r.
Proof. exact (fmod_correct x y). Qed.
Print Assumptions C110_fmod_is_fmod.
(** fmod by an infinity is the dividend. *)
Theorem C110_fmod_by_infinity_refuted x : dec_fmod (Fin x) PInf = NaN /\ dec_fmod (Fin x) MInf = NaN.
Proof. split; reflexivity. Qed.
Print Assumptions C110_fmod_by_infinity_refuted.
Theorem C110_fmod_of_integers x y r : dec_fmod_int x y = Some r <-> (y <> 0 /\ is_fmod_int x y r)%Z.
Proof. exact (fmod_int_correct x y r). Qed.
Print Assumptions C110_fmod_of_integers.
Theorem C110_heaviside_is_heaviside x v : dec_heaviside x v = torch_heaviside x v.
Proof. exact (heaviside_correct x v). Qed.
Print Assumptions C110_heaviside_is_heaviside.
Theorem C110_fmax_is_fmax x y : dec_fmax x y = torch_fmax x y.
Proof. exact (fmax_correct x y). Qed.
Print Assumptions C110_fmax_is_fmax.
Theorem C110_fmin_is_fmin x y : dec_fmin x y = torch_fmin x y.
Proof. exact (fmin_correct x y). Qed.
Print Assumptions C110_fmin_is_fmin.
Theorem C110_round_decimals_is_round_decimals q d k : is_nearest (q * Qpower 10 d) k ->
  exists r, dec_round_decimals (Fin q) (Some d) = Some (Fin r) /\ r == inject_Z k / Qpower 10 d.
Proof. exact (round_decimals_correct q d k). Qed.
Print Assumptions C110_round_decimals_is_round_decimals.
Theorem C110_there_is_one_nearest q : exists k, is_nearest q k /\ forall k', is_nearest q k' -> k' = k.
Proof.
  exists (nearest q). split; [apply nearest_correct|]. intros k' K. exact (nearest_unique q k' (nearest q) K (nearest_correct q)).
Qed.
Print Assumptions C110_there_is_one_nearest.
Theorem C110_lerp_is_lerp a b w : exists r, dec_lerp (Fin a) (Fin b) (Fin w) = Fin r /\ r == torch_lerp a b w.
Proof. exact (lerp_correct a b w). Qed.
Print Assumptions C110_lerp_is_lerp.
Theorem C110_addcmul_is_addcmul x t1 t2 v : exists r, dec_addc mul (Fin x) (Fin t1) (Fin t2) (Fin v) = Fin r /\ r == x + v * t1 * t2.
Proof. eexists. split; [reflexivity|]. ring. Qed.
Print Assumptions C110_addcmul_is_addcmul.
Theorem C110_addcdiv_is_addcdiv x t1 t2 v : ~ t2 == 0 ->
  exists r, dec_addc div (Fin x) (Fin t1) (Fin t2) (Fin v) = Fin r /\ r == x + v * t1 / t2.
Proof.
  intros H. unfold dec_addc, add. cbn [div]. destruct (qeq_spec t2 0); [contradiction|]. eexists. split; [reflexivity|]. field. exact H.
Qed.
Print Assumptions C110_addcdiv_is_addcdiv.
Theorem C110_tanh_backward_is_tanh_backward g o : exists r, dec_tanh_backward (Fin g) (Fin o) = Fin r /\ r == g * (1 - o * o).
Proof. eexists. split; [reflexivity|]. change (inject_Z 1) with 1. ring. Qed.
Print Assumptions C110_tanh_backward_is_tanh_backward.
Theorem C110_tanh_backward_of_infinity_refuted :
  dec_tanh_backward PInf (Fin (1 # 2)) = NaN /\ mul PInf (Fin (1 - (1 # 2) * (1 # 2))) = PInf.
Proof. split; reflexivity. Qed.
Print Assumptions C110_tanh_backward_of_infinity_refuted.
Theorem C110_fake_quantize_is_fake_quantize x scale zp lo hi k : ~ scale == 0 -> is_nearest (x / scale) k ->
  dec_fake_quantize (Fin x) (Fin scale) zp lo hi ~= Fin (torch_fake_quantize x scale zp lo hi k).
Proof. exact (fake_quantize_correct x scale zp lo hi k). Qed.
Print Assumptions C110_fake_quantize_is_fake_quantize.
Theorem C110_fake_quantize_keeps_the_sizes s : s <> [] -> dec_fake_quantize_sizes s = Some s.
Proof. exact (fake_quantize_sizes_correct s). Qed.
Print Assumptions C110_fake_quantize_keeps_the_sizes.
(** A tensor without dimensions becomes a vector of one element. *)
Theorem C110_fake_quantize_of_a_scalar_refuted : dec_fake_quantize_sizes [] = Some [1%Z].
Proof. reflexivity. Qed.
Print Assumptions C110_fake_quantize_of_a_scalar_refuted.
Theorem C110_signbit_of_floats width sign rest : (0 <= rest < 2 ^ (width - 1))%Z ->
  dec_signbit (FloatBits width sign rest) = (Some sign, true).
Proof.
  intros H. unfold dec_signbit, view_as_int. f_equal. f_equal. destruct sign; [apply Z.ltb_lt|apply Z.ltb_ge]; lia.
Qed.
Print Assumptions C110_signbit_of_floats.
(** On integers the operation is replaced, by the right value, and yet the pattern reports that nothing was done. *)
Theorem C110_signbit_of_integers_reports_failure_refuted z :
  exists b : bool, dec_signbit (IntValue z) = (Some b, false) /\ (b = true <-> (z < 0)%Z).
Proof. eexists. split; [reflexivity|]. apply Z.ltb_lt. Qed.
Print Assumptions C110_signbit_of_integers_reports_failure_refuted.
Theorem C110_copysign_is_copysign {A} (sign : bool) (magnitude : A) (negative : bool) :
  dec_copysign (sign, magnitude) negative = (negative, magnitude).
Proof. destruct negative; reflexivity. Qed.
Print Assumptions C110_copysign_is_copysign.

Example C110_nonvacuous :
  dec_trunc (Fin (- (7 # 2))) ~= Fin (-3) /\ dec_frac (Fin (- (7 # 2))) ~= Fin (- (1 # 2))
  /\ dec_fmod (Fin (-7)) (Fin 3) ~= Fin (-1) /\ dec_fmod_int (-7) 3 = Some (-1)%Z
  /\ is_nearest (5 # 2) 2 /\ nearest (7 # 2) = 4%Z
  /\ (exists r, dec_round_decimals (Fin (2345 # 1000)) (Some 2%Z) = Some r /\ r ~= Fin (234 # 100))
  /\ (exists r, dec_round_decimals (Fin 250) (Some (-2)%Z) = Some r /\ r ~= Fin 200)
  /\ dec_fake_quantize (Fin (13 # 10)) (Fin (1 # 2)) 1 0 3 ~= Fin 1
  /\ dec_heaviside NaN (Fin 7) = Fin 0 /\ dec_fmax NaN (Fin 1) = Fin 1
  /\ dec_signbit (FloatBits 32 true 0) = (Some true, true).
Proof.
  split; [reflexivity|]. split; [reflexivity|]. split; [reflexivity|]. split; [reflexivity|].
  split; [split; [discriminate|intros _; exists 1%Z; reflexivity]|]. split; [reflexivity|].
  split; [eexists; split; reflexivity|]. split; [eexists; split; reflexivity|]. repeat split; reflexivity.
Qed.
