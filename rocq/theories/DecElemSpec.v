(** What the elementwise operations compute, from PyTorch's documentation and the formulas of its
    kernels; independent of DecElemModel.v. *)
From Coq Require Import ZArith QArith Qround Qabs Bool List.
From Verif Require Import TensorOps NumOps.
Import ListNotations.
Open Scope Q_scope.

(** A number moved into an interval. *)
Definition torch_hardtanh (x lo hi : num) : num :=
  match x with NaN => NaN | _ => if lt x lo then lo else if lt hi x then hi else x end.
(** 0 up to -3, 1 from 3, a line between. *)
Definition torch_hardsigmoid (x : num) : num :=
  match x with
  | NaN => NaN | MInf => Fin 0 | PInf => Fin 1
  | Fin q => if Qle_bool q (-3) then Fin 0 else if Qle_bool 3 q then Fin 1 else Fin (q / 6 + (1 # 2))
  end.
(** 0 up to -3, the identity from 3, a parabola between. *)
Definition torch_hardswish (x : num) : num :=
  match x with
  | NaN => NaN | MInf => Fin 0 | PInf => PInf
  | Fin q => if Qle_bool q (-3) then Fin 0 else if Qle_bool 3 q then Fin q else Fin (q * (q + 3) / 6)
  end.
Definition torch_leaky_relu (x slope : num) : num := if gt x (int 0) then x else mul x slope.
Definition torch_leaky_relu_backward (grad x slope : num) : num := if gt x (int 0) then grad else mul grad slope.
(** rrelu: the slope of the numbers up to 0 is drawn between two bounds in training, and is their mean otherwise. *)
Definition torch_rrelu (x : num) (lower upper sample : Q) (training : bool) : num :=
  torch_leaky_relu x (Fin (if training then sample else (lower + upper) / 2)).
Definition torch_rrelu_noise (x noise sample : num) (training : bool) : num :=
  if training then (if le x (int 0) then sample else int 1) else noise.
Definition torch_rrelu_backward (grad x noise : num) (lower upper : Q) (training : bool) : num :=
  if training && qlt (1 # 1000000) (upper - lower) then mul grad noise
  else torch_leaky_relu_backward grad x (Fin ((lower + upper) / 2)).
(** prelu: a weight for each channel (axis 1), or one weight. *)
Definition torch_prelu_element (x w : num) : num := if gt x (int 0) then x else mul w x.
Definition torch_prelu (input weight : tensor num) : option (tensor num) :=
  let channels := match sizes input with _ :: c :: _ => c | _ => 1%Z end in
  let of_weight (k : Z) := elt weight match sizes weight with [] => [] | _ => [k] end in
  match sizes weight with
  | _ :: _ :: _ => None
  | s =>
      let n := match s with [n] => n | _ => 1%Z end in
      if Z.eqb n 1 then
        Some {| sizes := sizes input; elt := fun ix => torch_prelu_element (elt input ix) (of_weight 0%Z) |}
      else if Z.eqb n channels && negb (match sizes input with [] => true | _ => false end) then
        Some {| sizes := sizes input; elt := fun ix => torch_prelu_element (elt input ix) (of_weight (nth 1 ix 0%Z)) |}
      else None
  end.
(** elu, for a function exp: alpha * scale * (exp(x * input_scale) - 1) below 0, scale * x above. *)
Definition torch_elu (e : Q -> Q) (x : num) (alpha scale input_scale : Q) : num :=
  match x with
  | NaN => NaN
  | PInf => mul PInf (Fin scale)
  | MInf => plus (mul (exp e (mul MInf (Fin input_scale))) (Fin (alpha * scale))) (Fin (- (alpha * scale)))
  | Fin q => if qlt q 0 then Fin (alpha * scale * (e (q * input_scale) - 1)) else Fin (scale * q)
  end.
(** What is used of exp. *)
Definition exp_like (e : Q -> Q) : Prop :=
  (forall a b, a == b -> e a == e b) /\ e 0 == 1 /\ (forall a, a < 0 -> e a < 1) /\ (forall a, 0 < a -> 1 < e a).
Definition torch_softshrink (x lambd : Q) : Q :=
  if qlt lambd x then x - lambd else if qlt x (- lambd) then x + lambd else 0.
(** hardshrink: 0 from -lambd to lambd, the identity elsewhere. *)
Definition torch_hardshrink (x : num) (lambd : Q) : num :=
  if le (Fin (- lambd)) x && le x (Fin lambd) then Fin 0 else x.
(** threshold: the value up to the threshold, the identity elsewhere. *)
Definition torch_threshold (x threshold value : num) : num := if le x threshold then value else x.

Definition torch_nan_to_num (largest : Q) (x : num) (nan posinf neginf : option num) : num :=
  let or d (o : option num) := match o with Some v => v | None => d end in
  match x with
  | NaN => or (Fin 0) nan
  | PInf => or (Fin largest) posinf
  | MInf => or (Fin (- largest)) neginf
  | Fin q => Fin q
  end.
Definition torch_sgn (x : num) : num :=
  match x with
  | NaN => Fin 0 | PInf => Fin 1 | MInf => Fin (-1)
  | Fin q => Fin (inject_Z (Z.sgn (Qnum q)))
  end.
(** The integer part, toward zero. *)
Definition torch_trunc (x : num) : num :=
  match x with Fin q => Fin (inject_Z (Z.quot (Qnum q) (Zpos (Qden q)))) | _ => x end.
(** The remainder of x by y has the sign of x, is smaller than y, and differs from x by a multiple of y. *)
Definition is_fmod (x y r : Q) : Prop :=
  0 <= r * x /\ Qabs r < Qabs y /\ exists k : Z, x == r + inject_Z k * y.
Definition is_fmod_int (x y r : Z) : Prop := (0 <= r * x /\ Z.abs r < Z.abs y /\ (y | x - r))%Z.
Definition torch_heaviside (x v : num) : num :=
  match x with
  | NaN | MInf => Fin 0 | PInf => Fin 1
  | Fin q => match q ?= 0 with Eq => v | Lt => Fin 0 | Gt => Fin 1 end
  end.
(** The larger (smaller) of two numbers; a NaN is ignored if the other is a number. *)
Definition torch_fmax (x y : num) : num :=
  match x, y with NaN, _ => y | _, NaN => x | _, _ => if lt x y then y else x end.
Definition torch_fmin (x y : num) : num :=
  match x, y with NaN, _ => y | _, NaN => x | _, _ => if lt y x then y else x end.
(** The nearest multiple of 10^-decimals, ties to an even multiple. *)
Definition is_nearest (q : Q) (k : Z) : Prop :=
  Qabs (q - inject_Z k) <= 1 # 2 /\ (Qabs (q - inject_Z k) == 1 # 2 -> Z.Even k).
Definition torch_lerp (start stop weight : Q) : Q :=
  if qlt weight (1 # 2) then start + weight * (stop - start) else stop - (stop - start) * (1 - weight).
Definition torch_fake_quantize (x scale : Q) (zero_point quant_min quant_max k : Z) : Q :=
  inject_Z (Z.min quant_max (Z.max quant_min (k + zero_point)) - zero_point) * scale.
