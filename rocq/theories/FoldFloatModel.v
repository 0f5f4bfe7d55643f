(** Folders of scalar operations computed with doubles: lib/Dialect/Torch/IR/TorchOps.cpp.

    A double is a [spec_float] of the standard library: a signed zero, an infinity, NaN, or a
    sign, a significand of 53 bits and an exponent. The conversion of an integer and the
    quotient of two integers round to nearest, ties to even, as IEEE 754 does; no overflow or
    subnormal number can occur there. Other float operations (sums, products, quotients of
    doubles, powers, square roots) are a parameter: the folder calls the C++ operator on the two
    constants. Conversions of doubles that do not fit int64_t are [Undefined]. *)
From Coq Require Import ZArith List Bool.
From Coq Require Import Floats.SpecFloat.
From Verif Require Import Prelude FoldModel.
Import ListNotations.
Open Scope Z_scope.

(** n / d to the nearest integer, ties to even. *)
Definition nearest (n d : Z) : Z :=
  let q := n / d in let r := n mod d in
  if 2 * r <? d then q else if d <? 2 * r then q + 1 else if Z.even q then q else q + 1.
(** The significand and exponent of the double nearest to n / d, for positive n and d. *)
Definition scale_up (z k : Z) : Z := z * 2 ^ Z.max k 0.
Definition round_ratio (n d : Z) : Z * Z :=
  let l := Z.log2 n - Z.log2 d in
  let b := if scale_up d l <=? scale_up n (- l) then l else l - 1 in
  let e := b - 52 in
  let m := nearest (scale_up n (- e)) (scale_up d e) in
  if m =? 2 ^ 53 then (2 ^ 52, e + 1) else (m, e).

(** The largest integer not above m * 2^e. *)
Definition floor_of (m e : Z) : Z := if 0 <=? e then m * 2 ^ e else m / 2 ^ (- e).

(** static_cast<double> of an integer, as the integer it is. *)
Definition double_of_int (z : Z) : Z :=
  if z =? 0 then 0 else let '(m, e) := round_ratio (Z.abs z) 1 in Z.sgn z * floor_of m e.
(** TorchOps.cpp:4030-4034 AtenFloordivIntOp::fold: std::floor(a / (double)b), returned as an int64_t. *)
Definition floor_quotient (a b : Z) : Z :=
  let x := double_of_int a in let y := double_of_int b in
  if x =? 0 then 0 else let '(m, e) := round_ratio (Z.abs x) (Z.abs y) in floor_of (Z.sgn x * Z.sgn y * m) e.
Definition fold_floordiv (a b : operand Z) : folded Z :=
  binary_int a b (fun x y => if y =? 0 then Undefined else checked (floor_quotient x y)).

(** The canonicalisation patterns of products: a value and the product it is defined by. *)
Record product := { mul_a : operand Z; mul_b : operand Z; one_use : bool }.
Definition definitions := nat -> option product.
(** The constant and the other operand of a product one of whose operands is constant. *)
Definition split_product (p : product) : option (Z * operand Z) :=
  match cst (mul_a p), cst (mul_b p) with
  | Some c, None => Some (c, mul_b p)
  | None, Some c => Some (c, mul_a p)
  | _, _ => None
  end.
(** TorchOps.cpp:4037-4070: the pattern of aten.floordiv.int; the value the operation is replaced by. *)
Definition rewrite_floordiv (defs : definitions) (a b : operand Z) : option nat :=
  let look first (o : operand Z) :=
    match defs (val o) with
    | Some p => match split_product p with
                | Some (second, rest) => if one_use p && (second =? first) then Some (val rest) else None
                | None => None
                end
    | None => None
    end in
  match cst a, cst b with
  | Some c, None => look c b
  | None, Some c => look c a
  | _, _ => None
  end.
(** TorchOps.cpp:4471-4509: the pattern of aten.mul.int; a value and the constant it is now multiplied by. *)
Definition rewrite_mul (defs : definitions) (a b : operand Z) : option (nat * folded Z) :=
  let look first (o : operand Z) :=
    match defs (val o) with
    | Some p => match split_product p with
                | Some (second, rest) => if one_use p then Some (val rest, checked (second * first)) else None
                | None => None
                end
    | None => None
    end in
  match cst a, cst b with
  | Some c, None => look c b
  | None, Some c => look c a
  | _, _ => None
  end.

(** * Doubles *)
Definition of_pair (neg : bool) (p : Z * Z) : spec_float := S754_finite neg (Z.to_pos (fst p)) (snd p).
(** static_cast<double>. *)
Definition to_double (z : Z) : spec_float :=
  if z =? 0 then S754_zero false else of_pair (z <? 0) (round_ratio (Z.abs z) 1).
(** TorchOps.cpp:4953-4960 AtenDivIntOp::fold: double(lhs) / rhs. *)
Definition divide_ints (a b : Z) : spec_float :=
  let x := double_of_int a in let y := double_of_int b in
  if y =? 0 then (if x =? 0 then S754_nan else S754_infinity (x <? 0))
  else if x =? 0 then S754_zero (y <? 0)
  else of_pair (xorb (x <? 0) (y <? 0)) (round_ratio (Z.abs x) (Z.abs y)).
Definition fold_div_int (a b : operand Z) : folded spec_float :=
  match cst a, cst b with Some x, Some y => Attr (divide_ints x y) | _, _ => NoFold end.
(** TorchOps.cpp:3061-3072 AtenFloatScalarOp::fold: of a constant integer or of an operand that is a float. *)
Inductive scalar := SInt (z : Z) | SFloat (f : spec_float).
Definition fold_float_scalar (a : operand scalar) (is_float : bool) : folded spec_float :=
  match cst a with
  | Some (SInt z) => Attr (to_double z)
  | _ => if is_float then Value (val a) else NoFold
  end.
(** static_cast<int64_t> of a double, and of its ceiling. *)
Definition signed (s : bool) (z : Z) : Z := if s then - z else z.
Definition int_of_float (f : spec_float) : folded Z :=
  match f with
  | S754_zero _ => Attr 0
  | S754_finite s m e => checked (signed s (floor_of (Zpos m) e))
  | _ => Undefined
  end.
Definition int_of_ceil (f : spec_float) : folded Z :=
  match f with
  | S754_zero _ => Attr 0
  | S754_finite s m e => checked (- floor_of (signed (negb s) (Zpos m)) e)
  | _ => Undefined
  end.
(** TorchOps.cpp:3078-3086 AtenIntFloatOp::fold. *)
Definition fold_int_float (a : operand spec_float) : folded Z := match cst a with Some f => int_of_float f | None => NoFold end.
(** TorchOps.cpp:3092-3103 AtenIntScalarOp::fold. *)
Definition fold_int_scalar (a : operand scalar) (is_int : bool) : folded Z :=
  match cst a with
  | Some (SFloat f) => int_of_float f
  | _ => if is_int then Value (val a) else NoFold
  end.
(** TorchOps.cpp:4663-4674 AtenCeilScalarOp::fold. *)
Definition fold_ceil_scalar (a : operand scalar) : folded Z := match cst a with Some (SFloat f) => int_of_ceil f | _ => NoFold end.
(** TorchOps.cpp:2999-3004 AtenBoolFloatOp::fold: c != 0.0. *)
Definition is_zero (f : spec_float) : bool := match f with S754_zero _ => true | _ => false end.
Definition fold_bool_float (a : operand spec_float) : folded bool := match cst a with Some f => Attr (negb (is_zero f)) | None => NoFold end.
(** TorchOps.cpp:2769-2783 floatComparatorFoldHelper and the four folders 2789-2817. *)
Definition compare_float (cmp : spec_float -> spec_float -> bool) (a b : operand spec_float) : folded bool :=
  if Nat.eqb (val a) (val b) then Attr (cmp (S754_zero false) (S754_zero false))
  else match cst a, cst b with Some x, Some y => Attr (cmp x y) | _, _ => NoFold end.
Definition fold_lt_float := compare_float SFltb.
Definition fold_gt_float := compare_float (fun a b => SFltb b a).
Definition fold_ge_float := compare_float (fun a b => SFleb b a).
Definition fold_eq_float := compare_float SFeqb.

Section Operations.
(** The C++ operators on doubles. *)
Variable divide : spec_float -> spec_float -> spec_float.
Variable op : spec_float -> spec_float -> spec_float.
(** TorchOps.cpp:4936-4947 AtenDivFloatOp::fold. *)
Definition one : spec_float := S754_finite false (2 ^ 52)%positive (-52).
Definition fold_div_float (a b : operand spec_float) : folded spec_float :=
  match cst a, cst b with
  | Some x, r => if is_zero x then Attr (S754_zero false)
      else match r with Some y => if SFeqb y one then Attr x else Attr (divide x y) | None => NoFold end
  | None, _ => NoFold
  end.
(** TorchOps.cpp:3975-3996 atenBinaryFloatOperatorFoldHelper: integers become doubles. *)
Definition number (s : scalar) : spec_float := match s with SInt z => to_double z | SFloat f => f end.
Definition binary_float (a b : operand scalar) : folded spec_float :=
  match cst a, cst b with Some x, Some y => Attr (op (number x) (number y)) | _, _ => NoFold end.
(** TorchOps.cpp:4537-4554, 4560-4574, 4593-4607: AtenAddOp, AtenMulOp and AtenSubOp::fold: integers stay integers. *)
Definition binary_number (int_op : Z -> Z -> Z) (a b : operand scalar) : folded scalar :=
  match cst a, cst b with
  | Some (SInt x), Some (SInt y) => match checked (int_op x y) with Attr z => Attr (SInt z) | _ => Undefined end
  | Some x, Some y => Attr (SFloat (op (number x) (number y)))
  | _, _ => NoFold
  end.
End Operations.
(** TorchOps.cpp:4691-4700 AtenNegFloatOp::fold. *)
Definition fold_neg_float (a : operand spec_float) : folded spec_float := match cst a with Some f => Attr (SFopp f) | None => NoFold end.
