(** Folders of scalar operations: lib/Dialect/Torch/IR/TorchOps.cpp.

    An operand of an operation is an SSA value together with what a folder can see of it: the
    constant it is defined by, and whether it is defined by aten.size.int. The adaptor's
    attribute and the matcher m_TorchConstantInt both give that constant. C++ int64_t is Z in
    its range; what the C++ standard leaves undefined (overflow, division by zero) and failed
    assertions are [Undefined]. APInt arithmetic wraps. Not modelled: the types of the
    attributes, the rewriting that replaces the operation by the result of its folder. *)
From Coq Require Import ZArith String List Bool.
From Verif Require Import Prelude.
Import ListNotations.
Open Scope Z_scope.

Definition int64_min : Z := - 2 ^ 63.
Definition int64_max : Z := 2 ^ 63 - 1.
Definition fits (z : Z) : bool := (int64_min <=? z) && (z <=? int64_max).
(** Two's complement, as APInt of 64 bits read by getSExtValue. *)
Definition wrap (z : Z) : Z := (z + 2 ^ 63) mod 2 ^ 64 - 2 ^ 63.

Record operand (A : Type) := { val : nat; cst : option A; is_size : bool }.
Arguments val {A}. Arguments cst {A}. Arguments is_size {A}.

(** An OpFoldResult: null, an attribute, or a value of the program. *)
Inductive folded (A : Type) := NoFold | Attr (a : A) | Value (v : nat) | Undefined.
Arguments NoFold {A}. Arguments Attr {A}. Arguments Value {A}. Arguments Undefined {A}.

(** An int64_t expression. *)
Definition checked (z : Z) : folded Z := if fits z then Attr z else Undefined.

(** TorchOps.cpp:3960-3973 atenBinaryIntOperatorFoldHelper. *)
Definition binary_int (a b : operand Z) (f : Z -> Z -> folded Z) : folded Z :=
  match cst a, cst b with Some x, Some y => f x y | _, _ => NoFold end.

(** TorchOps.cpp:4078-4081 AtenRemainderIntOp::fold: the C++ operator %. *)
Definition fold_remainder (a b : operand Z) : folded Z :=
  binary_int a b (fun x y =>
    if (y =? 0) || ((x =? int64_min) && (y =? -1)) then Undefined else Attr (Z.rem x y)).
(** TorchOps.cpp:4115-4124 AtenAddIntOp::fold. *)
Definition fold_add (a b : operand Z) : folded Z :=
  match cst b with
  | Some 0 => Value (val a)
  | _ => match cst a with
         | Some 0 => Value (val b)
         | _ => binary_int a b (fun x y => checked (x + y))
         end
  end.
(** TorchOps.cpp:4130-4136 AtenSubIntOp::fold. *)
Definition fold_sub (a b : operand Z) : folded Z :=
  if Nat.eqb (val a) (val b) then Attr 0 else binary_int a b (fun x y => checked (x - y)).
(** TorchOps.cpp:4456-4469 AtenMulIntOp::fold. *)
Definition is_const (a : operand Z) (z : Z) : bool := match cst a with Some x => x =? z | None => false end.
Definition fold_mul (a b : operand Z) : folded Z :=
  if is_const a 1 then Value (val b)
  else if is_const b 1 then Value (val a)
  else if is_const a 0 || is_const b 0 then Attr 0
  else match cst a, cst b with Some x, Some y => checked (x * y) | _, _ => NoFold end.
(** TorchOps.cpp:4680-4685 AtenNegIntOp::fold. *)
Definition fold_neg (a : operand Z) : folded Z := match cst a with Some x => checked (- x) | None => NoFold end.
(** TorchOps.cpp:5380-5393 PrimMaxIntOp::fold. *)
Definition fold_max (a b : operand Z) : folded Z :=
  if Nat.eqb (val a) (val b) then Value (val a)
  else match cst a, cst b with Some x, Some y => Attr (if x <? y then y else x) | _, _ => NoFold end.
(** TorchOps.cpp:5449-5462 PrimMinIntOp::fold. *)
Definition fold_min (a b : operand Z) : folded Z :=
  if Nat.eqb (val a) (val b) then Value (val a)
  else match cst a, cst b with Some x, Some y => Attr (if y <? x then y else x) | _, _ => NoFold end.
(** TorchOps.cpp:3109-3115 AtenIntBoolOp::fold. *)
Definition fold_int_bool (a : operand bool) : folded Z :=
  match cst a with Some b => Attr (if b then 1 else 0) | None => NoFold end.
(** TorchOps.cpp:3010-3015 AtenBoolIntOp::fold. *)
Definition fold_bool_int (a : operand Z) : folded bool :=
  match cst a with Some x => Attr (negb (x =? 0)) | None => NoFold end.
(** TorchOps.cpp:766-785 Aten__RangeLengthOp::fold; APIntOps::RoundingSDiv rounding up. *)
Definition rounding_sdiv_up (n d : Z) : Z :=
  let q := Z.quot n d in
  if Z.rem n d =? 0 then q else if Bool.eqb (n <? 0) (d <? 0) then q + 1 else q.
Definition fold_range_length (lo hi step : operand Z) : folded Z :=
  match cst lo, cst hi, cst step with
  | Some l, Some h, Some s =>
      if s <? 0 then NoFold else if s =? 0 then Undefined
      else Attr (wrap (rounding_sdiv_up (wrap (h - l)) s))
  | _, _, _ => NoFold
  end.
(** TorchOps.cpp:791-803 Aten__DeriveIndexOp::fold. *)
Definition fold_derive_index (index start step : operand Z) : folded Z :=
  match cst index, cst start, cst step with
  | Some i, Some b, Some s => Attr (wrap (b + wrap (s * i)))
  | _, _, _ => NoFold
  end.

(** * Booleans *)
(** TorchOps.cpp:824-829 Aten__Not__Op::fold. *)
Definition fold_not (a : operand bool) : folded bool := match cst a with Some b => Attr (negb b) | None => NoFold end.
(** TorchOps.cpp:835-848 Aten__Or__BoolOp::fold. *)
Definition fold_or (a b : operand bool) : folded bool :=
  match cst a, cst b with
  | None, None => NoFold
  | Some true, _ | _, Some true => Attr true
  | Some false, _ => Value (val b)
  | None, Some false => Value (val a)
  end.
(** TorchOps.cpp:854-864 AtenEqBoolOp::fold and 870-880 AtenNeBoolOp::fold. *)
Definition fold_eq_bool (a b : operand bool) : folded bool :=
  if Nat.eqb (val a) (val b) then Attr true
  else match cst a, cst b with Some x, Some y => Attr (Bool.eqb x y) | _, _ => NoFold end.
Definition fold_ne_bool (a b : operand bool) : folded bool :=
  if Nat.eqb (val a) (val b) then Attr false
  else match cst a, cst b with Some x, Some y => Attr (negb (Bool.eqb x y)) | _, _ => NoFold end.

(** * Comparisons of integers *)
(** TorchOps.cpp:2820-2875 intComparatorFoldHelper. *)
Definition compare_int (cmp : Z -> Z -> bool) (a b : operand Z) : folded bool :=
  if Nat.eqb (val a) (val b) then Attr (cmp 0 0)
  else match cst a, cst b with
  | Some x, Some y => Attr (cmp x y)
  | _, _ =>
      (* the constant, if there is one, is put on the right *)
      let '(l, r, cmp) := match cst a, cst b with
        | Some _, None => (b, a, fun x y => cmp y x)
        | _, _ => (a, b, cmp)
        end in
      match cst r with
      | Some y =>
          if (y <? 0) && is_size l then Attr (cmp 0 (-1))
          else if (y =? 0) && is_size l then
            if cmp 0 0 && cmp 1 0 then Attr true
            else if negb (cmp 0 0) && cmp (-1) 0 && negb (cmp 1 0) then Attr false
            else NoFold
          else NoFold
      | None => NoFold
      end
  end.
(** TorchOps.cpp:2891-2894, 2900-2903, 2963-2993: the six folders. *)
Definition fold_ne := compare_int (fun a b => negb (a =? b)).
Definition fold_eq := compare_int Z.eqb.
Definition fold_lt := compare_int Z.ltb.
Definition fold_le := compare_int Z.leb.
Definition fold_gt := compare_int Z.gtb.
Definition fold_ge := compare_int Z.geb.

(** * Identity with None *)
(** The types a folder distinguishes, and a value with the operand of its derefine. *)
Inductive vtype := NoneType | OptionalType | OtherType.
Record reference := { ref_type : vtype; derefined : option vtype }.
(** TorchOps.cpp:726-760 atenIsOrIsNotFoldHelper. *)
Definition static_type (r : reference) : vtype := match derefined r with Some t => t | None => ref_type r end.
Definition is_or_is_not (a b : reference) (equalIsTrue : bool) : folded bool :=
  let '(l, r) := match static_type b with
    | NoneType => (static_type b, static_type a)
    | _ => (static_type a, static_type b)
    end in
  match l, r with
  | NoneType, NoneType => Attr equalIsTrue
  | NoneType, OtherType => Attr (negb equalIsTrue)
  | _, _ => NoFold
  end.
(** TorchOps.cpp:808-818. *)
Definition fold_is (a b : reference) := is_or_is_not a b true.
Definition fold_isnot (a b : reference) := is_or_is_not a b false.

(** * Strings *)
(** TorchOps.cpp:2909-2933 AtenEqStrOp::fold and AtenNeStrOp::fold. *)
Definition fold_eq_str (a b : operand string) : folded bool :=
  if Nat.eqb (val a) (val b) then Attr true
  else match cst a, cst b with Some x, Some y => Attr (String.eqb x y) | _, _ => NoFold end.
Definition fold_ne_str (a b : operand string) : folded bool :=
  if Nat.eqb (val a) (val b) then Attr false
  else match cst a, cst b with Some x, Some y => Attr (negb (String.eqb x y)) | _, _ => NoFold end.
(** TorchOps.cpp:1418-1424 AtenLenStrOp::fold: the number of bytes. *)
Definition fold_len_str (a : operand string) : folded Z :=
  match cst a with Some s => Attr (Z.of_nat (String.length s)) | None => NoFold end.
