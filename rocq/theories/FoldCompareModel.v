(** Folders of comparisons of constant tensors, of constant fills and of single elements, and the
    rewriting of arithmetic on rank 0: lib/Dialect/Torch/IR/TorchOps.cpp.

    As in FoldNaryModel: literals of integers have bits, doubles are a parameter with their
    comparisons. IntegerAttr::get(type, value) keeps the low bits of the value. *)
From Coq Require Import ZArith List Bool.
From Verif Require Import Prelude FoldTensorModel FoldNaryModel.
From Verif Require FoldFloatModel.
Import ListNotations.
Open Scope Z_scope.

Inductive comparison := Le | Lt | Gt | Ge | Eq | Ne.
Definition compare_z (c : comparison) (x y : Z) : bool :=
  match c with Le => x <=? y | Lt => x <? y | Gt => x >? y | Ge => x >=? y | Eq => x =? y | Ne => negb (x =? y) end.

Section Fold.
Variable D : Type.
Variable compare_d : comparison -> D -> D -> bool.

(** * TorchOps.cpp:1963-2031 comparisonScaleFolder, and the folders 2033-2170 *)
(** 1979-1982: the element with the width of the constant; the constructor checks that it fits. *)
Definition to_width (ws : Z) (unsigned : bool) (a : apint) : option apint :=
  if unsigned then ap_new ws (zext a)
  else if (- 2 ^ (ws - 1) <=? sext a) && (sext a <? 2 ^ (ws - 1)) then Some (AP ws (sext a mod 2 ^ ws)) else None.
(** 2040-2045: both are brought to the larger width, then compared with or without sign. *)
Definition compare_ap (c : comparison) (unsigned : bool) (x y : apint) : option bool :=
  let b := Z.max (width x) (width y) in
  do l <- ap_new b (limited x); do r <- ap_new b (limited y);
  Some (if unsigned then compare_z c (zext l) (zext r) else compare_z c (sext l) (sext r)).
Definition compare_int (c : comparison) (unsigned : bool) (w : Z) (u : Z) (scalar : apint) : option bool :=
  do t <- to_width (width scalar) unsigned (AP w u); compare_ap c unsigned t scalar.
Definition one_of {A} (out : list Z) (r : option A) : tfold A := match r with Some x => splat_of out x | None => TBad end.
Definition many_of {A} (out : list Z) (r : option (list A)) : tfold A := match r with Some xs => dense out xs | None => TBad end.
Definition fold_compare (c : comparison) (lhs rhs : option (attr D)) (sizes : option (list Z)) (has_dtype : bool) : tfold bool :=
  match lhs, rhs, sizes, has_dtype with
  | Some (DenseInt w s l), Some rhs, Some out, true =>
      match l_splat l, rhs with
      | true, IntA ws _ v => one_of out (do u <- hd_error (l_elements l); compare_int c (is_unsigned s) w u (AP ws v))
      | true, FloatA _ => TBad
      | true, _ => TNone
      | false, _ =>
          if product out >? 16 then TNone
          else match rhs with
               | IntA ws _ v => many_of out (mapM (fun u => compare_int c (is_unsigned s) w u (AP ws v)) (l_elements l))
               | FloatA _ => TBad
               | _ => TNone
               end
      end
  | Some (DenseFp l), Some rhs, Some out, true =>
      match l_splat l, rhs with
      | true, IntA _ _ _ => TBad
      | true, FloatA y => one_of out (do x <- hd_error (l_elements l); Some (compare_d c x y))
      | true, _ => TNone
      | false, _ =>
          if product out >? 16 then TNone
          else match rhs with
               | IntA _ _ _ => TBad
               | FloatA y => many_of out (Some (map (fun x => compare_d c x y) (l_elements l)))
               | _ => TNone
               end
      end
  | _, _, _, _ => TNone
  end.

(** * TorchOps.cpp:1866-1955 AtenEqTensorOp::fold. [same]: both operands are one value; float types by number. *)
Definition values {A} (out : list Z) (l : literal A) : option (list A) :=
  if l_splat l then do x <- hd_error (l_elements l); Some (repeat x (Z.to_nat (product out))) else Some (l_elements l).
Definition equal_lists {A} (eq : A -> A -> bool) (out : list Z) (x y : literal A) : tfold bool :=
  if l_splat x && l_splat y then one_of out (do a <- hd_error (l_elements x); do b <- hd_error (l_elements y); Some (eq a b))
  else if negb (same_sizes (l_sizes x) (l_sizes y)) || (product out >? 16) then TNone
  else match values out x, values out y with
       | Some xs, Some ys =>
           if (product out <=? zlen xs) && (product out <=? zlen ys) then dense out (map (fun q => eq (fst q) (snd q)) (firstn (Z.to_nat (product out)) (combine xs ys))) else TBad
       | _, _ => TBad
       end.
Definition fold_eq_tensor (same : bool) (self other : option (attr D)) (fself fother : Z) (sizes : option (list Z)) (has_dtype : bool) : tfold bool :=
  match sizes, has_dtype with
  | Some out, true =>
      if same then splat_of out true
      else match self, other with
           | Some (DenseFp x), Some (DenseFp y) => if fself =? fother then equal_lists (compare_d Eq) out x y else TNone
           | Some (DenseInt w s x), Some (DenseInt w' s' y) =>
               if (w =? w') && match s, s' with Signless, Signless | Signed, Signed | Unsigned, Unsigned => true | _, _ => false end then equal_lists Z.eqb out x y else TNone
           | _, _ => TNone
           end
  | _, _ => TNone
  end.

(** * TorchOps.cpp:5055-5084 AtenItemOp::fold: a literal, the fill value of aten.full or the number of prim.NumToTensor.Scalar. *)
Inductive scalar := SInt (z : Z) | SFloat (x : D).
Inductive item := NoItem | ItemIs (s : scalar) | ItemValue (v : nat) | ItemBad.
Definition fold_item (lit : option (attr D)) (full number : option nat) : item :=
  match lit with
  | Some (DenseInt w s l) => if l_splat l then match hd_error (l_elements l) with Some u => ItemIs (SInt (if is_unsigned s then zext (AP w u) else sext (AP w u))) | None => ItemBad end else ItemBad
  | Some (DenseFp l) => if l_splat l then match hd_error (l_elements l) with Some x => ItemIs (SFloat x) | None => ItemBad end else ItemBad
  | Some _ => NoItem
  | None => match full, number with Some v, _ => ItemValue v | None, Some v => ItemValue v | None, None => NoItem end
  end.

(** * TorchOps.cpp:5087-5200 AtenOnesOp, AtenZerosOp and AtenFullOp::fold. [given]: the sizes, if they are constants; [sizes]: the result type's. *)
Variable d_zero d_one : D.
Variable round : D -> D.
Definition int_attr (w z : Z) : element D := OfInt (z mod 2 ^ w).
Definition all_nonneg (l : list Z) : bool := forallb (fun n => 0 <=? n) l.
Definition fold_fill (given sizes : option (list Z)) (ty : option elem) (shape : list Z -> list Z -> list Z) (int : option Z) (float : option D) : tfold (element D) :=
  match given, sizes, ty with
  | Some ls, Some rs, Some e =>
      if all_nonneg ls && all_nonneg rs then
        match e, int, float with
        | EInt w _, Some z, _ => splat_of (shape ls rs) (int_attr w z)
        | EFloat, _, Some x => splat_of (shape ls rs) (OfFloat (round x))
        | _, _, _ => TNone
        end
      else TNone
  | _, _, _ => TNone
  end.
Definition fold_ones given sizes ty := fold_fill given sizes ty (fun l _ => l) (Some 1) (Some d_one).
Definition fold_zeros given sizes ty := fold_fill given sizes ty (fun l _ => l) (Some 0) (Some d_zero).
Definition fold_full given sizes ty (fill : option scalar) :=
  fold_fill given sizes ty (fun _ r => r) (match fill with Some (SInt z) => Some z | _ => None end) (match fill with Some (SFloat x) => Some x | _ => None end).

(** * TorchOps.cpp:5399-5421 PrimNumToTensorScalarOp::fold. *)
Definition fold_num_to_tensor (a : option (attr D)) (sizes : option (list Z)) (ty : option elem) : tfold (element D) :=
  match a, sizes, ty with
  | Some a, Some out, Some e =>
      match a, e with
      | IntA w _ u, EInt w' _ => splat_of out (int_attr w' (sext (AP w u)))
      | IntA _ _ _, _ => TBad
      | FloatA x, EFloat => splat_of out (OfFloat (round x))
      | FloatA _, _ => TBad
      | _, _ => TNone
      end
  | _, _, _ => TNone
  end.

(** * TorchOps.cpp:165-211 getScalarIntValue and 1427-1512 rewrite0DBinaryTensorOp *)
(** An operand: a number; or a tensor of a width and rank that is a literal, made from a number, or something else. *)
Inductive source := FromLiteral (s : sign) (splat : bool) (u : Z) | FromNumber (z : Z) | OtherSource.
Inductive operand0 := Number (z : Z) | NotAnInt | Tensor (w : option Z) (rank : option Z) (src : source).
Definition scalar_int (o : operand0) : option Z :=
  match o with
  | Number z => Some z
  | NotAnInt => None
  | Tensor (Some w) (Some 0) src =>
      if (w =? 64) || (w =? 1) then
        match src with
        | FromLiteral s splat u => if splat then Some (if is_signed s then sext (AP w u) else zext (AP w u)) else None
        | FromNumber z => Some z
        | OtherSource => None
        end
      else None
  | Tensor _ _ _ => None
  end.
Inductive op0 := Add | Sub | Rsub | Mul | Div (rounding : option bool).
(** What the new prim.NumToTensor.Scalar is given: an integer, a true quotient of two integers, or an undefined conversion. *)
Inductive number := Int (z : Z) | Quotient (a b : Z) | Undefined0.
Definition trunc_quotient (a b : Z) : Z := Z.sgn a * Z.sgn b * FoldFloatModel.floor_quotient (Z.abs a) (Z.abs b).
(** [constants]: both operands are constants; needed only for truncation. *)
Definition rewrite_0d (op : op0) (lhs rhs : operand0) (alpha : option operand0) (constants : bool) : option number :=
  match scalar_int lhs, scalar_int rhs with
  | Some l, Some r =>
      match op with
      | Add => do a <- alpha; do k <- scalar_int a; Some (Int (l + r * k))
      | Sub => do a <- alpha; do k <- scalar_int a; Some (Int (l - r * k))
      | Rsub => do a <- alpha; do k <- scalar_int a; Some (Int (r - l * k))
      | Mul => Some (Int (l * r))
      | Div None => Some (Quotient l r)
      | Div (Some true) => Some (if r =? 0 then Undefined0 else Int (l / r))
      | Div (Some false) => if constants then Some (if r =? 0 then Undefined0 else Int (trunc_quotient l r)) else None
      end
  | _, _ => None
  end.
End Fold.
Arguments SInt {D}. Arguments SFloat {D}. Arguments NoItem {D}. Arguments ItemIs {D}. Arguments ItemValue {D}. Arguments ItemBad {D}.
