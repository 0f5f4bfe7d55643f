(** Folders of arithmetic on constant tensors: lib/Dialect/Torch/IR/TorchOps.cpp:1515-1856 and 2240-2335, 4087-4110.

    An APInt has a width and its bits as an unsigned integer; its operators and constructor fail an
    assertion ([None]) if the widths differ or the value does not fit. Doubles and their
    operators are parameters: [of_int] is static_cast<double>, [round] the conversion of a double to
    the result's float type. A literal of integers has the width and signedness of its type and the
    bits of its elements; scalar constants are signless integers of 64 bits or doubles. Not modelled:
    complex types, resources instead of literals, types without known sizes except that they are not
    folded. *)
From Coq Require Import ZArith List Bool.
From Verif Require Import Prelude FoldTensorModel.
From Verif Require FoldFloatModel.
Import ListNotations.
Open Scope Z_scope.

Inductive sign := Signless | Signed | Unsigned.
Definition is_signed (s : sign) : bool := match s with Signed => true | _ => false end.
Definition is_unsigned (s : sign) : bool := match s with Unsigned => true | _ => false end.
Record apint := AP { width : Z; bits : Z }.
(** APInt::getZExtValue and getSExtValue. *)
Definition zext (a : apint) : Z := bits a.
Definition sext (a : apint) : Z := if 2 * bits a <? 2 ^ width a then bits a else bits a - 2 ^ width a.
(** APInt(width, value): fails if the value does not fit. *)
Definition ap_new (w v : Z) : option apint := if (0 <=? v) && (v <? 2 ^ w) then Some (AP w v) else None.
Definition ap_op (f : Z -> Z -> Z) (a b : apint) : option apint :=
  if width a =? width b then Some (AP (width a) (f (bits a) (bits b) mod 2 ^ width a)) else None.
Definition ap_add := ap_op Z.add.
Definition ap_sub := ap_op Z.sub.
Definition ap_mul := ap_op Z.mul.
(** APInt::urem and srem: a zero divisor fails an assertion. *)
Definition ap_rem (unsigned : bool) (a b : apint) : option apint :=
  if (width a =? width b) && negb (bits b =? 0) then
    Some (AP (width a) ((if unsigned then Z.rem (bits a) (bits b) else Z.rem (sext a) (sext b)) mod 2 ^ width a))
  else None.
(** APInt::getLimitedValue. *)
Definition limited (a : apint) : Z := Z.min (bits a) (2 ^ 64 - 1).

Inductive attr (D : Type) := DenseFp (l : literal D) | DenseInt (w : Z) (s : sign) (l : literal Z) | FloatA (x : D) | IntA (w : Z) (s : sign) (u : Z) | OtherA.
Arguments DenseFp {D}. Arguments DenseInt {D}. Arguments FloatA {D}. Arguments IntA {D}. Arguments OtherA {D}.
(** The value of an operand, an operand of another kind, or a read outside of the literal. *)
Inductive got (A : Type) := Got (x : A) | Unsupported | Failed.
Arguments Got {A}. Arguments Unsupported {A}. Arguments Failed {A}.
(** Element types of results, and elements. *)
Inductive elem := EFloat | EInt (w : Z) (s : sign) | EOther.
Inductive element (D : Type) := OfFloat (x : D) | OfInt (u : Z).
Arguments OfFloat {D}. Arguments OfInt {D}.

Definition element_at {A} (l : literal A) (idx : Z) : got A :=
  match (if l_splat l then hd_error (l_elements l) else read (l_elements l) idx) with Some x => Got x | None => Failed end.
Fixpoint gather {A} (l : list (got A)) : got (list A) :=
  match l with
  | [] => Got []
  | Got x :: r => match gather r with Got xs => Got (x :: xs) | q => q end
  | Unsupported :: _ => Unsupported
  | Failed :: _ => Failed
  end.
Fixpoint all_some {A} (l : list (option A)) : option (list A) :=
  match l with [] => Some [] | Some x :: r => do xs <- all_some r; Some (x :: xs) | None :: _ => None end.

Section Fold.
Variable D : Type.
Variable of_int : Z -> D.
Variable round : D -> D.

(** 1518-1527 checkAllSplats. *)
Definition all_splats (l : list (attr D)) : bool :=
  forallb (fun a => match a with DenseFp l => l_splat l | DenseInt _ _ l => l_splat l | _ => true end) l.
(** 1529-1572 getFoldValueAtIndexFp, one operand. *)
Definition int_to_double (s : sign) (a : apint) : D := of_int (if is_signed s then sext a else zext a).
Definition fp_value (idx : Z) (a : attr D) : got D :=
  match a with
  | DenseFp l => element_at l idx
  | DenseInt w s l => match element_at l idx with Got u => Got (int_to_double s (AP w u)) | _ => Failed end
  | FloatA x => Got x
  | IntA w s u => Got (int_to_double s (AP w u))
  | OtherA => Unsupported
  end.
(** 1574-1610 getFoldValueAtIndexInt, one operand: narrower values are extended, wider ones left alone. *)
Definition extend (bw : Z) (s : sign) (a : apint) : apint :=
  if width a <? bw then AP bw ((if is_signed s then sext a else zext a) mod 2 ^ bw) else a.
Definition int_value (bw idx : Z) (a : attr D) : got apint :=
  match a with
  | DenseInt w s l => match element_at l idx with Got u => Got (extend bw s (AP w u)) | _ => Failed end
  | IntA w s u => Got (extend bw s (AP w u))
  | _ => Unsupported
  end.
(** 1615-1703 naryFolderHelper. *)
Definition same_sizes (a b : list Z) : bool := sizes_eqb (map Some a) (map Some b).
Definition fits (out : list Z) (a : attr D) : bool :=
  match a with
  | DenseFp l => l_splat l || same_sizes (l_sizes l) out
  | DenseInt _ _ l => l_splat l || same_sizes (l_sizes l) out
  | _ => true
  end.
Definition results {A} (out : list Z) (values : got (list A)) (wrap : A -> option (element D)) : tfold (element D) :=
  match values with
  | Got vs => match mapM wrap vs with Some es => dense out es | None => TBad end
  | Unsupported => TNone
  | Failed => TBad
  end.
Definition nary (operands : list (option (attr D))) (sizes : option (list Z)) (ty : option elem)
    (fp : option (list D -> D)) (int : option (list apint -> option apint)) : tfold (element D) :=
  match all_some operands, sizes, ty with
  | Some attrs, Some out, Some e =>
      let splats := all_splats attrs in
      match e with
      | EOther => TNone
      | _ =>
          if negb (splats || (product out <=? 16)) then TNone
          else if negb (splats || forallb (fits out) attrs) then TNone
          else
            let positions := zrange 0 (if splats then 1 else product out) in
            match e with
            | EFloat =>
                match fp with
                | None => TNone
                | Some f =>
                    results out (gather (map (fun i => match gather (map (fp_value i) attrs) with Got xs => Got (round (f xs)) | Unsupported => Unsupported | Failed => Failed end) positions))
                      (fun x => Some (OfFloat x))
                end
            | EInt w _ =>
                match int with
                | None => TNone
                | Some f =>
                    results out (gather (map (fun i => match gather (map (int_value w i) attrs) with
                                                       | Got xs => match f xs with Some a => Got a | None => Failed end
                                                       | Unsupported => Unsupported | Failed => Failed
                                                       end) positions))
                      (fun a => if width a =? w then Some (OfInt (bits a)) else None)
                end
            | EOther => TNone
            end
      end
  | _, _, _ => TNone
  end.

(** * The operations. Calls with another number of operands fail an assertion. *)
Variables add sub mul div fmod : D -> D -> D.
Variables floor trunc : D -> D.
Variable junk : D.
Definition ternary (f : D -> D -> D -> D) (l : list D) : D := match l with [a; b; c] => f a b c | _ => junk end.
Definition binary (f : D -> D -> D) (l : list D) : D := match l with [a; b] => f a b | _ => junk end.
Definition ternary_int (f : apint -> apint -> apint -> option apint) (l : list apint) : option apint := match l with [a; b; c] => f a b c | _ => None end.
Definition binary_int (f : apint -> apint -> option apint) (l : list apint) : option apint := match l with [a; b] => f a b | _ => None end.
Definition fp_add := ternary (fun a b c => add a (mul b c)).
Definition fp_sub := ternary (fun a b c => sub a (mul b c)).
(** 1716-1728 AtenAddTensorOp::fold. *)
Definition int_add := ternary_int (fun a b c => do m <- ap_mul b c; ap_add a m).
Definition fold_add_tensor ops sizes ty := nary ops sizes ty (Some fp_add) (Some int_add).
(** 1740-1755 AtenAddScalarOp::fold. *)
Definition int_add_scalar := ternary_int (fun a b c => do o <- ap_new (width a) (limited b); do l <- ap_new (width a) (limited c); do m <- ap_mul o l; ap_add a m).
Definition fold_add_scalar ops sizes ty := nary ops sizes ty (Some fp_add) (Some int_add_scalar).
(** 1767-1779 AtenSubTensorOp::fold. *)
Definition int_sub := ternary_int (fun a b c => do m <- ap_mul b c; ap_sub a m).
Definition fold_sub_tensor ops sizes ty := nary ops sizes ty (Some fp_sub) (Some int_sub).
(** 1791-1806 AtenSubScalarOp::fold. *)
Definition int_sub_scalar := ternary_int (fun a b c => do o <- ap_new (width a) (limited b); do l <- ap_new (width a) (limited c); do m <- ap_mul o l; ap_sub a m).
Definition fold_sub_scalar ops sizes ty := nary ops sizes ty (Some fp_sub) (Some int_sub_scalar).
(** 1822-1834 AtenRsubScalarOp::fold. *)
Definition fp_rsub := ternary (fun a b c => sub b (mul a c)).
Definition int_rsub := ternary_int (fun a b c => do m <- ap_mul a c; ap_sub b m).
Definition fold_rsub_scalar ops sizes ty := nary ops sizes ty (Some fp_rsub) (Some int_rsub).
(** 1846-1860 AtenMulTensorOp::fold. *)
Definition fp_mul := binary mul.
Definition int_mul := binary_int (fun a b => do o <- ap_new (width a) (limited b); ap_mul a o).
Definition fold_mul_tensor ops sizes ty := nary ops sizes ty (Some fp_mul) (Some int_mul).
(** 2261-2273 AtenMulScalarOp::fold. *)
Definition int_mul_scalar := binary_int ap_mul.
Definition fold_mul_scalar ops sizes ty := nary ops sizes ty (Some fp_mul) (Some int_mul_scalar).
(** 2289-2335 AtenDivTensorModeOp::fold. [rounding]: the constant rounding mode, if there is one; true for floor. The
    conditional expressions have type uint64_t, so that the quotient is of unsigned integers; its conversion to double and back to
    int64_t is undefined from 2^63. *)
Definition fp_div (rounding : option bool) := binary (fun a b => match rounding with None => div a b | Some true => floor (div a b) | Some false => trunc (div a b) end).
Definition as_uint64 (unsigned : bool) (a : apint) : Z := if unsigned then zext a else sext a mod 2 ^ 64.
Definition int_div (unsigned : bool) := binary_int (fun a b =>
  let l := as_uint64 unsigned a in let r := as_uint64 unsigned b in
  if r =? 0 then None
  else let q := FoldFloatModel.double_of_int (l / r) in
    if q <? 2 ^ 63 then ap_new (Z.max (width a) (width b)) q else None).
Definition fold_div_mode (rounding : option bool) ops sizes ty :=
  match ty with
  | None => TNone
  | Some e => nary ops sizes ty (Some (fp_div rounding))
      (match rounding with None => None | Some _ => Some (int_div (match e with EInt _ s => is_unsigned s | _ => false end)) end)
  end.
(** 4087-4110 AtenRemainderScalarOp::fold. *)
Definition int_rem (unsigned : bool) := binary_int (ap_rem unsigned).
Definition fold_remainder ops sizes ty :=
  match ty with
  | None => TNone
  | Some e => nary ops sizes ty (Some (binary fmod)) (Some (int_rem (match e with EInt _ s => is_unsigned s | _ => false end)))
  end.
End Fold.
