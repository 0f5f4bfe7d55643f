(** Adaptive pools, convolutions with named padding, and pads, as they are replaced by operations with
    fixed windows: lib/Dialect/Torch/Transforms/DecomposeComplexOps.cpp (dco).

    A pool is modelled by the kernel, stride and padding that are computed for one axis: each axis is
    computed alone. [Refused] is a pattern that does not apply, [Fails] an assertion or an error of an
    integer operation when the program runs, [Undefined] an access outside a vector of the compiler. *)
From Coq Require Import ZArith Bool PeanoNat String Lia List.
From Verif Require Import Prelude.
Import ListNotations.
Open Scope string_scope.
Open Scope list_scope.
Open Scope Z_scope.

Inductive outcome (A : Type) := Done (a : A) | Refused | Fails | Undefined.
Arguments Done {A}. Arguments Refused {A}. Arguments Fails {A}. Arguments Undefined {A}.

(** Kernel, stride, padding. *)
Record window := { kernel : Z; stride : Z; padding : Z }.
Definition int_of_bool (b : bool) : Z := if b then 1 else 0.

(** DecomposeAtenAdaptivePool1dOp, dco l.9517-9604; [strict] is isAssumingStrictSymbolicShapes, [constant]
    tells that the output size is a constant. *)
Definition pool1d (strict constant : bool) (input output : Z) : outcome window :=
  if negb constant then Refused
  else if output =? 1 then Done {| kernel := input; stride := 1; padding := 0 |}
  else if negb strict && negb (input =? output) then Fails
  else Done {| kernel := 1; stride := 1; padding := 0 |}.

(** DecomposeAtenAdaptivePool2dOp, dco l.9665-9722: one axis. Division by zero is an error. *)
Definition pool2d (input output : Z) : outcome window :=
  if output =? 0 then Fails
  else
    let remainder := input mod output in
    if negb (output >? remainder * (output - 1)) then Fails
    else
      let offset := int_of_bool (negb (negb (remainder =? 0))) in
      if negb ((remainder =? 0) || (output mod (remainder + offset) =? 0)) then Fails
      else Done {| kernel := input / output + int_of_bool (negb (remainder =? 0)); stride := input / output; padding := 0 |}.

(** DecomposeAtenConvPaddingOp, dco l.6018-6092: the paddings, from the sizes of the weight and the dilations.
    Every text other than "valid" is taken to be "same". *)
Fixpoint same_paddings (sizes dilation : list Z) : outcome (list Z) :=
  match sizes with
  | [] => Done []
  | n :: sizes =>
      match dilation with
      | [] => Undefined
      | d :: dilation =>
          match same_paddings sizes dilation with Done r => Done (d * (n - 1) / 2 :: r) | x => x end
      end
  end.
Definition conv_paddings (weight dilation : list Z) (mode : option string) : outcome (list Z) :=
  if zlen weight <? 3 then Refused
  else match mode with
       | None => Refused
       | Some m =>
           if (m =? "valid")%string then Done (map (fun _ => 0) (skipn 2 weight))
           else same_paddings (skipn 2 weight) dilation
       end.

(** DecomposeAtenPadOp, dco l.9304-9408. *)
Inductive pad_kind := Constant | Reflection (dims : nat) | Replication (dims : nat).
(** The loop from the last pair, dco l.9341-9345, over the pads in reverse. Its index is unsigned: after the
    pair at 0 it wraps around instead of ending, and the next access is outside the vector (the branch for
    no useful pads, dco l.9346-9349, is therefore never taken). *)
Fixpoint useful_end (pads : list Z) : option nat :=
  match pads with
  | b :: a :: rest => if negb (b =? 0) || negb (a =? 0) then Some (List.length pads) else useful_end rest
  | _ => None
  end.
(** The mode if it is constant text; the pads, if they are a list that is built in place, and whether
    they are all constants; whether the value has an optional type. *)
Definition pad (mode : option string) (pads : option (list Z)) (constants optional_value : bool) : outcome (pad_kind * option (list Z)) :=
  match mode with
  | None => Refused
  | Some m =>
      if (m =? "constant")%string then (if optional_value then Refused else Done (Constant, pads))
      else match pads with
           | None => Refused
           | Some ps =>
               let finish e :=
                 let dims := Nat.div e 2 in
                 if (m =? "reflect")%string then
                   (if Nat.leb 1 dims && Nat.leb dims 3 then Done (Reflection dims, Some (firstn e ps)) else Refused)
                 else if (m =? "replicate")%string then
                   (if Nat.leb 1 dims && Nat.leb dims 3 then Done (Replication dims, Some (firstn e ps)) else Refused)
                 else Refused in
               if constants then
                 if Nat.odd (List.length ps) then Refused
                 else match useful_end (rev ps) with None => Undefined | Some e => finish e end
               else finish (List.length ps)
           end
  end.
