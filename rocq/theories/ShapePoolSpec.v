(** What pooling and convolution should return, stated by counting window positions. *)
From Coq Require Import ZArith Bool List.
From Verif Require Import Prelude.
Import ListNotations.
Open Scope Z_scope.

(** Elements spanned by a window. *)
Definition span (kernel dilation : Z) : Z := dilation * (kernel - 1) + 1.
(** Window number [n] is computed: it lies inside the padded input; in ceil mode it may overhang the
    right edge by less than a stride, provided that it starts inside the input or the left padding. *)
Definition window (input kernel pad stride dilation : Z) (ceil : bool) (n : Z) : Prop :=
  if ceil then n * stride + span kernel dilation < input + 2 * pad + stride /\ n * stride < input + pad
  else n * stride + span kernel dilation <= input + 2 * pad.
(** Exactly the windows below number [out] are computed. *)
Definition pooled (input kernel pad stride dilation : Z) (ceil : bool) (out : Z) : Prop :=
  forall n, n < out <-> window input kernel pad stride dilation ceil n.
(** A legal pooling of one axis. *)
Definition pool_axis (input kernel pad stride dilation : Z) (ceil : bool) (out : Z) : Prop :=
  0 < kernel /\ 0 < stride /\ 0 < dilation /\ 2 * pad <= kernel /\ input <> 0 /\ 1 <= out /\
  pooled input kernel pad stride dilation ceil out.
(** One integer for all the axes, or one for each. *)
Definition per_axis (l : list Z) (v : list Z) : Prop := l = v \/ exists a, l = [a] /\ v = repeat a (length v).
(** The stride: the same, and by default the kernel. *)
Definition stride_of (l kernel v : list Z) : Prop := (l = [] /\ v = kernel) \/ (l <> [] /\ per_axis l v).
(** A convolution of one axis. *)
Definition conv_axis (input kernel pad stride dilation out : Z) : Prop := pooled input kernel pad stride dilation false out.
