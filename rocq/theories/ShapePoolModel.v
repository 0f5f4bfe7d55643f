(** Shape functions of pooling and convolution.
    Sources: projects/pt1/python/torch_mlir/jit_ir_importer/build_tools/abstract_interp_lib_gen.py ("gen")
    and lib/Dialect/Torch/Transforms/AbstractInterpLibrary.cpp ("lib").
    Simplifications: integers are unbounded; argument lists of a fixed small arity are taken apart by
    pattern matching where the source asserts the length and then indexes; only the sizes returned are
    modelled, not the text of the errors. *)
From Coq Require Import ZArith Bool List.
From Verif Require Import Prelude ShapeCoreModel ShapeMiscModel.
Import ListNotations.
Open Scope Z_scope.

(** div_rtn, lib l.2464; pooling_output_shape_pad_lr, lib l.2429-2463. *)
Definition div_rtn (x y : Z) : Z := x / y.
Definition pooling_output_shape_pad_lr (input kernel pad_l pad_r stride dilation : Z) (ceil_mode : bool) : Z :=
  let out := div_rtn (input + pad_l + pad_r - dilation * (kernel - 1) - 1 + (if ceil_mode then stride - 1 else 0)) stride + 1 in
  if ceil_mode then
    if input + pad_l <=? (out - 1) * stride then out - 1 else out
  else out.
(** pooling_output_shape, lib l.2415-2428. *)
Definition pooling_output_shape (input kernel pad stride dilation : Z) (ceil_mode : bool) : option Z :=
  assert negb (stride =? 0);
  Some (pooling_output_shape_pad_lr input kernel pad pad stride dilation ceil_mode).

(** A list of one or two (three) integers, as in lib l.2036-2110 and gen l.1109-1133. *)
Definition two (l : list Z) : option (Z * Z) :=
  match l with [a] => Some (a, a) | [a; b] => Some (a, b) | _ => None end.
Definition three (l : list Z) : option (Z * Z * Z) :=
  match l with [a] => Some (a, a, a) | [a; b; c] => Some (a, b, c) | _ => None end.
(** The stride: lib l.2052-2087 and gen l.1285-1293 (two), gen l.1118-1123 and l.1227-1232 (three). *)
Definition stride_two (l : list Z) (kH kW : Z) : option (Z * Z) :=
  match l with [] => Some (kH, kW) | [a] => Some (a, a) | [a; b] => Some (a, b) | _ => None end.
Definition stride_three (l : list Z) (kD kH kW : Z) : option (Z * Z * Z) :=
  match l with [] => Some (kD, kD, kD) | [a] => Some (a, a, a) | [a; b; c] => Some (a, b, c) | _ => None end.

(** pool2d_shape_check, lib l.2468-2577. *)
Definition pool2d_shape_check (input : list Z) (kH kW dH dW padH padW dilH dilW outH outW : Z) : option unit :=
  let ndim := zlen input in
  assert (0 <? kW) && (0 <? kH);
  assert (0 <? dW) && (0 <? dH);
  assert (0 <? dilH) && (0 <? dilW);
  do i1 <- pyidx input 1;
  do i2 <- pyidx input 2;
  let valid := negb (i1 =? 0) && negb (i2 =? 0) in
  do i0 <- pyidx input 0;
  do ok <- (if (ndim =? 3) && negb (i0 =? 0) && valid then Some true
            else if (ndim =? 4) && valid then do i3 <- pyidx input 3; Some (negb (i3 =? 0))
            else Some false);
  assert ok;
  assert (padW <=? kW / 2) && (padH <=? kH / 2);
  assert (1 <=? outW) && (1 <=? outH);
  Some tt.

(** The common body of max_pool2d (lib l.2023-2414) and avg_pool2d (gen l.1280-1320). *)
Definition pool2d (input kernel stride padding : list Z) (dilH dilW : Z) (ceil_mode : bool) : option (list Z) :=
  do (kH, kW) <- two kernel;
  do (dH, dW) <- stride_two stride kH kW;
  do (padH, padW) <- two padding;
  assert (zlen input =? 3) || (zlen input =? 4);
  do c <- pyidx input (-3);
  do h <- pyidx input (-2);
  do w <- pyidx input (-1);
  do oh <- pooling_output_shape h kH padH dH dilH ceil_mode;
  do ow <- pooling_output_shape w kW padW dW dilW ceil_mode;
  do _ <- pool2d_shape_check input kH kW dH dW padH padW dilH dilW oh ow;
  if zlen input =? 3 then Some [c; oh; ow]
  else do n <- pyidx input (-4); Some [n; c; oh; ow].
Definition max_pool2d (input kernel stride padding dilation : list Z) (ceil_mode : bool) : option (list Z) :=
  do (dilH, dilW) <- two dilation;
  pool2d input kernel stride padding dilH dilW ceil_mode.
Definition avg_pool2d (input kernel stride padding : list Z) (ceil_mode : bool) : option (list Z) :=
  pool2d input kernel stride padding 1 1 ceil_mode.

(** _pool3d_shape_check, gen l.1069-1099. *)
Definition pool3d_shape_check (input : list Z) (kD kH kW dD dH dW padD padH padW dilD dilH dilW outD outH outW : Z) : option unit :=
  assert (0 <? kD) && (0 <? kH) && (0 <? kW);
  assert (0 <? dD) && (0 <? dH) && (0 <? dW);
  assert (0 <? dilD) && (0 <? dilH) && (0 <? dilW);
  assert (zlen input =? 4) || (zlen input =? 5);
  assert forallb (fun x => negb (x =? 0)) input;
  assert (padD <=? kD / 2) && (padW <=? kW / 2) && (padH <=? kH / 2);
  assert (1 <=? outD) && (1 <=? outW) && (1 <=? outH);
  Some tt.
(** The common body of _max_pool3d (gen l.1101-1168) and avg_pool3d (gen l.1217-1276). *)
Definition pool3d (input kernel stride padding : list Z) (dil : Z * Z * Z) (ceil_mode : bool) : option (list Z) :=
  let '(dilD, dilH, dilW) := dil in
  do (kD, kH, kW) <- three kernel;
  do (dD, dH, dW) <- stride_three stride kD kH kW;
  do (padD, padH, padW) <- three padding;
  assert (zlen input =? 4) || (zlen input =? 5);
  do c <- pyidx input (-4);
  do d <- pyidx input (-3);
  do h <- pyidx input (-2);
  do w <- pyidx input (-1);
  do od <- pooling_output_shape d kD padD dD dilD ceil_mode;
  do oh <- pooling_output_shape h kH padH dH dilH ceil_mode;
  do ow <- pooling_output_shape w kW padW dW dilW ceil_mode;
  do _ <- pool3d_shape_check input kD kH kW dD dH dW padD padH padW dilD dilH dilW od oh ow;
  if zlen input =? 4 then Some [c; od; oh; ow]
  else do n <- pyidx input (-5); Some [n; c; od; oh; ow].
Definition max_pool3d (input kernel stride padding dilation : list Z) (ceil_mode : bool) : option (list Z) :=
  do dil <- three dilation;
  pool3d input kernel stride padding dil ceil_mode.
Definition avg_pool3d (input kernel stride padding : list Z) (ceil_mode : bool) : option (list Z) :=
  pool3d input kernel stride padding (1, 1, 1) ceil_mode.

(** pool1d, gen l.1324-1348. *)
Definition pool1d (input kernel stride padding : list Z) (ceil_mode : bool) : option (list Z) :=
  do k <- (match kernel with [k] => Some k | _ => None end);
  do s <- (match stride with [] => Some k | [s] => Some s | _ => None end);
  do p <- (match padding with [p] => Some p | _ => None end);
  assert (zlen input =? 2) || (zlen input =? 3);
  do c <- pyidx input (-2);
  do l <- pyidx input (-1);
  do o <- pooling_output_shape l k p s 1 ceil_mode;
  if zlen input =? 2 then Some [c; o] else do n <- pyidx input (-3); Some [n; c; o].
(** aten.avg_pool1d, gen l.1366; aten.max_pool1d, gen l.1369 (and _with_indices, l.1372). *)
Definition avg_pool1d (input kernel stride padding : list Z) (ceil_mode : bool) : option (list Z) :=
  pool1d input kernel stride padding ceil_mode.
Definition max_pool1d (input kernel stride padding dilation : list Z) (ceil_mode : bool) : option (list Z) :=
  pool1d input kernel stride padding ceil_mode.

(** adaptive_pool, gen l.1388-1401; adaptive_avg_pool1d, gen l.1352-1364. *)
Definition adaptive_pool (self out : list Z) (dim : Z) : option (list Z) :=
  assert zlen out =? dim;
  assert (zlen self =? dim + 1) || (zlen self =? dim + 2);
  assert forallb (fun x => negb (x =? 0)) self;
  do a <- mapM (pyidx self) (zrange 0 (zlen self - dim));
  do b <- mapM (pyidx out) (zrange 0 (zlen out));
  Some (a ++ b).
Definition adaptive_avg_pool1d (self out : list Z) : option (list Z) :=
  assert zlen out =? 1;
  assert (zlen self =? 2) || (zlen self =? 3);
  assert forallb (fun x => negb (x =? 0)) self;
  do a <- mapM (pyidx self) (zrange 0 (zlen self - 1));
  do o <- pyidx out 0;
  Some (a ++ [o]).
(** adaptive_avg_pool2d, lib l.50-132: the batch dim is not checked. *)
Definition adaptive_avg_pool2d (self out : list Z) : option (list Z) :=
  assert zlen out =? 2;
  assert (zlen self =? 3) || (zlen self =? 4);
  do _ <- mapM (fun i => do x <- pyidx self i; guard (negb (x =? 0))) (zrange 1 (zlen self));
  do a <- mapM (pyidx self) (zrange 0 (zlen self - 2));
  do b <- mapM (pyidx out) (zrange 0 (zlen out));
  Some (a ++ b).
(** aten.max_unpool3d, gen l.1194-1201; aten.max_unpool2d, gen l.1203-1210. *)
Definition max_unpool (n : Z) (self indices output_size : list Z) : option (list Z) :=
  assert (zlen self =? n + 2) || (zlen self =? n + 1);
  assert zlen output_size =? n;
  assert zlen self =? zlen indices;
  if zlen self =? n + 2 then
    do a <- pyidx self 0; do b <- pyidx self 1; Some (a :: b :: output_size)
  else do a <- pyidx self 0; Some (a :: output_size).

(** check_non_negative, lib l.3547: true when some element is negative. *)
Definition check_non_negative (l : list Z) : bool := existsb (fun x => x <? 0) l.
(** check_shape_forward, lib l.3397-3546. *)
Definition check_shape_forward (input weight : list Z) (bias : option (list Z)) (stride padding dilation : list Z) (groups : Z) : option unit :=
  assert negb (check_non_negative padding);
  assert negb (check_non_negative stride);
  assert zlen weight =? zlen input;
  do w0 <- pyidx weight 0;
  assert groups <=? w0;
  do r <- pymod w0 groups;
  assert r =? 0;
  do i1 <- pyidx input 1;
  do w1 <- pyidx weight 1;
  assert i1 =? w1 * groups;
  do _ <- (match bias with
           | None => Some tt
           | Some b => assert zlen b =? 1; do b0 <- pyidx b 0; guard (b0 =? w0)
           end);
  do _ <- mapM (fun i =>
      do x <- pyidx input i;
      do p <- pyidx padding (i - 2);
      do d <- pyidx dilation (i - 2);
      do k <- pyidx weight i;
      guard (negb (x + 2 * p <? d * (k - 1) + 1))) (zrange 2 (zlen input));
  Some tt.
(** conv_output_size, lib l.3353-3396. *)
Definition conv_output_size (input weight : list Z) (bias : option (list Z)) (stride padding dilation : list Z) (groups : Z) : option (list Z) :=
  do _ <- check_shape_forward input weight bias stride padding dilation groups;
  let has_dilation := 0 <? zlen dilation in
  do n <- pyidx input 0;
  do o <- pyidx weight 0;
  do rest <- mapM (fun d =>
      do dil <- (if has_dilation then pyidx dilation (d - 2) else Some 1);
      do k <- pyidx weight d;
      let kernel := dil * (k - 1) + 1 in
      do x <- pyidx input d;
      do p <- pyidx padding (d - 2);
      do s <- pyidx stride (d - 2);
      do q <- pydiv (x + 2 * p - kernel) s;
      Some (q + 1)) (zrange 2 (zlen input));
  Some (n :: o :: rest).
(** conv1d, lib l.3120 (rank 3); conv2d, lib l.3565 (rank 4); conv3d, lib l.3810 (rank 5). *)
Definition conv_nd (rank : Z) (input weight : list Z) (bias : option (list Z)) (stride padding dilation : list Z) (groups : Z) : option (list Z) :=
  assert zlen weight =? rank;
  assert zlen input =? rank;
  conv_output_size input weight bias stride padding dilation groups.
Definition conv2d := conv_nd 4.
Definition conv3d := conv_nd 5.
(** conv_forwards, lib l.4067-4238. *)
Definition conv_forwards (input weight : list Z) (bias : option (list Z)) (stride padding dilation : list Z)
    (transposed : bool) (output_padding : list Z) (groups : Z) : option (list Z) :=
  let has_dilation := 0 <? zlen dilation in
  let has_output_padding := 0 <? zlen output_padding in
  do n <- pyidx input 0;
  do c <- (if transposed then do w <- pyidx weight 1; Some (w * groups) else pyidx weight 0);
  do rest <- mapM (fun d =>
      do dil <- (if has_dilation then pyidx dilation (d - 2) else Some 1);
      do op <- (if has_output_padding then pyidx output_padding (d - 2) else Some 0);
      do k <- pyidx weight d;
      do x <- pyidx input d;
      do s <- pyidx stride (d - 2);
      do p <- pyidx padding (d - 2);
      if transposed then Some ((x - 1) * s - p * 2 + dil * (k - 1) + op + 1)
      else do q <- pydiv (x + p * 2 - (dil * (k - 1) + 1)) s; Some (q + 1)) (zrange 2 (zlen input));
  Some (n :: c :: rest).
(** aten.convolution, gen l.2127; aten.conv1d, gen l.2130 (groups is passed as 1);
    aten.conv_transpose1d and conv_transpose3d.input, gen l.2137-2141. *)
Definition convolution := conv_forwards.
Definition aten_conv1d (input weight : list Z) (bias : option (list Z)) (stride padding dilation : list Z) (groups : Z) : option (list Z) :=
  conv_forwards input weight bias stride padding dilation false [] 1.
Definition conv_transpose (input weight : list Z) (bias : option (list Z)) (stride padding output_padding : list Z) (groups : Z) (dilation : list Z) : option (list Z) :=
  convolution input weight bias stride padding dilation true output_padding groups.
(** conv_transpose2d_input, lib l.4239-4330, with the four lists present. *)
Definition conv_transpose2d_input (input weight : list Z) (bias : option (list Z)) (stride padding output_padding : list Z) (groups : Z) (dilation : list Z) : option (list Z) :=
  let has_dilation := 0 <? zlen dilation in
  do n <- pyidx input 0;
  do w <- pyidx weight 1;
  do rest <- mapM (fun d =>
      do dil <- (if has_dilation then pyidx dilation (d - 2) else Some 1);
      do k <- pyidx weight d;
      do x <- pyidx input d;
      do s <- pyidx stride (d - 2);
      do p <- pyidx padding (d - 2);
      do op <- pyidx output_padding (d - 2);
      Some ((x - 1) * s - p * 2 + dil * (k - 1) + op + 1)) (zrange 2 (zlen input));
  Some (n :: w * groups :: rest).
(** _conv_padding, gen l.2066-2079. [same]: padding == "same". *)
Definition conv_padding (weight dilation : list Z) (same : bool) : option (list Z) :=
  let rank := zlen weight in
  assert 2 <? rank;
  let n := rank - 2 in
  let zeros := map (fun _ => 0) (zrange 0 n) in
  if same then
    foldM (fun acc di =>
        let '(d, i) := di in
        do w <- pyidx weight (2 + i);
        do v <- pydiv (d * (w - 1)) 2;
        pyset acc i v) (combine dilation (rev (zrange 0 n))) zeros
  else Some zeros.
(** aten.conv1d.padding, gen l.2133; aten.conv2d.padding, l.2081; aten.conv3d.padding, l.2088. *)
Definition conv1d_padding (input weight : list Z) (bias : option (list Z)) (stride : list Z) (same : bool) (dilation : list Z) (groups : Z) : option (list Z) :=
  do p <- conv_padding weight dilation same;
  conv_forwards input weight bias stride p dilation false [] 1.
Definition conv2d_padding (input weight : list Z) (bias : option (list Z)) (stride : list Z) (same : bool) (dilation : list Z) (groups : Z) : option (list Z) :=
  do p <- conv_padding weight dilation same;
  conv2d input weight bias stride p dilation groups.
Definition conv3d_padding (input weight : list Z) (bias : option (list Z)) (stride : list Z) (same : bool) (dilation : list Z) (groups : Z) : option (list Z) :=
  do p <- conv_padding weight dilation same;
  conv3d input weight bias stride p dilation groups.
(** aten.conv_tbc, gen l.2095-2125: the transposed lists are built but not used. *)
Definition conv_tbc (self weight bias : list Z) (pad : Z) : option (list Z) :=
  match self, weight, bias with
  | [_; _; channels], [_; channels_w; _], [_] =>
      assert channels =? channels_w;
      do out <- conv_forwards self weight (Some bias) [1] [pad] [] false [] 1;
      match out with
      | [batch_out; channels_out; time_out] => Some [time_out; batch_out; channels_out]
      | _ => None
      end
  | _, _, _ => None
  end.
(** conv_backwards, lib l.4043-4066. *)
Definition conv_backwards (grad_output input weight : list Z) (biases : option (list Z)) : option (list Z * list Z * list Z) :=
  do i <- unary input;
  do w <- unary weight;
  do g <- pyidx grad_output 1;
  Some (i, w, [g]).
