(** Properties C39 (convolution sizes, transposed convolution) and C47 ('same' padding). *)
From Coq Require Import ZArith Bool Lia List.
From Verif Require Import Prelude ShapeCoreModel ShapeCoreSpec ShapeCoreProofs ShapeViewProps ShapeMatProps ShapeDimProps
  ShapeMiscModel ShapeFlatProps ShapePoolModel ShapePoolSpec ShapePoolProps.
Import ListNotations.
Open Scope Z_scope.

Lemma range2 : forall (a b : Z) xs, zrange 2 (zlen (a :: b :: xs)) = map (fun j => Z.of_nat (S (S j))) (seq 0 (length xs)).
Proof.
  intros a b xs. unfold zrange. rewrite !zlen_cons. unfold zlen.
  replace (Z.to_nat (1 + (1 + Z.of_nat (length xs)) - 2)) with (length xs) by lia. apply map_ext. intros k. lia.
Qed.
Lemma mapM_seq : forall B (f : nat -> option B) n r, mapM f (seq 0 n) = Some r <->
  length r = n /\ forall j, (j < n)%nat -> f j = nth_error r j.
Proof.
  intros B f n r. rewrite mapM_nth, seq_length. split; intros [L H]; split; auto.
  - intros j Hj. apply H. rewrite (nth_error_nth' _ 0%nat) by (rewrite seq_length; lia). now rewrite seq_nth.
  - intros k x Hx. assert (Hk : (k < n)%nat) by (rewrite <- (seq_length n 0); apply nth_error_Some; congruence).
    rewrite (nth_error_nth' _ 0%nat) in Hx by (rewrite seq_length; lia). rewrite seq_nth in Hx by auto. injection Hx as <-. now apply H.
Qed.
Lemma mapM_comp : forall A B C (g : A -> B) (f : B -> option C) l, mapM f (map g l) = mapM (fun x => f (g x)) l.
Proof. induction l; simpl; auto. destruct (f (g a)); simpl; auto. now rewrite IHl. Qed.
Lemma pyidx2 : forall (a b : Z) xs j, pyidx (a :: b :: xs) (Z.of_nat (S (S j))) = nth_error xs j.
Proof. intros. now rewrite pyidx_nat. Qed.
Lemma pyidx_m2 : forall (xs : list Z) j, pyidx xs (Z.of_nat (S (S j)) - 2) = nth_error xs j.
Proof. intros. replace (Z.of_nat (S (S j)) - 2) with (Z.of_nat j) by lia. apply pyidx_nat. Qed.

(** Dilation (output padding) of axis [j]: an empty list stands for all ones (zeros). *)
Definition at_or (l : list Z) (default : Z) (j : nat) (d : Z) : Prop :=
  (l = [] /\ d = default) \/ (l <> [] /\ nth_error l j = Some d).
Lemma at_or_spec : forall l def j d,
  (if 0 <? zlen l then pyidx l (Z.of_nat (S (S j)) - 2) else Some def) = Some d <-> at_or l def j d.
Proof.
  intros l def j d. rewrite pyidx_m2. unfold at_or. destruct l as [|a l].
  - simpl. split; [intros [= <-]; auto|]. intros [[_ ->]|[H _]]; [auto|easy].
  - rewrite zlen_cons. pose proof (zlen_nonneg _ l). destruct (Z.ltb_spec 0 (1 + zlen l)); [|lia].
    split; [intros; right; split; auto; discriminate|]. intros [[E _]|[_ E]]; [discriminate|exact E].
Qed.
Lemma conv_axis_value : forall x k p s d y, 0 < s -> (conv_axis x k p s d y <-> y = (x + p * 2 - (d * (k - 1) + 1)) / s + 1).
Proof.
  intros x k p s d y Hs. unfold conv_axis. rewrite <- (C37_pooled_axis_counts_windows x k p s d false y Hs) by discriminate.
  unfold pooling_output_shape, pooling_output_shape_pad_lr, div_rtn. destruct (Z.eqb_spec s 0); [lia|]. cbn [negb guard obind].
  replace (x + p + p - d * (k - 1) - 1 + 0) with (x + p * 2 - (d * (k - 1) + 1)) by lia. split; [intros [= <-]; auto|intros ->; auto].
Qed.
(** The sizes of one output axis. *)
Definition conv_at (ks stride padding dilation output_padding : list Z) (j : nat) (x y : Z) : Prop :=
  exists k s p d q, nth_error ks j = Some k /\ nth_error stride j = Some s /\ nth_error padding j = Some p /\
    at_or dilation 1 j d /\ at_or output_padding 0 j q /\ conv_axis x k p s d y.
Theorem C39_convolution_counts_windows : forall n c xs o ci ks bias stride padding dilation output_padding groups out,
  Forall (fun s => 0 < s) stride ->
  (convolution (n :: c :: xs) (o :: ci :: ks) bias stride padding dilation false output_padding groups = Some out <->
   exists ys, out = n :: o :: ys /\ length ys = length xs /\
     forall j x, nth_error xs j = Some x -> exists y, nth_error ys j = Some y /\ conv_at ks stride padding dilation output_padding j x y).
Proof.
  intros n c xs o ci ks bias stride padding dilation output_padding groups out Hs. unfold convolution, conv_forwards.
  change (pyidx (n :: c :: xs) 0) with (Some n). change (pyidx (o :: ci :: ks) 0) with (Some o). cbn [obind].
  rewrite range2, mapM_comp.
  set (F := fun j : nat => _).
  assert (FE : forall j x y, nth_error xs j = Some x -> (F j = Some y <-> conv_at ks stride padding dilation output_padding j x y)).
  { intros j x y Hx. unfold F, conv_at. split.
    - intros H. destruct (if 0 <? zlen dilation then _ else _) as [d|] eqn:D; [|discriminate]. cbn [obind] in H. apply at_or_spec in D.
      destruct (if 0 <? zlen output_padding then _ else _) as [q|] eqn:Q; [|discriminate]. cbn [obind] in H. apply at_or_spec in Q.
      rewrite !pyidx2, !pyidx_m2, Hx in H.
      destruct (nth_error ks j) as [k|] eqn:K; [|discriminate]. cbn [obind] in H.
      destruct (nth_error stride j) as [s|] eqn:S; [|discriminate]. cbn [obind] in H.
      destruct (nth_error padding j) as [p|] eqn:P; [|discriminate]. cbn [obind] in H.
      assert (0 < s) by (apply nth_error_In in S; rewrite Forall_forall in Hs; auto).
      unfold pydiv in H. destruct (Z.eqb_spec s 0); [lia|]. cbn [obind] in H. injection H as <-.
      exists k, s, p, d, q. do 5 (split; [reflexivity || assumption|]). now apply conv_axis_value.
    - intros (k & s & p & d & q & K & S & P & D & Q & A). apply at_or_spec in D, Q. rewrite D. cbn [obind]. rewrite Q. cbn [obind].
      rewrite !pyidx2, !pyidx_m2, Hx, K, S, P. cbn [obind].
      assert (0 < s) by (apply nth_error_In in S; rewrite Forall_forall in Hs; auto).
      unfold pydiv. destruct (Z.eqb_spec s 0); [lia|]. cbn [obind]. f_equal. symmetry. now apply conv_axis_value. }
  split.
  - intros H. destruct (mapM F (seq 0 (length xs))) as [ys|] eqn:M; [|discriminate]. cbn [obind] in H. injection H as <-.
    apply mapM_seq in M. destruct M as [L M]. exists ys. split; auto. split; auto. intros j x Hx.
    assert (Hj : (j < length xs)%nat) by (apply nth_error_Some; congruence). specialize (M j Hj).
    destruct (nth_error ys j) as [y|] eqn:Y; [|apply nth_error_None in Y; lia]. exists y. split; auto. now apply FE.
  - intros (ys & -> & L & H). assert (M : mapM F (seq 0 (length xs)) = Some ys).
    { apply mapM_seq. split; auto. intros j Hj. destruct (nth_error xs j) as [x|] eqn:X; [|apply nth_error_None in X; lia].
      destruct (H j x X) as (y & -> & A). exact (proj2 (FE j x y X) A). }
    rewrite M. reflexivity.
Qed.
(** The checked convolutions (aten.conv2d and conv3d). *)
Theorem C39_checked_convolution_spec : forall rank n c xs o ci ks bias stride padding dilation groups out,
  (conv_nd rank (n :: c :: xs) (o :: ci :: ks) bias stride padding dilation groups = Some out <->
   rank = zlen (n :: c :: xs) /\ length ks = length xs /\ Forall (fun p => 0 <= p) padding /\ Forall (fun s => 0 <= s) stride /\
   groups <> 0 /\ (groups | o) /\ groups <= o /\ c = ci * groups /\ (bias = None \/ bias = Some [o]) /\
   exists ys, out = n :: o :: ys /\ length ys = length xs /\
     forall j x, nth_error xs j = Some x -> exists k s p d y, nth_error ks j = Some k /\ nth_error stride j = Some s /\
       nth_error padding j = Some p /\ nth_error dilation j = Some d /\ nth_error ys j = Some y /\
       0 < s /\ 1 <= y /\ conv_axis x k p s d y).
Proof.
  intros rank n c xs o ci ks bias stride padding dilation groups out. unfold conv_nd, conv_output_size, check_shape_forward.
  assert (NN : forall l, negb (check_non_negative l) = true <-> Forall (fun p => 0 <= p) l).
  { intros l. unfold check_non_negative. rewrite negb_true_iff. induction l as [|a l IH]; simpl; [split; auto; constructor|].
    rewrite orb_false_iff, IH, Z.ltb_ge. split; [intros []; now constructor|intros H; inversion H; auto]. }
  change (pyidx (n :: c :: xs) 0) with (Some n). change (pyidx (o :: ci :: ks) 0) with (Some o).
  change (pyidx (n :: c :: xs) 1) with (Some c). change (pyidx (o :: ci :: ks) 1) with (Some ci). cbn [obind].
  rewrite range2, !mapM_comp.
  set (G := fun j : nat => _). set (F := fun j : nat => _).
  assert (LZ : forall (l : list Z), zlen l = Z.of_nat (length l)) by reflexivity.
  split.
  - intros H. destruct (Z.eqb_spec (zlen (o :: ci :: ks)) rank) as [R1|]; [|discriminate]. cbn [guard obind] in H.
    destruct (Z.eqb_spec (zlen (n :: c :: xs)) rank) as [R2|]; [|discriminate]. cbn [guard obind] in H.
    destruct (negb (check_non_negative padding)) eqn:NP; [|discriminate]. cbn [guard obind] in H.
    destruct (negb (check_non_negative stride)) eqn:NS; [|discriminate]. cbn [guard obind] in H.
    apply NN in NP, NS. rewrite R1, R2, Z.eqb_refl in H. cbn [guard obind] in H.
    destruct (Z.leb_spec groups o) as [GO|]; [|discriminate]. cbn [guard obind] in H. unfold pymod in H.
    destruct (Z.eqb_spec groups 0) as [|G0]; [discriminate|]. cbn [obind] in H.
    destruct (Z.eqb_spec (o mod groups) 0) as [GD|]; [|discriminate]. cbn [guard obind] in H.
    destruct (Z.eqb_spec c (ci * groups)) as [GC|]; [|discriminate]. cbn [guard obind] in H.
    assert (B : (bias = None \/ bias = Some [o]) /\ (do _ <- mapM G (seq 0 (length xs));
       do rest <- mapM F (seq 0 (length xs)); Some (n :: o :: rest)) = Some out).
    { destruct bias as [b|]; [|split; auto; cbn [obind] in H; now destruct (mapM G (seq 0 (length xs)))].
      destruct (Z.eqb_spec (zlen b) 1) as [B1|]; [|discriminate]. cbn [guard obind] in H. destruct (zlen_1 b B1) as [b0 ->].
      change (pyidx [b0] 0) with (Some b0) in H. cbn [obind] in H. destruct (Z.eqb_spec b0 o) as [Eb|]; [|discriminate]. rewrite Eb in *.
      cbn [guard obind] in H. split; auto. now destruct (mapM G (seq 0 (length xs))). }
    destruct B as [B H']. clear H.
    destruct (mapM G (seq 0 (length xs))) as [us|] eqn:MG; [|discriminate]. cbn [obind] in H'.
    destruct (mapM F (seq 0 (length xs))) as [ys|] eqn:MF; [|discriminate]. cbn [obind] in H'. injection H' as <-.
    apply mapM_seq in MG, MF. destruct MG as [LG MG], MF as [LF MF].
    split; [lia|]. split; [rewrite <- R1, !zlen_cons, !LZ in R2; lia|]. split; [auto|]. split; [auto|]. split; [auto|].
    split; [now apply Z.mod_divide|]. split; [auto|]. split; [auto|]. split; [auto|].
    exists ys. split; [auto|]. split; [auto|]. intros j x Hx.
    assert (Hj : (j < length xs)%nat) by (apply nth_error_Some; congruence). specialize (MG j Hj). specialize (MF j Hj).
    unfold G in MG. unfold F in MF. rewrite !pyidx2, !pyidx_m2, Hx in MG. rewrite !pyidx2, !pyidx_m2, Hx in MF. cbn [obind] in MG.
    destruct (nth_error us j) as [u|] eqn:U; [|apply nth_error_None in U; lia].
    destruct (nth_error ys j) as [y|] eqn:Y; [|apply nth_error_None in Y; lia].
    destruct (nth_error padding j) as [p|] eqn:P; [|discriminate]. cbn [obind] in MG.
    destruct (nth_error dilation j) as [d|] eqn:D; [|discriminate]. cbn [obind] in MG.
    destruct (nth_error ks j) as [k|] eqn:K; [|discriminate]. cbn [obind] in MG.
    destruct (Z.ltb_spec (x + 2 * p) (d * (k - 1) + 1)) as [|Fit]; [discriminate|].
    assert (DL : 0 <? zlen dilation = true) by (rewrite LZ; destruct dilation; [now destruct j|simpl length; lia]).
    rewrite DL in MF. cbn [obind] in MF.
    destruct (nth_error stride j) as [s|] eqn:S; [|discriminate]. cbn [obind] in MF.
    assert (0 <= s) by (apply nth_error_In in S; rewrite Forall_forall in NS; auto).
    unfold pydiv in MF. destruct (Z.eqb_spec s 0); [discriminate|]. cbn [obind] in MF. injection MF as <-.
    exists k, s, p, d, ((x + 2 * p - (d * (k - 1) + 1)) / s + 1). repeat (split; [auto; fail|]).
    split; [lia|]. split; [pose proof (Z.div_pos (x + 2 * p - (d * (k - 1) + 1)) s); lia|].
    apply conv_axis_value; [lia|]. f_equal. f_equal. lia.
  - intros (R & LK & NP & NS & G0 & GD & GO & GC & B & ys & -> & LY & H).
    assert (ZK : zlen (o :: ci :: ks) = zlen (n :: c :: xs)) by (rewrite !zlen_cons, !LZ; lia).
    rewrite ZK, <- R, !Z.eqb_refl. cbn [guard obind]. apply NN in NP, NS. rewrite NP, NS. cbn [guard obind].
    destruct (Z.leb_spec groups o); [|lia]. cbn [guard obind]. unfold pymod. destruct (Z.eqb_spec groups 0); [easy|]. cbn [obind].
    apply Z.mod_divide in GD; auto. rewrite GD. change (0 =? 0) with true. cbn [guard obind]. rewrite GC, Z.eqb_refl. cbn [guard obind].
    assert (BB : (match bias with None => Some tt | Some b => assert zlen b =? 1; do b0 <- pyidx b 0; guard (b0 =? o) end) = Some tt).
    { destruct B as [-> | ->]; auto. change (zlen [o] =? 1) with true. cbn [guard obind]. change (pyidx [o] 0) with (Some o). cbn [obind].
      now rewrite Z.eqb_refl. }
    rewrite BB. cbn [obind]. clear BB.
    assert (MG : mapM G (seq 0 (length xs)) = Some (map (fun _ => tt) xs)).
    { apply mapM_seq. rewrite map_length. split; auto. intros j Hj.
      destruct (nth_error xs j) as [x|] eqn:X; [|apply nth_error_None in X; lia].
      destruct (H j x X) as (k & s & p & d & y & K & S & P & D & Y & S0 & Y1 & A).
      unfold G. rewrite !pyidx2, !pyidx_m2, X, P, D, K. cbn [obind]. rewrite nth_error_map, X. cbn [option_map].
      apply conv_axis_value in A; auto.
      destruct (Z.ltb_spec (x + 2 * p) (d * (k - 1) + 1)) as [Lt|]; [exfalso|reflexivity].
      assert ((x + p * 2 - (d * (k - 1) + 1)) / s < 0) by (apply Z.div_lt_upper_bound; lia). lia. }
    subst c. rewrite MG. cbn [obind].
    assert (MF : mapM F (seq 0 (length xs)) = Some ys).
    { apply mapM_seq. split; auto. intros j Hj.
      destruct (nth_error xs j) as [x|] eqn:X; [|apply nth_error_None in X; lia].
      destruct (H j x X) as (k & s & p & d & y & K & S & P & D & Y & S0 & Y1 & A).
      assert (DL : 0 <? zlen dilation = true) by (rewrite LZ; destruct dilation; [now destruct j|simpl length; lia]).
      unfold F. rewrite DL, !pyidx2, !pyidx_m2, X, P, D, K, S, Y. cbn [obind]. unfold pydiv. destruct (Z.eqb_spec s 0); [lia|]. cbn [obind].
      apply conv_axis_value in A; auto. rewrite A. f_equal. f_equal. f_equal. lia. }
    rewrite MF. reflexivity.
Qed.
Theorem C39_checked_convolution_ranks : forall rank input weight bias stride padding dilation groups out,
  conv_nd rank input weight bias stride padding dilation groups = Some out -> zlen input = rank /\ zlen weight = rank /\
  (length input = length out)%nat.
Proof.
  intros rank input weight bias stride padding dilation groups out H. unfold conv_nd in H.
  destruct (Z.eqb_spec (zlen weight) rank) as [W|]; [|discriminate]. cbn [guard obind] in H.
  destruct (Z.eqb_spec (zlen input) rank) as [I|]; [|discriminate]. cbn [guard obind] in H. split; auto. split; auto.
  unfold conv_output_size in H. destruct (check_shape_forward _ _ _ _ _ _ _) as [[]|] eqn:C; [|discriminate]. cbn [obind] in H.
  destruct input as [|n [|c xs]]; [discriminate| |].
  { unfold check_shape_forward in C. repeat match type of C with obind ?e _ = _ => destruct e eqn:?; [cbn [obind] in C|discriminate] end. discriminate. }
  cbn [obind] in H. change (pyidx (n :: c :: xs) 0) with (Some n) in H. cbn [obind] in H.
  destruct (pyidx weight 0); [|discriminate]. cbn [obind] in H. rewrite range2 in H.
  match type of H with obind ?e _ = _ => destruct e as [ys|] eqn:M; [|discriminate] end. cbn [obind] in H. injection H as <-.
  apply mapM_nth in M. destruct M as [L _]. rewrite map_length, seq_length in L. simpl. lia.
Qed.

(** Transposed convolution: sizes, and convolution maps them back. *)
Lemma transposed_spec : forall n c xs w0 w1 ks bias stride padding dilation output_padding groups out,
  convolution (n :: c :: xs) (w0 :: w1 :: ks) bias stride padding dilation true output_padding groups = Some out <->
  exists ys, out = n :: w1 * groups :: ys /\ length ys = length xs /\
    forall j x, nth_error xs j = Some x -> exists k s p d q, nth_error ks j = Some k /\ nth_error stride j = Some s /\
      nth_error padding j = Some p /\ at_or dilation 1 j d /\ at_or output_padding 0 j q /\
      nth_error ys j = Some ((x - 1) * s - p * 2 + d * (k - 1) + q + 1).
Proof.
  intros n c xs w0 w1 ks bias stride padding dilation output_padding groups out. unfold convolution, conv_forwards.
  change (pyidx (n :: c :: xs) 0) with (Some n). change (pyidx (w0 :: w1 :: ks) 1) with (Some w1). cbn [obind].
  rewrite range2, mapM_comp. set (F := fun j : nat => _). split.
  - intros H. destruct (mapM F (seq 0 (length xs))) as [ys|] eqn:M; [|discriminate]. cbn [obind] in H. injection H as <-.
    apply mapM_seq in M. destruct M as [L M]. exists ys. split; auto. split; auto. intros j x Hx.
    assert (Hj : (j < length xs)%nat) by (apply nth_error_Some; congruence). specialize (M j Hj). unfold F in M.
    destruct (nth_error ys j) as [y|] eqn:Y; [|apply nth_error_None in Y; lia].
    destruct (if 0 <? zlen dilation then _ else _) as [d|] eqn:D; [|discriminate]. cbn [obind] in M. apply at_or_spec in D.
    destruct (if 0 <? zlen output_padding then _ else _) as [q|] eqn:Q; [|discriminate]. cbn [obind] in M. apply at_or_spec in Q.
    rewrite !pyidx2, !pyidx_m2, Hx in M.
    destruct (nth_error ks j) as [k|] eqn:K; [|discriminate]. cbn [obind] in M.
    destruct (nth_error stride j) as [s|] eqn:S; [|discriminate]. cbn [obind] in M.
    destruct (nth_error padding j) as [p|] eqn:P; [|discriminate]. cbn [obind] in M. injection M as <-.
    exists k, s, p, d, q. repeat (split; [auto|]). auto.
  - intros (ys & -> & L & H). assert (M : mapM F (seq 0 (length xs)) = Some ys).
    { apply mapM_seq. split; auto. intros j Hj. destruct (nth_error xs j) as [x|] eqn:X; [|apply nth_error_None in X; lia].
      destruct (H j x X) as (k & s & p & d & q & K & S & P & D & Q & Y). unfold F. apply at_or_spec in D, Q. rewrite D. cbn [obind].
      rewrite Q. cbn [obind]. now rewrite !pyidx2, !pyidx_m2, X, K, S, P, Y. }
    rewrite M. reflexivity.
Qed.
Theorem C39_transposed_convolution_sizes : forall n c xs w0 w1 ks bias stride padding output_padding groups dilation out,
  conv_transpose (n :: c :: xs) (w0 :: w1 :: ks) bias stride padding output_padding groups dilation = Some out <->
  exists ys, out = n :: w1 * groups :: ys /\ length ys = length xs /\
    forall j x, nth_error xs j = Some x -> exists k s p d q, nth_error ks j = Some k /\ nth_error stride j = Some s /\
      nth_error padding j = Some p /\ at_or dilation 1 j d /\ at_or output_padding 0 j q /\
      nth_error ys j = Some ((x - 1) * s + span k d + q - 2 * p).
Proof.
  intros n c xs w0 w1 ks bias stride padding output_padding groups dilation out. unfold conv_transpose. rewrite transposed_spec.
  unfold span. split; intros (ys & E & L & H); exists ys; split; auto; split; auto; intros j x Hx;
    destruct (H j x Hx) as (k & s & p & d & q & K & S & P & D & Q & Y); exists k, s, p, d, q; repeat (split; [auto|]);
    rewrite Y; f_equal; lia.
Qed.
(** Convolving the result of a transposed convolution, with the same weight, stride, padding and
    dilation, gives back the input shape when the output padding is below the stride. *)
Theorem C39_convolution_inverts_transposed : forall n c xs w1 ks bias bias' stride padding output_padding groups dilation out,
  Forall (fun s => 0 < s) stride ->
  (forall j s q, nth_error stride j = Some s -> at_or output_padding 0 j q -> 0 <= q < s) ->
  conv_transpose (n :: c :: xs) (c :: w1 :: ks) bias stride padding output_padding groups dilation = Some out ->
  convolution out (c :: w1 :: ks) bias' stride padding dilation false [] groups = Some (n :: c :: xs).
Proof.
  intros n c xs w1 ks bias bias' stride padding output_padding groups dilation out Hs Hq H.
  apply C39_transposed_convolution_sizes in H. destruct H as (ys & -> & L & H).
  apply C39_convolution_counts_windows; auto. exists xs. split; auto. split; auto. intros j y Hy.
  assert (Hj : (j < length xs)%nat) by (rewrite <- L; apply nth_error_Some; congruence).
  destruct (nth_error xs j) as [x|] eqn:X; [|apply nth_error_None in X; lia].
  destruct (H j x X) as (k & s & p & d & q & K & S & P & D & Q & Y). rewrite Y in Hy. injection Hy as <-.
  exists x. split; auto. exists k, s, p, d, 0. do 4 (split; [assumption|]). split; [now left|].
  assert (0 < s) by (apply nth_error_In in S; rewrite Forall_forall in Hs; auto). specialize (Hq j s q S Q).
  intros m. unfold window. split; nia.
Qed.
(** The two-dimensional transposed convolution is the general one. *)
Theorem C39_conv_transpose2d_is_conv_transpose : forall input weight bias stride padding output_padding groups dilation,
  output_padding <> [] ->
  conv_transpose2d_input input weight bias stride padding output_padding groups dilation =
  conv_transpose input weight bias stride padding output_padding groups dilation.
Proof.
  intros input weight bias stride padding output_padding groups dilation Hq.
  unfold conv_transpose2d_input, conv_transpose, convolution, conv_forwards.
  assert (E : 0 <? zlen output_padding = true) by (destruct output_padding; [easy|rewrite zlen_cons; pose proof (zlen_nonneg _ output_padding); lia]).
  rewrite E. destruct (pyidx input 0); cbn [obind]; auto. destruct (pyidx weight 1); cbn [obind]; auto. f_equal.
  induction (zrange 2 (zlen input)) as [|i l IH]; auto. cbn [mapM]. rewrite IH. f_equal.
  destruct (if 0 <? zlen dilation then _ else _); cbn [obind]; auto.
  destruct (pyidx output_padding (i - 2)), (pyidx weight i), (pyidx input i), (pyidx stride (i - 2)), (pyidx padding (i - 2)); reflexivity.
Qed.
(** aten.convolution and aten.conv1d never compare channels, groups or bias. *)
Theorem C39_convolution_unchecked_refuted :
  (forall n c c' xs o ci ci' ks bias bias' stride padding dilation op g g', convolution (n :: c :: xs) (o :: ci :: ks) bias stride padding dilation false op g =
     convolution (n :: c' :: xs) (o :: ci' :: ks) bias' stride padding dilation false op g') /\
  aten_conv1d [1; 5; 8] [2; 3; 3] (Some [9]) [1] [0] [1] 1 = Some [1; 2; 6] /\
  conv_nd 3 [1; 5; 8] [2; 3; 3] (Some [9]) [1] [0] [1] 1 = None /\
  aten_conv1d [1; 3; 2] [2; 3; 5] None [1] [0] [1] 1 = Some [1; 2; -2] /\ conv_nd 3 [1; 3; 2] [2; 3; 5] None [1] [0] [1] 1 = None.
Proof.
  split; [|repeat split; reflexivity]. intros. unfold convolution, conv_forwards.
  change (pyidx (n :: c' :: xs) 0) with (pyidx (n :: c :: xs) 0). change (pyidx (o :: ci' :: ks) 0) with (pyidx (o :: ci :: ks) 0).
  destruct (pyidx (n :: c :: xs) 0); cbn [obind]; auto. destruct (pyidx (o :: ci :: ks) 0); cbn [obind]; auto.
  rewrite !range2, !mapM_comp. f_equal. induction (seq 0 (length xs)) as [|j l IH]; auto. cbn [mapM]. rewrite IH, !pyidx2. reflexivity.
Qed.
(** Where the checks of conv2d and conv3d pass, aten.convolution agrees with them. *)
Theorem C39_convolution_agrees_when_checked : forall rank input weight bias stride padding dilation groups out,
  conv_nd rank input weight bias stride padding dilation groups = Some out ->
  convolution input weight bias stride padding dilation false [] groups = Some out.
Proof.
  intros rank input weight bias stride padding dilation groups out H. unfold conv_nd in H.
  destruct (zlen weight =? rank); [|discriminate]. destruct (zlen input =? rank); [|discriminate]. cbn [guard obind] in H.
  unfold conv_output_size in H. destruct (check_shape_forward _ _ _ _ _ _ _); [|discriminate]. cbn [obind] in H.
  unfold convolution, conv_forwards. destruct (pyidx input 0); [|discriminate]. cbn [obind] in *.
  destruct (pyidx weight 0); [|discriminate]. cbn [obind] in *. rewrite <- H. f_equal. clear H.
  induction (zrange 2 (zlen input)) as [|i l IH]; auto. cbn [mapM]. rewrite IH. f_equal.
  change (0 <? zlen (@nil Z)) with false. destruct (if 0 <? zlen dilation then _ else _); cbn [obind]; auto.
  destruct (pyidx weight i) as [k|], (pyidx input i) as [x|], (pyidx stride (i - 2)) as [st|], (pyidx padding (i - 2)) as [p|];
    cbn [obind]; auto. now rewrite (Z.mul_comm p 2).
Qed.
(** conv_tbc passes the untransposed lists. *)
Theorem C39_conv_tbc_refuted : forall t b c k o bias pad,
  conv_tbc [t; b; c] [k; c; o] [bias] pad = Some [c + pad * 2 - o + 1; t; k] /\
  conv_axis t k pad 1 1 (t + pad * 2 - k + 1).
Proof.
  intros t b c k o bias pad. split.
  - unfold conv_tbc. rewrite Z.eqb_refl. cbn [guard obind]. unfold conv_forwards.
    change (0 <? zlen (@nil Z)) with false. change (zlen [t; b; c]) with 3. change (zrange 2 3) with [2].
    change (pyidx [t; b; c] 0) with (Some t). change (pyidx [k; c; o] 0) with (Some k). cbn [obind mapM].
    change (pyidx [k; c; o] 2) with (Some o). change (pyidx [t; b; c] 2) with (Some c).
    change (2 - 2) with 0. change (pyidx [1] 0) with (Some 1). change (pyidx [pad] 0) with (Some pad). cbn [obind].
    unfold pydiv. change (1 =? 0) with false. cbn [obind]. rewrite Z.div_1_r. f_equal. f_equal. lia.
  - apply conv_axis_value; [lia|]. rewrite Z.div_1_r. lia.
Qed.
Theorem C39_conv_backwards_shapes : forall n o rest input weight biases,
  conv_backwards (n :: o :: rest) input weight biases = Some (input, weight, [o]).
Proof. intros. unfold conv_backwards. rewrite !unary_spec. reflexivity. Qed.
Example C39_nonvacuous : conv2d [2; 4; 8; 9] [6; 2; 3; 2] (Some [6]) [1; 2] [1; 0] [1; 2] 2 = Some [2; 6; 8; 4] /\
  conv2d [2; 4; 8; 9] [6; 2; 3; 2] (Some [6]) [1; 2] [1; 0] [1; 2] 1 = None /\
  conv3d [1; 1; 4; 4; 4] [1; 1; 2; 2; 2] None [1; 1; 1] [0; 0; 0] [1; 1; 1] 1 = Some [1; 1; 3; 3; 3] /\
  conv_transpose [2; 6; 8; 4] [6; 2; 3; 2] None [1; 2] [1; 0] [0; 1] 2 [1; 2] = Some [2; 4; 8; 10] /\
  convolution [2; 4; 8; 10] [6; 2; 3; 2] None [1; 2] [1; 0] [1; 2] false [] 2 = Some [2; 6; 8; 4] /\
  conv_transpose2d_input [2; 6; 8; 4] [6; 2; 3; 2] None [1; 2] [1; 0] [0; 1] 2 [1; 2] = Some [2; 4; 8; 10].
Proof. repeat split; reflexivity. Qed.

(** ** C47 *)
Fixpoint map2 (f : Z -> Z -> Z) (a b : list Z) : list Z :=
  match a, b with x :: a', y :: b' => f x y :: map2 f a' b' | _, _ => [] end.
Lemma map2_app : forall f a b a' b', length a = length b -> map2 f (a ++ a') (b ++ b') = map2 f a b ++ map2 f a' b'.
Proof. induction a as [|x a IH]; destruct b as [|y b]; simpl; intros; try discriminate; auto. f_equal. auto. Qed.
Lemma skipn_set : forall k v (l : list Z), (k < length l)%nat -> skipn k (set_nth k v l) = v :: skipn (S k) l.
Proof. induction k; destruct l; simpl; intros; try lia; auto. rewrite IHk by lia. reflexivity. Qed.
Lemma firstn_snoc : forall (l : list Z) k x, nth_error l k = Some x -> firstn (S k) l = firstn k l ++ [x].
Proof.
  induction l as [|a l IH]; intros [|k] x H; try discriminate; [now injection H as ->|].
  change (firstn (S (S k)) (a :: l)) with (a :: firstn (S k) l). rewrite (IH k x H). reflexivity.
Qed.
Definition half_pad (d k : Z) : Z := d * (k - 1) / 2.
Lemma pad_fold : forall o ci ks dil acc, length acc = length ks -> (length dil <= length ks)%nat ->
  foldM (fun acc di => let '(d, i) := di in
      do w <- pyidx (o :: ci :: ks) (2 + i); do v <- pydiv (d * (w - 1)) 2; pyset acc i v)
    (combine dil (map Z.of_nat (rev (seq 0 (length dil))))) acc =
  Some (map2 half_pad (rev dil) (firstn (length dil) ks) ++ skipn (length dil) acc).
Proof.
  intros o ci ks. induction dil as [|d dil IH]; intros acc La Ld; [reflexivity|].
  cbn [length]. rewrite seq_S, rev_app_distr. cbn [rev app map combine foldM]. rewrite Nat.add_0_l. simpl in Ld.
  replace (2 + Z.of_nat (length dil)) with (Z.of_nat (S (S (length dil)))) by lia. rewrite pyidx2.
  destruct (nth_error ks (length dil)) as [k|] eqn:K; [|apply nth_error_None in K; lia]. cbn [obind].
  unfold pydiv. change (2 =? 0) with false. cbn [obind].
  assert (P : pyset acc (Z.of_nat (length dil)) (d * (k - 1) / 2) = Some (set_nth (length dil) (half_pad d k) acc)).
  { apply pyset_valid. unfold denotes. lia. }
  rewrite P. cbn [obind]. rewrite IH by (rewrite ?set_nth_length; lia). f_equal.
  rewrite skipn_set by lia. rewrite (firstn_snoc ks (length dil) k K), map2_app
    by (rewrite rev_length, firstn_length; lia). rewrite <- app_assoc. reflexivity.
Qed.
Lemma zeros_repeat : forall n, map (fun _ : Z => 0) (zrange 0 (Z.of_nat n)) = repeat 0 n.
Proof.
  intros n. unfold zrange. rewrite map_map. replace (Z.to_nat (Z.of_nat n - 0)) with n by lia. generalize 0%nat.
  induction n; intros; simpl; f_equal; auto.
Qed.
Theorem C47_valid_is_no_padding : forall o ci ks dilation, ks <> [] ->
  conv_padding (o :: ci :: ks) dilation false = Some (repeat 0 (length ks)).
Proof.
  intros o ci ks dilation Hk. unfold conv_padding. rewrite !zlen_cons.
  assert (0 < zlen ks) by (destruct ks; [easy|rewrite zlen_cons; pose proof (zlen_nonneg _ ks); lia]).
  destruct (Z.ltb_spec 2 (1 + (1 + zlen ks))); [|lia]. cbn [guard obind].
  replace (1 + (1 + zlen ks) - 2) with (Z.of_nat (length ks)) by (unfold zlen; lia). now rewrite zeros_repeat.
Qed.
(** The padding computed for 'same': half the span less one, the dilations taken in reverse order. *)
Theorem C47_same_padding_computed : forall o ci ks dilation, ks <> [] -> length dilation = length ks ->
  conv_padding (o :: ci :: ks) dilation true = Some (map2 half_pad (rev dilation) ks).
Proof.
  intros o ci ks dilation Hk Ld. unfold conv_padding. rewrite !zlen_cons.
  assert (0 < zlen ks) by (destruct ks; [easy|rewrite zlen_cons; pose proof (zlen_nonneg _ ks); lia]).
  destruct (Z.ltb_spec 2 (1 + (1 + zlen ks))); [|lia]. cbn [guard obind].
  replace (1 + (1 + zlen ks) - 2) with (Z.of_nat (length ks)) by (unfold zlen; lia). rewrite zeros_repeat.
  assert (Z0 : zrange 0 (Z.of_nat (length ks)) = map Z.of_nat (seq 0 (length dilation))).
  { unfold zrange. rewrite Ld. replace (Z.to_nat (Z.of_nat (length ks) - 0)) with (length ks) by lia. apply map_ext. intros; lia. }
  rewrite Z0, <- map_rev, pad_fold by (rewrite ?repeat_length; lia). f_equal.
  rewrite Ld, firstn_all, skipn_all2 by (rewrite repeat_length; lia). now rewrite app_nil_r.
Qed.
Theorem C47_weight_rank_checked : forall weight dilation same, (length weight <= 2)%nat -> conv_padding weight dilation same = None.
Proof. intros weight dilation same H. unfold conv_padding, zlen. destruct (Z.ltb_spec 2 (Z.of_nat (length weight))); [lia|reflexivity]. Qed.
Lemma map2_nth : forall f a b j x y, nth_error a j = Some x -> nth_error b j = Some y -> nth_error (map2 f a b) j = Some (f x y).
Proof.
  induction a as [|p a IH]; destruct b as [|q b]; destruct j; simpl; intros; try discriminate; auto.
  now injection H as ->; injection H0 as ->.
Qed.
Lemma rev_repeat : forall (d : Z) n, rev (repeat d n) = repeat d n.
Proof.
  intros d n. induction n; simpl; auto. rewrite IHn. clear. induction n; simpl; auto. now f_equal.
Qed.
Lemma nth_repeat' : forall (d : Z) n j, (j < n)%nat -> nth_error (repeat d n) j = Some d.
Proof. induction n; destruct j; simpl; intros; try lia; auto. apply IHn. lia. Qed.
(** With stride one and the same dilation on all axes, each size loses (d * (k - 1)) mod 2. *)
Theorem C47_same_padding_result : forall n c xs o ci ks bias d groups,
  ks <> [] -> length ks = length xs -> let m := length xs in
  conv1d_padding (n :: c :: xs) (o :: ci :: ks) bias (repeat 1 m) true (repeat d m) groups =
  Some (n :: o :: map2 (fun x k => x - (d * (k - 1)) mod 2) xs ks).
Proof.
  intros n c xs o ci ks bias d groups Hk L m. unfold conv1d_padding.
  rewrite C47_same_padding_computed by (auto; rewrite repeat_length; unfold m; lia). cbn [obind]. rewrite rev_repeat.
  assert (Len : forall f a b, length a = length b -> length (map2 f a b) = length a).
  { intros f. induction a as [|? a IHa]; destruct b; simpl; intros; try discriminate; auto. }
  apply C39_convolution_counts_windows.
  { apply Forall_forall. intros s Hs. apply repeat_spec in Hs. lia. }
  eexists. split; [reflexivity|]. split; [apply Len; lia|].
  intros j x Hx. assert (Hj : (j < length xs)%nat) by (apply nth_error_Some; congruence).
  destruct (nth_error ks j) as [k|] eqn:K; [|apply nth_error_None in K; lia].
  exists (x - (d * (k - 1)) mod 2). split; [exact (map2_nth (fun x k => x - (d * (k - 1)) mod 2) xs ks j x k Hx K)|].
  exists k, 1, (half_pad d k), d, 0. split; [auto|]. split; [now apply nth_repeat'|].
  split; [apply map2_nth; auto; now apply nth_repeat'|]. split; [right; split; [destruct m eqn:E; [unfold m in E; lia|discriminate]|now apply nth_repeat']|].
  split; [now left|]. apply conv_axis_value; [lia|]. rewrite Z.div_1_r. unfold half_pad.
  pose proof (Z.div_mod (d * (k - 1)) 2 ltac:(lia)). lia.
Qed.
(** So the shape is kept when every d * (k - 1) is even, for instance for odd kernels. *)
Theorem C47_same_padding_keeps_shape_partial : forall n c xs o ci ks bias d groups,
  ks <> [] -> length ks = length xs -> Forall (fun k => Z.even (d * (k - 1)) = true) ks ->
  conv1d_padding (n :: c :: xs) (o :: ci :: ks) bias (repeat 1 (length xs)) true (repeat d (length xs)) groups = Some (n :: o :: xs).
Proof.
  intros n c xs o ci ks bias d groups Hk L F. rewrite C47_same_padding_result by auto. f_equal. f_equal. f_equal.
  clear Hk. revert xs L. induction F as [|k ks E F IH]; destruct xs as [|x xs]; simpl; intros L; try discriminate; auto.
  rewrite IH by lia. f_equal. rewrite Zmod_even, E. lia.
Qed.
Theorem C47_even_kernel_loses_one_refuted : forall n c x o ci k bias groups, Z.even k = true ->
  conv1d_padding [n; c; x] [o; ci; k] bias [1] true [1] groups = Some [n; o; x - 1].
Proof.
  intros n c x o ci k bias groups E.
  pose proof (C47_same_padding_result n c [x] o ci [k] bias 1 groups ltac:(discriminate) eq_refl) as H. cbn [length repeat] in H.
  rewrite H. cbn [map2]. rewrite Zmod_even, Z.mul_1_l, Z.even_sub, E. reflexivity.
Qed.
(** Unequal dilations are applied to the wrong axes. *)
Theorem C47_dilations_reversed_refuted :
  conv_padding [1; 1; 3; 5] [1; 2] true = Some [2; 2] /\ map2 half_pad [1; 2] [3; 5] = [1; 4] /\
  conv2d_padding [1; 1; 9; 9] [1; 1; 3; 5] None [1; 1] true [1; 2] 1 = Some [1; 1; 11; 5] /\
  conv2d [1; 1; 9; 9] [1; 1; 3; 5] None [1; 1] [1; 4] [1; 2] 1 = Some [1; 1; 9; 9].
Proof. repeat split; reflexivity. Qed.
(** The two- and three-dimensional forms: the checks of conv2d and conv3d come on top. *)
Theorem C47_checked_forms_agree : forall input weight bias stride same dilation groups out,
  (conv2d_padding input weight bias stride same dilation groups = Some out \/
   conv3d_padding input weight bias stride same dilation groups = Some out) ->
  conv1d_padding input weight bias stride same dilation groups = Some out.
Proof.
  intros input weight bias stride same dilation groups out H. unfold conv1d_padding.
  unfold conv2d_padding, conv3d_padding in H. destruct (conv_padding weight dilation same) as [p|]; [|now destruct H].
  cbn [obind] in *. assert (C : convolution input weight bias stride p dilation false [] groups = Some out)
    by (destruct H as [H|H]; eapply C39_convolution_agrees_when_checked; exact H).
  rewrite <- C. unfold convolution, conv_forwards. reflexivity.
Qed.
Theorem C47_conv2d_same_padding : forall n g ci x y m kx ky d bias, 0 < g -> 0 < m -> 0 < kx -> 0 < ky -> 0 < d -> 0 < x -> 0 < y ->
  Z.even (d * (kx - 1)) = true -> Z.even (d * (ky - 1)) = true -> (bias = None \/ bias = Some [m * g]) ->
  conv2d_padding [n; ci * g; x; y] [m * g; ci; kx; ky] bias [1; 1] true [d; d] g = Some [n; m * g; x; y].
Proof.
  intros n g ci x y m kx ky d bias Hg Hm Hkx Hky Hd Hx Hy Ex Ey B. unfold conv2d_padding.
  rewrite (C47_same_padding_computed (m * g) ci [kx; ky] [d; d]) by (auto; discriminate). cbn [obind rev app map2].
  apply C39_checked_convolution_spec. split; [reflexivity|]. split; [auto|].
  assert (0 <= half_pad d kx /\ 0 <= half_pad d ky) by (unfold half_pad; split; apply Z.div_pos; nia).
  split; [repeat constructor; lia|]. split; [repeat constructor; lia|]. split; [lia|]. split; [apply Z.divide_factor_r|]. split; [nia|].
  split; [auto|]. split; [auto|]. exists [x; y]. split; [auto|]. split; [auto|].
  assert (A : forall v k, 0 < v -> 0 < k -> Z.even (d * (k - 1)) = true -> conv_axis v k (half_pad d k) 1 d v).
  { intros v k Hv Hk E. apply conv_axis_value; [lia|]. rewrite Z.div_1_r. unfold half_pad.
    pose proof (Zmod_even (d * (k - 1))) as M. rewrite E in M. pose proof (Z.div_mod (d * (k - 1)) 2 ltac:(lia)). lia. }
  intros [|[|j]] v Hv; [| |destruct j; discriminate]; injection Hv as <-.
  - exists kx, 1, (half_pad d kx), d, x. repeat (split; [reflexivity || lia|]). auto.
  - exists ky, 1, (half_pad d ky), d, y. repeat (split; [reflexivity || lia|]). auto.
Qed.
Example C47_nonvacuous : conv2d_padding [2; 4; 8; 9] [6; 2; 3; 5] (Some [6]) [1; 1] true [2; 2] 2 = Some [2; 6; 8; 9] /\
  conv2d_padding [2; 4; 8; 9] [6; 2; 3; 5] (Some [6]) [1; 1] false [1; 1] 2 = Some [2; 6; 6; 5] /\
  conv1d_padding [2; 4; 8] [6; 4; 4] None [1] true [1] 1 = Some [2; 6; 7].
Proof. repeat split; reflexivity. Qed.

Print Assumptions C39_convolution_counts_windows.
Print Assumptions C39_checked_convolution_spec.
Print Assumptions C39_convolution_inverts_transposed.
Print Assumptions C39_conv_tbc_refuted.
Print Assumptions C47_same_padding_computed.
Print Assumptions C47_same_padding_result.
Print Assumptions C47_conv2d_same_padding.
