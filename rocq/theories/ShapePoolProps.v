(** Properties C37 (pooled sizes) and C38 (default pooling stride). *)
From Coq Require Import ZArith Bool Lia List.
From Verif Require Import Prelude ShapeCoreModel ShapeCoreSpec ShapeCoreProofs ShapeViewProps ShapeMatProps ShapeDimProps
  ShapeMiscModel ShapeFlatProps ShapePoolModel ShapePoolSpec.
Import ListNotations.
Open Scope Z_scope.

Lemma pooled_unique : forall i k p s d c o o', pooled i k p s d c o -> pooled i k p s d c o' -> o = o'.
Proof.
  intros i k p s d c o o' H H'. destruct (Z.lt_trichotomy o o') as [L|[L|L]]; auto; exfalso.
  - pose proof (proj2 (H o) (proj1 (H' o) L)). lia.
  - pose proof (proj2 (H' o') (proj1 (H o') L)). lia.
Qed.
Lemma div_window : forall x s n, 0 < s -> (n <= x / s <-> n * s <= x).
Proof.
  intros x s n Hs. split; intros H.
  - pose proof (Z.mul_div_le x s Hs). nia.
  - apply Z.div_le_lower_bound; lia.
Qed.
Lemma pooled_value : forall i k p s d c, 0 < s -> (c = true -> p <= span k d) ->
  pooled i k p s d c (pooling_output_shape_pad_lr i k p p s d c).
Proof.
  intros i k p s d c Hs Hp n. unfold pooling_output_shape_pad_lr, div_rtn, window, span in *. destruct c.
  - specialize (Hp eq_refl).
    set (q := (i + p + p - d * (k - 1) - 1 + (s - 1)) / s).
    assert (Q : forall m, m <= q <-> m * s <= i + p + p - d * (k - 1) - 1 + (s - 1)) by (intros; now apply div_window).
    replace (q + 1 - 1) with q by lia. destruct (Z.leb_spec (i + p) (q * s)) as [L|L].
    + split.
      * intros H. pose proof (proj1 (Q n) ltac:(lia)). split; [lia|]. pose proof (proj1 (Q (n + 1)) ltac:(lia)). nia.
      * intros [H1 H2]. destruct (Z.lt_ge_cases n q); auto. nia.
    + split.
      * intros H. pose proof (proj1 (Q n) ltac:(lia)). split; [lia|]. nia.
      * intros [H1 H2]. pose proof (proj2 (Q n)). lia.
  - rewrite Z.add_0_r. pose proof (div_window (i + p + p - d * (k - 1) - 1) s n Hs). lia.
Qed.
(** One axis: the result counts the windows. *)
Theorem C37_pooled_axis_counts_windows : forall i k p s d c o, 0 < s -> (c = true -> p <= span k d) ->
  (pooling_output_shape i k p s d c = Some o <-> pooled i k p s d c o).
Proof.
  intros i k p s d c o Hs Hp. unfold pooling_output_shape. destruct (Z.eqb_spec s 0); [lia|]. cbn [negb guard obind].
  pose proof (pooled_value i k p s d c Hs Hp) as V. split; [intros [= <-]; auto|]. intros H. f_equal. eapply pooled_unique; eauto.
Qed.
Theorem C37_zero_stride_rejected : forall i k p d c, pooling_output_shape i k p 0 d c = None.
Proof. reflexivity. Qed.
Lemma two_spec : forall l a b, two l = Some (a, b) <-> per_axis l [a; b].
Proof.
  intros l a b. unfold two, per_axis. split.
  - destruct l as [|x [|y [|z l]]]; try discriminate; intros [= <- <-]; [right; now exists x|now left].
  - intros [->|(x & -> & [= <- <-])]; reflexivity.
Qed.
Lemma three_spec : forall l a b c, three l = Some (a, b, c) <-> per_axis l [a; b; c].
Proof.
  intros l a b c. unfold three, per_axis. split.
  - destruct l as [|x [|y [|z [|t l]]]]; try discriminate; intros [= <- <- <-]; [right; now exists x|now left].
  - intros [->|(x & -> & [= <- <- <-])]; reflexivity.
Qed.
Lemma stride_two_spec : forall l k1 k2 a b, stride_two l k1 k2 = Some (a, b) <-> stride_of l [k1; k2] [a; b].
Proof.
  intros l k1 k2 a b. unfold stride_of. destruct l as [|x l].
  - simpl. split; [intros [= <- <-]; auto|]. intros [[_ [= -> ->]]|[H _]]; [reflexivity|easy].
  - change (stride_two (x :: l) k1 k2) with (two (x :: l)). rewrite two_spec. split; [intros; right; split; auto; discriminate|].
    intros [[H _]|[_ H]]; [discriminate|auto].
Qed.
Lemma half : forall p k, p <= k / 2 <-> 2 * p <= k.
Proof. intros. lia. Qed.
Ltac bools := repeat match goal with
  | H : (_ && _) = true |- _ => apply andb_true_iff in H; destruct H
  | H : (_ <? _) = true |- _ => apply Z.ltb_lt in H
  | H : (_ <=? _) = true |- _ => apply Z.leb_le in H
  | H : (_ =? _) = true |- _ => apply Z.eqb_eq in H
  | H : negb _ = true |- _ => apply negb_true_iff in H
  | H : (_ =? _) = false |- _ => apply Z.eqb_neq in H
  end.
Lemma check2_spec : forall lead c h w kH kW dH dW pH pW lH lW oh ow, (length lead <= 1)%nat ->
  (pool2d_shape_check (lead ++ [c; h; w]) kH kW dH dW pH pW lH lW oh ow = Some tt <->
   (0 < kH /\ 0 < dH /\ 0 < lH /\ 2 * pH <= kH /\ h <> 0 /\ 1 <= oh) /\
   (0 < kW /\ 0 < dW /\ 0 < lW /\ 2 * pW <= kW /\ w <> 0 /\ 1 <= ow) /\ c <> 0).
Proof.
  intros lead c h w kH kW dH dW pH pW lH lW oh ow L. unfold pool2d_shape_check. rewrite <- (half pH kH), <- (half pW kW).
  destruct lead as [|n [|m lead]]; [| |simpl in L; lia]; cbn [app].
  - change (zlen [c; h; w]) with 3. change (pyidx [c; h; w] 1) with (Some h). change (pyidx [c; h; w] 2) with (Some w).
    change (pyidx [c; h; w] 0) with (Some c). cbn [obind Z.eqb Pos.eqb andb].
    destruct (Z.ltb_spec 0 kW), (Z.ltb_spec 0 kH); cbn [andb guard obind]; try (split; [discriminate|lia]).
    destruct (Z.ltb_spec 0 dW), (Z.ltb_spec 0 dH); cbn [andb guard obind]; try (split; [discriminate|lia]).
    destruct (Z.ltb_spec 0 lH), (Z.ltb_spec 0 lW); cbn [andb guard obind]; try (split; [discriminate|lia]).
    destruct (Z.eqb_spec c 0), (Z.eqb_spec h 0), (Z.eqb_spec w 0); cbn [andb negb guard obind]; try (split; [discriminate|lia]).
    destruct (Z.leb_spec pW (kW / 2)), (Z.leb_spec pH (kH / 2)); cbn [andb guard obind]; try (split; [discriminate|lia]).
    destruct (Z.leb_spec 1 ow), (Z.leb_spec 1 oh); cbn [andb guard obind]; try (split; [discriminate|lia]).
    split; [intros _|reflexivity]. repeat split; auto; lia.
  - change (zlen [n; c; h; w]) with 4. change (pyidx [n; c; h; w] 1) with (Some c). change (pyidx [n; c; h; w] 2) with (Some h).
    change (pyidx [n; c; h; w] 0) with (Some n). change (pyidx [n; c; h; w] 3) with (Some w). cbn [obind Z.eqb Pos.eqb andb].
    destruct (Z.ltb_spec 0 kW), (Z.ltb_spec 0 kH); cbn [andb guard obind]; try (split; [discriminate|lia]).
    destruct (Z.ltb_spec 0 dW), (Z.ltb_spec 0 dH); cbn [andb guard obind]; try (split; [discriminate|lia]).
    destruct (Z.ltb_spec 0 lH), (Z.ltb_spec 0 lW); cbn [andb guard obind]; try (split; [discriminate|lia]).
    destruct (Z.eqb_spec c 0), (Z.eqb_spec h 0), (Z.eqb_spec w 0); cbn [andb negb guard obind]; try (split; [discriminate|lia]).
    destruct (Z.leb_spec pW (kW / 2)), (Z.leb_spec pH (kH / 2)); cbn [andb guard obind]; try (split; [discriminate|lia]).
    destruct (Z.leb_spec 1 ow), (Z.leb_spec 1 oh); cbn [andb guard obind]; try (split; [discriminate|lia]).
    split; [intros _|reflexivity]. repeat split; auto; lia.
Qed.
Lemma span_ge : forall k d, 0 < k -> 0 < d -> k <= span k d.
Proof. intros. unfold span. nia. Qed.
(** [lead] is the optional batch size. *)
Definition pool2d_to (input kernel stride padding dilation : list Z) (ceil : bool) (out : list Z) : Prop :=
  exists lead c h w kH kW sH sW pH pW dH dW oh ow, (length lead <= 1)%nat /\ input = lead ++ [c; h; w] /\ c <> 0 /\
    per_axis kernel [kH; kW] /\ stride_of stride [kH; kW] [sH; sW] /\ per_axis padding [pH; pW] /\ per_axis dilation [dH; dW] /\
    pool_axis h kH pH sH dH ceil oh /\ pool_axis w kW pW sW dW ceil ow /\ out = lead ++ [c; oh; ow].
Lemma rank34 : forall (l : list Z), zlen l = 3 \/ zlen l = 4 -> exists lead c h w, l = lead ++ [c; h; w] /\ (length lead <= 1)%nat.
Proof.
  intros l H. unfold zlen in H. destruct l as [|a [|b [|c [|d [|e l]]]]]; simpl length in H; try lia.
  - exists [], a, b, c. simpl. auto.
  - exists [a], b, c, d. simpl. auto.
Qed.
Lemma last_of : forall (lead : list Z) c h w, (length lead <= 1)%nat ->
  pyidx (lead ++ [c; h; w]) (-3) = Some c /\ pyidx (lead ++ [c; h; w]) (-2) = Some h /\ pyidx (lead ++ [c; h; w]) (-1) = Some w.
Proof. intros [|n [|m lead]] c h w L; [repeat split; reflexivity|repeat split; reflexivity|simpl in L; lia]. Qed.
Lemma pool2d_spec : forall input kernel stride padding dH dW ceil out,
  pool2d input kernel stride padding dH dW ceil = Some out <-> pool2d_to input kernel stride padding [dH; dW] ceil out.
Proof.
  intros input kernel stride padding dH dW ceil out. unfold pool2d. split.
  - intros H. destruct (two kernel) as [[kH kW]|] eqn:K; [|discriminate]. cbn [obind] in H. apply two_spec in K.
    destruct (stride_two stride kH kW) as [[sH sW]|] eqn:S; [|discriminate]. cbn [obind] in H. apply stride_two_spec in S.
    destruct (two padding) as [[pH pW]|] eqn:P; [|discriminate]. cbn [obind] in H. apply two_spec in P.
    destruct ((zlen input =? 3) || (zlen input =? 4)) eqn:R; [|discriminate]. cbn [guard obind] in H.
    destruct (rank34 input) as (lead & c & h & w & -> & L); [lia|]. destruct (last_of lead c h w L) as (E1 & E2 & E3).
    rewrite E1, E2, E3 in H. cbn [obind] in H.
    destruct (pooling_output_shape h kH pH sH dH ceil) as [oh|] eqn:OH; [|discriminate]. cbn [obind] in H.
    destruct (pooling_output_shape w kW pW sW dW ceil) as [ow|] eqn:OW; [|discriminate]. cbn [obind] in H.
    destruct (pool2d_shape_check (lead ++ [c; h; w]) kH kW sH sW pH pW dH dW oh ow) as [[]|] eqn:C; [|discriminate]. cbn [obind] in H.
    apply check2_spec in C; auto. destruct C as (CH & CW & Cc).
    apply C37_pooled_axis_counts_windows in OH; [|lia|intros _; pose proof (span_ge kH dH); lia].
    apply C37_pooled_axis_counts_windows in OW; [|lia|intros _; pose proof (span_ge kW dW); lia].
    exists lead, c, h, w, kH, kW, sH, sW, pH, pW, dH, dW, oh, ow. unfold pool_axis.
    split; [auto|]. split; [auto|]. split; [auto|]. split; [auto|]. split; [auto|]. split; [auto|]. split; [now left|].
    split; [tauto|]. split; [tauto|].
    destruct lead as [|n [|m lead]]; [| |simpl in L; lia]; cbn [app] in *.
    + change (zlen [c; h; w] =? 3) with true in H. now injection H as <-.
    + change (zlen [n; c; h; w] =? 3) with false in H. change (pyidx [n; c; h; w] (-4)) with (Some n) in H. now injection H as <-.
  - intros (lead & c & h & w & kH & kW & sH & sW & pH & pW & dH' & dW' & oh & ow & L & -> & Hc & K & S & P & D & AH & AW & ->).
    assert (E : dH' = dH /\ dW' = dW) by (destruct D as [[= -> ->]|(a & X & _)]; [auto|discriminate]). destruct E; subst.
    apply two_spec in K, P. apply stride_two_spec in S. rewrite K, P. cbn [obind]. rewrite S. cbn [obind].
    assert (R : ((zlen (lead ++ [c; h; w]) =? 3) || (zlen (lead ++ [c; h; w]) =? 4)) = true).
    { destruct lead as [|n [|m lead]]; [reflexivity|reflexivity|simpl in L; lia]. }
    rewrite R. cbn [guard obind]. destruct (last_of lead c h w L) as (-> & -> & ->). cbn [obind].
    unfold pool_axis in AH, AW. destruct AH as (H1 & H2 & H3 & H4 & H5 & H6 & H7), AW as (W1 & W2 & W3 & W4 & W5 & W6 & W7).
    apply C37_pooled_axis_counts_windows in H7; [|lia|intros _; pose proof (span_ge kH dH); lia].
    apply C37_pooled_axis_counts_windows in W7; [|lia|intros _; pose proof (span_ge kW dW); lia].
    rewrite H7, W7. cbn [obind]. rewrite (proj2 (check2_spec lead c h w kH kW sH sW pH pW dH dW oh ow L)) by tauto. cbn [obind].
    destruct lead as [|n [|m lead]]; [reflexivity|reflexivity|simpl in L; lia].
Qed.
Theorem C37_max_pool2d_spec : forall input kernel stride padding dilation ceil out,
  max_pool2d input kernel stride padding dilation ceil = Some out <-> pool2d_to input kernel stride padding dilation ceil out.
Proof.
  intros input kernel stride padding dilation ceil out. unfold max_pool2d. destruct (two dilation) as [[a b]|] eqn:D; cbn [obind].
  - rewrite pool2d_spec. apply two_spec in D. unfold pool2d_to. split;
      intros (lead & c & h & w & kH & kW & sH & sW & pH & pW & dH & dW & oh & ow & L & I & Hc & K & S & P & D' & R);
      exists lead, c, h, w, kH, kW, sH, sW, pH, pW, dH, dW, oh, ow; repeat (split; [assumption|]); (split; [|exact R]).
    + destruct D' as [[= -> ->]|(x & X & _)]; [auto|discriminate].
    + apply two_spec in D, D'. rewrite D in D'. injection D' as -> ->. now left.
  - split; [discriminate|]. intros (lead & c & h & w & kH & kW & sH & sW & pH & pW & dH & dW & oh & ow & L & I & Hc & K & S & P & D' & R).
    apply two_spec in D'. congruence.
Qed.
Theorem C37_avg_pool2d_spec : forall input kernel stride padding ceil out,
  avg_pool2d input kernel stride padding ceil = Some out <-> pool2d_to input kernel stride padding [1; 1] ceil out.
Proof. intros. apply pool2d_spec. Qed.
(** Pooling with windows of one element and stride one keeps the shape. *)
Theorem C37_unit_window_keeps_the_shape : forall lead c h w ceil, (length lead <= 1)%nat -> c <> 0 -> 0 < h -> 0 < w ->
  avg_pool2d (lead ++ [c; h; w]) [1] [1] [0] ceil = Some (lead ++ [c; h; w]).
Proof.
  intros lead c h w ceil L Hc Hh Hw. apply C37_avg_pool2d_spec. exists lead, c, h, w, 1, 1, 1, 1, 0, 0, 1, 1, h, w.
  assert (A : forall x, 0 < x -> pool_axis x 1 0 1 1 ceil x).
  { intros x Hx. unfold pool_axis. repeat (split; [lia|]). intros n. unfold window, span. destruct ceil; lia. }
  split; [auto|split; [auto|split; [auto|]]]. split; [right; now exists 1|]. split; [right; split; [discriminate|right; now exists 1]|].
  split; [right; now exists 0|]. split; [now left|]. auto.
Qed.
(** Negative padding is accepted. *)
Theorem C37_negative_padding_accepted_refuted : max_pool2d [1; 8; 8] [2] [2] [-1] [1] false = Some [1; 3; 3].
Proof. reflexivity. Qed.
(** Ceil mode adds at most one window. *)
Theorem C37_ceil_adds_at_most_one : forall i k p s d o o', 0 < s -> p <= span k d ->
  pooling_output_shape i k p s d false = Some o -> pooling_output_shape i k p s d true = Some o' ->
  o' <= o + 1 /\ (p + span k d >= s -> o <= i + p -> o <= o' \/ i + p <= o' * s).
Proof.
  intros i k p s d o o' Hs Hp H H'. apply C37_pooled_axis_counts_windows in H; [|auto|discriminate].
  apply C37_pooled_axis_counts_windows in H'; [|auto|auto]. unfold pooled, window in *. split.
  - destruct (Z.le_gt_cases o' (o + 1)); auto. exfalso.
    pose proof (proj1 (H' (o + 1)) ltac:(lia)) as [X _]. pose proof (proj2 (H o)). nia.
  - intros _ _. destruct (Z.le_gt_cases o o'); auto. right. destruct (Z.le_gt_cases (i + p) (o' * s)); auto. exfalso.
    pose proof (proj1 (H o') ltac:(lia)). pose proof (proj2 (H' o')). lia.
Qed.

(** Three axes. The stride defaults to the depth of the kernel in all directions. *)
Definition pool3d_to (input kernel : list Z) (strides : Z -> Z -> Z -> list Z -> Prop) (padding dilation : list Z) (ceil : bool) (out : list Z) : Prop :=
  exists lead c x y z kx ky kz sx sy sz px py pz dx dy dz ox oy oz, (length lead <= 1)%nat /\ input = lead ++ [c; x; y; z] /\
    Forall (fun v => v <> 0) (lead ++ [c]) /\
    per_axis kernel [kx; ky; kz] /\ strides kx ky kz [sx; sy; sz] /\ per_axis padding [px; py; pz] /\ per_axis dilation [dx; dy; dz] /\
    pool_axis x kx px sx dx ceil ox /\ pool_axis y ky py sy dy ceil oy /\ pool_axis z kz pz sz dz ceil oz /\
    out = lead ++ [c; ox; oy; oz].
Definition code_stride3 (stride : list Z) (kx ky kz : Z) (v : list Z) : Prop := stride_of stride [kx; kx; kx] v.
Definition torch_stride3 (stride : list Z) (kx ky kz : Z) (v : list Z) : Prop := stride_of stride [kx; ky; kz] v.
Lemma stride_three_spec : forall l kx ky kz a b c, stride_three l kx ky kz = Some (a, b, c) <-> code_stride3 l kx ky kz [a; b; c].
Proof.
  intros l kx ky kz a b c. unfold code_stride3, stride_of. destruct l as [|x l].
  - simpl. split; [intros [= <- <- <-]; auto|]. intros [[_ [= -> -> ->]]|[H _]]; [reflexivity|easy].
  - change (stride_three (x :: l) kx ky kz) with (three (x :: l)). rewrite three_spec. split; [intros; right; split; auto; discriminate|].
    intros [[H _]|[_ H]]; [discriminate|auto].
Qed.
Lemma check3_spec : forall lead c x y z kx ky kz sx sy sz px py pz dx dy dz ox oy oz, (length lead <= 1)%nat ->
  (pool3d_shape_check (lead ++ [c; x; y; z]) kx ky kz sx sy sz px py pz dx dy dz ox oy oz = Some tt <->
   (0 < kx /\ 0 < sx /\ 0 < dx /\ 2 * px <= kx /\ x <> 0 /\ 1 <= ox) /\
   (0 < ky /\ 0 < sy /\ 0 < dy /\ 2 * py <= ky /\ y <> 0 /\ 1 <= oy) /\
   (0 < kz /\ 0 < sz /\ 0 < dz /\ 2 * pz <= kz /\ z <> 0 /\ 1 <= oz) /\ Forall (fun v => v <> 0) (lead ++ [c])).
Proof.
  intros lead c x y z kx ky kz sx sy sz px py pz dx dy dz ox oy oz L. unfold pool3d_shape_check.
  rewrite <- (half px kx), <- (half py ky), <- (half pz kz).
  assert (R : (zlen (lead ++ [c; x; y; z]) =? 4) || (zlen (lead ++ [c; x; y; z]) =? 5) = true).
  { destruct lead as [|n [|m lead]]; [reflexivity|reflexivity|simpl in L; lia]. }
  rewrite R. clear R. change [c; x; y; z] with ([c] ++ [x; y; z]). rewrite app_assoc, forallb_app.
  destruct (Z.ltb_spec 0 kx), (Z.ltb_spec 0 ky), (Z.ltb_spec 0 kz); cbn [andb guard obind]; try (split; [discriminate|lia]).
  destruct (Z.ltb_spec 0 sx), (Z.ltb_spec 0 sy), (Z.ltb_spec 0 sz); cbn [andb guard obind]; try (split; [discriminate|lia]).
  destruct (Z.ltb_spec 0 dx), (Z.ltb_spec 0 dy), (Z.ltb_spec 0 dz); cbn [andb guard obind]; try (split; [discriminate|lia]).
  destruct (forallb (fun x0 => negb (x0 =? 0)) (lead ++ [c])) eqn:F.
  2:{ cbn [andb guard obind]. split; [discriminate|]. intros (_ & _ & _ & G). exfalso.
      assert (T : forallb (fun x0 => negb (x0 =? 0)) (lead ++ [c]) = true); [|congruence].
      apply forallb_forall. intros v Hv. rewrite Forall_forall in G. apply G in Hv. destruct (Z.eqb_spec v 0); [easy|reflexivity]. }
  assert (G : Forall (fun v => v <> 0) (lead ++ [c])).
  { apply Forall_forall. intros v Hv. rewrite forallb_forall in F. apply F in Hv. destruct (Z.eqb_spec v 0); [discriminate|auto]. }
  cbn [forallb]. destruct (Z.eqb_spec x 0), (Z.eqb_spec y 0), (Z.eqb_spec z 0); cbn [andb negb guard obind]; try (split; [discriminate|lia]).
  destruct (Z.leb_spec px (kx / 2)), (Z.leb_spec pz (kz / 2)), (Z.leb_spec py (ky / 2)); cbn [andb guard obind]; try (split; [discriminate|lia]).
  destruct (Z.leb_spec 1 ox), (Z.leb_spec 1 oz), (Z.leb_spec 1 oy); cbn [andb guard obind]; try (split; [discriminate|lia]).
  split; [intros _|reflexivity]. repeat split; auto; lia.
Qed.
Lemma rank45 : forall (l : list Z), zlen l = 4 \/ zlen l = 5 -> exists lead c x y z, l = lead ++ [c; x; y; z] /\ (length lead <= 1)%nat.
Proof.
  intros l H. unfold zlen in H. destruct l as [|a [|b [|c [|d [|e [|f l]]]]]]; simpl length in H; try lia.
  - exists [], a, b, c, d. simpl. auto.
  - exists [a], b, c, d, e. simpl. auto.
Qed.
Lemma last_of4 : forall (lead : list Z) c x y z, (length lead <= 1)%nat ->
  pyidx (lead ++ [c; x; y; z]) (-4) = Some c /\ pyidx (lead ++ [c; x; y; z]) (-3) = Some x /\
  pyidx (lead ++ [c; x; y; z]) (-2) = Some y /\ pyidx (lead ++ [c; x; y; z]) (-1) = Some z.
Proof. intros [|n [|m lead]] c x y z L; [repeat split; reflexivity|repeat split; reflexivity|simpl in L; lia]. Qed.
Lemma pool3d_spec : forall input kernel stride padding dx dy dz ceil out,
  pool3d input kernel stride padding (dx, dy, dz) ceil = Some out <->
  pool3d_to input kernel (code_stride3 stride) padding [dx; dy; dz] ceil out.
Proof.
  intros input kernel stride padding dx dy dz ceil out. unfold pool3d. split.
  - intros H. destruct (three kernel) as [[[kx ky] kz]|] eqn:K; [|discriminate]. cbn [obind] in H. apply three_spec in K.
    destruct (stride_three stride kx ky kz) as [[[sx sy] sz]|] eqn:S; [|discriminate]. cbn [obind] in H. apply stride_three_spec in S.
    destruct (three padding) as [[[px py] pz]|] eqn:P; [|discriminate]. cbn [obind] in H. apply three_spec in P.
    destruct ((zlen input =? 4) || (zlen input =? 5)) eqn:R; [|discriminate]. cbn [guard obind] in H.
    destruct (rank45 input) as (lead & c & x & y & z & -> & L); [lia|]. destruct (last_of4 lead c x y z L) as (E1 & E2 & E3 & E4).
    rewrite E1, E2, E3, E4 in H. cbn [obind] in H.
    destruct (pooling_output_shape x kx px sx dx ceil) as [ox|] eqn:OX; [|discriminate]. cbn [obind] in H.
    destruct (pooling_output_shape y ky py sy dy ceil) as [oy|] eqn:OY; [|discriminate]. cbn [obind] in H.
    destruct (pooling_output_shape z kz pz sz dz ceil) as [oz|] eqn:OZ; [|discriminate]. cbn [obind] in H.
    destruct (pool3d_shape_check (lead ++ [c; x; y; z]) kx ky kz sx sy sz px py pz dx dy dz ox oy oz) as [[]|] eqn:C; [|discriminate].
    cbn [obind] in H. apply check3_spec in C; auto. destruct C as (CX & CY & CZ & Cc).
    apply C37_pooled_axis_counts_windows in OX; [|lia|intros _; pose proof (span_ge kx dx); lia].
    apply C37_pooled_axis_counts_windows in OY; [|lia|intros _; pose proof (span_ge ky dy); lia].
    apply C37_pooled_axis_counts_windows in OZ; [|lia|intros _; pose proof (span_ge kz dz); lia].
    exists lead, c, x, y, z, kx, ky, kz, sx, sy, sz, px, py, pz, dx, dy, dz, ox, oy, oz. unfold pool_axis.
    split; [auto|]. split; [auto|]. split; [auto|]. split; [auto|]. split; [auto|]. split; [auto|]. split; [now left|].
    split; [tauto|]. split; [tauto|]. split; [tauto|].
    destruct lead as [|n [|m lead]]; [| |simpl in L; lia]; cbn [app] in *.
    + change (zlen [c; x; y; z] =? 4) with true in H. now injection H as <-.
    + change (zlen [n; c; x; y; z] =? 4) with false in H. change (pyidx [n; c; x; y; z] (-5)) with (Some n) in H. now injection H as <-.
  - intros (lead & c & x & y & z & kx & ky & kz & sx & sy & sz & px & py & pz & dx' & dy' & dz' & ox & oy & oz &
            L & -> & Hc & K & S & P & D & AX & AY & AZ & ->).
    assert (E : dx' = dx /\ dy' = dy /\ dz' = dz) by (destruct D as [[= -> -> ->]|(a & X & _)]; [auto|discriminate]).
    destruct E as (? & ? & ?); subst.
    apply three_spec in K, P. apply stride_three_spec in S. rewrite K, P. cbn [obind]. rewrite S. cbn [obind].
    assert (R : ((zlen (lead ++ [c; x; y; z]) =? 4) || (zlen (lead ++ [c; x; y; z]) =? 5)) = true).
    { destruct lead as [|n [|m lead]]; [reflexivity|reflexivity|simpl in L; lia]. }
    rewrite R. cbn [guard obind]. destruct (last_of4 lead c x y z L) as (-> & -> & -> & ->). cbn [obind].
    unfold pool_axis in AX, AY, AZ.
    destruct AX as (X1 & X2 & X3 & X4 & X5 & X6 & X7), AY as (Y1 & Y2 & Y3 & Y4 & Y5 & Y6 & Y7), AZ as (Z1 & Z2 & Z3 & Z4 & Z5 & Z6 & Z7).
    apply C37_pooled_axis_counts_windows in X7; [|lia|intros _; pose proof (span_ge kx dx); lia].
    apply C37_pooled_axis_counts_windows in Y7; [|lia|intros _; pose proof (span_ge ky dy); lia].
    apply C37_pooled_axis_counts_windows in Z7; [|lia|intros _; pose proof (span_ge kz dz); lia].
    rewrite X7, Y7, Z7. cbn [obind].
    rewrite (proj2 (check3_spec lead c x y z kx ky kz sx sy sz px py pz dx dy dz ox oy oz L)) by tauto. cbn [obind].
    destruct lead as [|n [|m lead]]; [reflexivity|reflexivity|simpl in L; lia].
Qed.
Lemma max_pool3d_code : forall input kernel stride padding dilation ceil out,
  max_pool3d input kernel stride padding dilation ceil = Some out <->
  pool3d_to input kernel (code_stride3 stride) padding dilation ceil out.
Proof.
  intros input kernel stride padding dilation ceil out. unfold max_pool3d. destruct (three dilation) as [[[a b] c]|] eqn:D; cbn [obind].
  - rewrite pool3d_spec. apply three_spec in D. unfold pool3d_to. split;
      intros (lead & ch & x & y & z & kx & ky & kz & sx & sy & sz & px & py & pz & dx & dy & dz & ox & oy & oz &
            L & I & Hc & K & S & P & D' & R);
      exists lead, ch, x, y, z, kx, ky, kz, sx, sy, sz, px, py, pz, dx, dy, dz, ox, oy, oz;
      repeat (split; [assumption|]); (split; [|exact R]).
    + destruct D' as [[= -> -> ->]|(e & X & _)]; [auto|discriminate].
    + apply three_spec in D, D'. rewrite D in D'. injection D' as -> -> ->. now left.
  - split; [discriminate|].
    intros (lead & ch & x & y & z & kx & ky & kz & sx & sy & sz & px & py & pz & dx & dy & dz & ox & oy & oz &
            L & I & Hc & K & S & P & D' & R).
    apply three_spec in D'. congruence.
Qed.
Lemma stride3_agree : forall stride kernel kx ky kz v, stride <> [] \/ length kernel = 1%nat -> per_axis kernel [kx; ky; kz] ->
  (code_stride3 stride kx ky kz v <-> torch_stride3 stride kx ky kz v).
Proof.
  intros stride kernel kx ky kz v H K. unfold code_stride3, torch_stride3, stride_of. destruct H as [H|H].
  - split; (intros [[E _]|E]; [easy|right; auto]).
  - destruct K as [->|(a & -> & [= -> -> ->])]; [discriminate|]. reflexivity.
Qed.
(** With a stride, or with a single kernel size, three-dimensional pooling counts windows too. *)
Theorem C37_max_pool3d_partial : forall input kernel stride padding dilation ceil out, stride <> [] \/ length kernel = 1%nat ->
  (max_pool3d input kernel stride padding dilation ceil = Some out <->
   pool3d_to input kernel (torch_stride3 stride) padding dilation ceil out).
Proof.
  intros input kernel stride padding dilation ceil out Hs. rewrite max_pool3d_code. unfold pool3d_to. split;
    intros (lead & ch & x & y & z & kx & ky & kz & sx & sy & sz & px & py & pz & dx & dy & dz & ox & oy & oz &
            L & I & Hc & K & S & R);
    exists lead, ch, x, y, z, kx, ky, kz, sx, sy, sz, px, py, pz, dx, dy, dz, ox, oy, oz;
    repeat (split; [assumption|]); (split; [|exact R]); apply (stride3_agree stride kernel); auto.
Qed.
Theorem C37_avg_pool3d_partial : forall input kernel stride padding ceil out, stride <> [] \/ length kernel = 1%nat ->
  (avg_pool3d input kernel stride padding ceil = Some out <->
   pool3d_to input kernel (torch_stride3 stride) padding [1; 1; 1] ceil out).
Proof.
  intros input kernel stride padding ceil out Hs. unfold avg_pool3d. rewrite pool3d_spec. unfold pool3d_to. split;
    intros (lead & ch & x & y & z & kx & ky & kz & sx & sy & sz & px & py & pz & dx & dy & dz & ox & oy & oz &
            L & I & Hc & K & S & R);
    exists lead, ch, x, y, z, kx, ky, kz, sx, sy, sz, px, py, pz, dx, dy, dz, ox, oy, oz;
    repeat (split; [assumption|]); (split; [|exact R]); apply (stride3_agree stride kernel); auto.
Qed.

(** ** C38 *)
Theorem C38_default_stride_2d : forall input a b padding dilation ceil,
  max_pool2d input [a; b] [] padding dilation ceil = max_pool2d input [a; b] [a; b] padding dilation ceil /\
  max_pool2d input [a] [] padding dilation ceil = max_pool2d input [a] [a] padding dilation ceil /\
  avg_pool2d input [a; b] [] padding ceil = avg_pool2d input [a; b] [a; b] padding ceil /\
  avg_pool2d input [a] [] padding ceil = avg_pool2d input [a] [a] padding ceil.
Proof. intros. repeat split; reflexivity. Qed.
Theorem C38_default_stride_1d : forall input k padding dilation ceil,
  max_pool1d input [k] [] padding dilation ceil = max_pool1d input [k] [k] padding dilation ceil /\
  avg_pool1d input [k] [] padding ceil = avg_pool1d input [k] [k] padding ceil.
Proof. intros. split; reflexivity. Qed.
Theorem C38_default_stride_3d_partial : forall input k padding dilation ceil,
  max_pool3d input [k] [] padding dilation ceil = max_pool3d input [k] [k] padding dilation ceil /\
  max_pool3d input [k; k; k] [] padding dilation ceil = max_pool3d input [k; k; k] [k; k; k] padding dilation ceil /\
  avg_pool3d input [k] [] padding ceil = avg_pool3d input [k] [k] padding ceil /\
  avg_pool3d input [k; k; k] [] padding ceil = avg_pool3d input [k; k; k] [k; k; k] padding ceil.
Proof. intros. repeat split; reflexivity. Qed.
(** With different kernel sizes the three-dimensional default is the depth in every direction. *)
Theorem C38_default_stride_3d_refuted : forall input a b c padding dilation ceil,
  max_pool3d input [a; b; c] [] padding dilation ceil = max_pool3d input [a; b; c] [a; a; a] padding dilation ceil /\
  avg_pool3d input [a; b; c] [] padding ceil = avg_pool3d input [a; b; c] [a; a; a] padding ceil /\
  max_pool3d [1; 8; 8; 8] [2; 4; 4] [] [0] [1] false = Some [1; 4; 3; 3] /\
  max_pool3d [1; 8; 8; 8] [2; 4; 4] [2; 4; 4] [0] [1] false = Some [1; 4; 2; 2].
Proof. intros. repeat split; reflexivity. Qed.

(** One axis: no argument is checked beyond a zero stride. *)
Theorem C37_pool1d_partial : forall lead c l k s p ceil o, (length lead <= 1)%nat -> 0 < s -> (ceil = true -> p <= k) ->
  (avg_pool1d (lead ++ [c; l]) [k] [s] [p] ceil = Some (lead ++ [c; o]) <-> pooled l k p s 1 ceil o).
Proof.
  intros lead c l k s p ceil o L Hs Hp. rewrite <- C37_pooled_axis_counts_windows by (auto; intros E; unfold span; specialize (Hp E); lia).
  unfold avg_pool1d, pool1d. cbn [obind].
  assert (R : ((zlen (lead ++ [c; l]) =? 2) || (zlen (lead ++ [c; l]) =? 3)) = true /\ pyidx (lead ++ [c; l]) (-2) = Some c /\
    pyidx (lead ++ [c; l]) (-1) = Some l).
  { destruct lead as [|n [|m lead]]; [repeat split; reflexivity|repeat split; reflexivity|simpl in L; lia]. }
  destruct R as (-> & -> & ->). cbn [guard obind]. destruct (pooling_output_shape l k p s 1 ceil) as [q|]; cbn [obind].
  - destruct lead as [|n [|m lead]]; [| |simpl in L; lia]; cbn [app].
    + change (zlen [c; l] =? 2) with true. split; [intros [= ->]; auto|intros [= ->]; auto].
    + change (zlen [n; c; l] =? 2) with false. change (pyidx [n; c; l] (-3)) with (Some n). cbn [obind].
      split; [intros [= ->]; auto|intros [= ->]; auto].
  - split; discriminate.
Qed.
Theorem C37_pool1d_unchecked_refuted : avg_pool1d [1; 2] [5] [1] [0] false = Some [1; -2] /\
  (forall o, ~ pool_axis 2 5 0 1 1 false o).
Proof.
  split; [reflexivity|]. intros o (_ & _ & _ & _ & _ & H & P). pose proof (proj1 (P 0) ltac:(lia)) as W. unfold window, span in W. lia.
Qed.
(** max_pool1d never looks at the dilation. *)
Theorem C37_max_pool1d_dilation_ignored_refuted : forall input kernel stride padding d d' ceil,
  max_pool1d input kernel stride padding d ceil = max_pool1d input kernel stride padding d' ceil /\
  max_pool1d [1; 9] [3] [1] [0] [4] false = Some [1; 7] /\ pooled 9 3 0 1 4 false 1.
Proof.
  intros. split; [reflexivity|]. split; [reflexivity|]. apply C37_pooled_axis_counts_windows; [lia|discriminate|reflexivity].
Qed.

(** Adaptive pooling: the trailing sizes are the requested ones. *)
Lemma take_range : forall (s : list Z) n, 0 <= n <= zlen s -> mapM (pyidx s) (zrange 0 n) = Some (firstn (Z.to_nat n) s).
Proof. intros s n H. rewrite mapM_slice by lia. f_equal. unfold pyslice, clampb. destruct (Z.ltb_spec 0 0), (Z.ltb_spec n 0); try lia.
  replace (Z.max 0 (Z.min 0 (zlen s))) with 0 by lia. replace (Z.max 0 (Z.min n (zlen s))) with n by lia.
  now rewrite Z.sub_0_r. Qed.
Theorem C37_adaptive_pool_spec : forall self out dim res, 0 <= dim ->
  (adaptive_pool self out dim = Some res <->
   exists lead spatial, self = lead ++ spatial /\ zlen spatial = dim /\ zlen out = dim /\ (1 <= length lead <= 2)%nat /\
     Forall (fun x => x <> 0) self /\ res = lead ++ out).
Proof.
  intros self out dim res Hd. unfold adaptive_pool. split.
  - intros H. destruct (Z.eqb_spec (zlen out) dim) as [O|]; [|discriminate]. cbn [guard obind] in H.
    destruct ((zlen self =? dim + 1) || (zlen self =? dim + 2)) eqn:R; [|discriminate]. cbn [guard obind] in H.
    destruct (forallb _ self) eqn:F; [|discriminate]. cbn [guard obind] in H.
    rewrite take_range in H by lia. cbn [obind] in H. rewrite take_range in H by (pose proof (zlen_nonneg _ out); lia). cbn [obind] in H.
    injection H as <-. exists (firstn (Z.to_nat (zlen self - dim)) self), (skipn (Z.to_nat (zlen self - dim)) self).
    unfold zlen in *. rewrite firstn_length, skipn_length. split; [now rewrite firstn_skipn|].
    split; [lia|]. split; [auto|]. split; [lia|]. split.
    + apply Forall_forall. intros v Hv. rewrite forallb_forall in F. apply F in Hv. destruct (Z.eqb_spec v 0); [discriminate|auto].
    + f_equal. rewrite firstn_all2; auto. lia.
  - intros (lead & spatial & -> & S & O & L & F & ->). rewrite O, Z.eqb_refl. cbn [guard obind].
    rewrite zlen_app, S. unfold zlen at 1 2.
    destruct (Z.eqb_spec (Z.of_nat (length lead) + dim) (dim + 1)), (Z.eqb_spec (Z.of_nat (length lead) + dim) (dim + 2));
      cbn [orb guard obind]; try lia.
    all: assert (T : forallb (fun x => negb (x =? 0)) (lead ++ spatial) = true) by
        (apply forallb_forall; intros v Hv; rewrite Forall_forall in F; apply F in Hv; destruct (Z.eqb_spec v 0); [easy|reflexivity]);
      rewrite T; cbn [guard obind]; unfold zlen at 1; rewrite take_range by (rewrite zlen_app; unfold zlen; lia); cbn [obind];
      rewrite take_range by (rewrite O; lia); cbn [obind]; f_equal; f_equal;
      [replace (Z.to_nat (Z.of_nat (length lead) + dim - dim)) with (length lead) by lia;
       rewrite firstn_app, Nat.sub_diag, firstn_all, firstn_O, app_nil_r; reflexivity
      |apply firstn_all2; unfold zlen in O; lia].
Qed.
Theorem C37_adaptive_avg_pool1d_is_adaptive_pool : forall self out, adaptive_avg_pool1d self out = adaptive_pool self out 1.
Proof.
  intros self out. unfold adaptive_avg_pool1d, adaptive_pool. destruct (Z.eqb_spec (zlen out) 1) as [O|]; cbn [guard obind]; auto.
  change (1 + 1) with 2. change (1 + 2) with 3. destruct ((zlen self =? 2) || (zlen self =? 3)); cbn [guard obind]; auto.
  destruct (forallb _ self); cbn [guard obind]; auto. destruct (mapM (pyidx self) (zrange 0 (zlen self - 1))); cbn [obind]; auto.
  destruct (zlen_1 out O) as [x ->]. reflexivity.
Qed.
(** The two-dimensional average accepts an empty batch, and rejects the other empty dims. *)
Theorem C37_adaptive_avg_pool2d_spec : forall self out res,
  adaptive_avg_pool2d self out = Some res <->
  exists lead h w oh ow, self = lead ++ [h; w] /\ out = [oh; ow] /\ (1 <= length lead <= 2)%nat /\
    Forall (fun x => x <> 0) (tl self) /\ res = lead ++ [oh; ow].
Proof.
  intros self out res. unfold adaptive_avg_pool2d.
  assert (M : mapM (fun i => do x <- pyidx self i; guard (negb (x =? 0))) (zrange 1 (zlen self)) <> None <-> Forall (fun x => x <> 0) (tl self)).
  { destruct self as [|a self]; [simpl; split; [constructor|discriminate]|]. cbn [tl]. rewrite Forall_forall. split.
    - intros H x Hx. destruct (mapM _ _) as [r|] eqn:E; [|easy]. apply mapM_nth in E. destruct E as [Lr E]. rewrite zrange_length, zlen_cons in Lr.
      apply In_nth_error in Hx. destruct Hx as [k Hk].
      assert (Hl : (k < length self)%nat) by (apply nth_error_Some; congruence).
      specialize (E k (1 + Z.of_nat k)). rewrite nth_zrange in E. rewrite zlen_cons in E.
      destruct (Nat.ltb_spec k (Z.to_nat (1 + zlen self - 1))); [|unfold zlen in *; lia]. specialize (E eq_refl).
      replace (1 + Z.of_nat k) with (Z.of_nat (S k)) in E by lia. rewrite pyidx_nat in E. cbn [nth_error] in E. rewrite Hk in E.
      cbn [obind] in E. destruct (Z.eqb_spec x 0); [|auto]. cbn [negb guard] in E. symmetry in E. apply nth_error_None in E. lia.
    - intros H E.
      assert (X : forall l, (forall i, In i l -> 1 <= i < zlen (a :: self)) ->
        mapM (fun i => do x <- pyidx (a :: self) i; guard (negb (x =? 0))) l <> None).
      { induction l as [|i l IH]; intros Hl; [discriminate|]. cbn [mapM].
        assert (Hi : 1 <= i < zlen (a :: self)) by (apply Hl; now left). rewrite zlen_cons in Hi.
        rewrite pyidx_pos by lia. replace (Z.to_nat i) with (S (Z.to_nat (i - 1))) by lia. cbn [nth_error].
        destruct (nth_error self (Z.to_nat (i - 1))) as [x|] eqn:N; [|apply nth_error_None in N; unfold zlen in Hi; lia].
        cbn [obind]. apply nth_error_In in N. apply H in N. destruct (Z.eqb_spec x 0); [easy|]. cbn [negb guard obind].
        destruct (mapM _ l) eqn:F; [discriminate|]. exfalso. apply IH; auto. intros j Hj. apply Hl. now right. }
      apply (X (zrange 1 (zlen (a :: self)))); [|exact E]. intros i Hi. now apply in_zrange in Hi. }
  split.
  - intros H. destruct (Z.eqb_spec (zlen out) 2) as [O|]; [|discriminate]. cbn [guard obind] in H.
    destruct ((zlen self =? 3) || (zlen self =? 4)) eqn:R; [|discriminate]. cbn [guard obind] in H.
    destruct (mapM _ (zrange 1 (zlen self))) eqn:E; [|discriminate]. cbn [obind] in H.
    assert (F : Forall (fun x => x <> 0) (tl self)) by (apply M; discriminate). clear M E.
    rewrite take_range in H by lia. cbn [obind] in H. rewrite take_range in H by lia. cbn [obind] in H. injection H as <-.
    unfold zlen in O, R. destruct out as [|oh [|ow [|? ?]]]; simpl length in O; try lia.
    destruct self as [|a [|b [|c [|d [|e l0]]]]]; simpl length in R; try lia.
    + exists [a], b, c, oh, ow. simpl in *. repeat split; auto.
    + exists [a; b], c, d, oh, ow. simpl in *. repeat split; auto.
  - intros (lead & h & w & oh & ow & -> & -> & L & F & ->). change (zlen [oh; ow] =? 2) with true. cbn [guard obind].
    assert (R : (zlen (lead ++ [h; w]) =? 3) || (zlen (lead ++ [h; w]) =? 4) = true).
    { rewrite zlen_app. change (zlen [h; w]) with 2. unfold zlen. lia. }
    rewrite R. cbn [guard obind]. destruct (mapM _ (zrange 1 (zlen (lead ++ [h; w])))) eqn:E; [|exfalso; apply M in F; easy].
    cbn [obind]. rewrite take_range by lia. cbn [obind]. rewrite take_range by (change (zlen [oh; ow]) with 2; lia). cbn [obind].
    f_equal. f_equal. rewrite zlen_app. change (zlen [h; w]) with 2. unfold zlen.
    replace (Z.to_nat (Z.of_nat (length lead) + 2 - 2)) with (length lead) by lia.
    now rewrite firstn_app, Nat.sub_diag, firstn_all, firstn_O, app_nil_r.
Qed.
(** The other adaptive pools reject an empty batch, which torch accepts. *)
Theorem C37_adaptive_empty_batch_refuted : adaptive_avg_pool2d [0; 3; 4; 4] [2; 2] = Some [0; 3; 2; 2] /\
  adaptive_pool [0; 3; 4; 4] [2; 2] 2 = None /\ max_pool3d [0; 1; 4; 4; 4] [2] [2] [0] [1] false = None /\
  max_pool2d [0; 1; 4; 4] [2] [2] [0] [1] false = Some [0; 1; 2; 2].
Proof. repeat split; reflexivity. Qed.
(** max_unpool keeps the leading sizes. *)
Theorem C37_max_unpool_spec : forall n self indices output_size res, 0 < n ->
  (max_unpool n self indices output_size = Some res <->
   length self = length indices /\ zlen output_size = n /\
   exists lead spatial, self = lead ++ spatial /\ zlen spatial = n /\ (1 <= length lead <= 2)%nat /\ res = lead ++ output_size).
Proof.
  intros n self indices output_size res Hn. unfold max_unpool. split.
  - intros H. destruct ((zlen self =? n + 2) || (zlen self =? n + 1)) eqn:R; [|discriminate]. cbn [guard obind] in H.
    destruct (Z.eqb_spec (zlen output_size) n) as [O|]; [|discriminate]. cbn [guard obind] in H.
    destruct (Z.eqb_spec (zlen self) (zlen indices)) as [I|]; [|discriminate]. cbn [guard obind] in H.
    split; [unfold zlen in I; lia|]. split; auto. unfold zlen in *. destruct (Z.eqb_spec (Z.of_nat (length self)) (n + 2)).
    + destruct self as [|a [|b sp]]; simpl length in *; try lia. change (pyidx (a :: b :: sp) 0) with (Some a) in H.
      change (pyidx (a :: b :: sp) 1) with (Some b) in H. cbn [obind] in H. injection H as <-.
      exists [a; b], sp. simpl. repeat split; auto; lia.
    + destruct self as [|a sp]; simpl length in *; try lia. change (pyidx (a :: sp) 0) with (Some a) in H.
      cbn [obind] in H. injection H as <-. exists [a], sp. simpl. repeat split; auto; lia.
  - intros (I & O & lead & sp & -> & S & L & ->). assert (I' : zlen indices = zlen (lead ++ sp)) by (unfold zlen; lia).
    rewrite I', O, !Z.eqb_refl. rewrite zlen_app, S. destruct lead as [|a [|b [|c lead]]]; simpl length in L; try lia.
    + change (zlen [a]) with 1. destruct (Z.eqb_spec (1 + n) (n + 2)); [lia|]. destruct (Z.eqb_spec (1 + n) (n + 1)); [|lia]. reflexivity.
    + change (zlen [a; b]) with 2. destruct (Z.eqb_spec (2 + n) (n + 2)); [|lia]. reflexivity.
Qed.
Example C37_nonvacuous : max_pool2d [2; 3; 7; 8] [3; 2] [2] [1] [1] true = Some [2; 3; 4; 5] /\
  max_pool2d [3; 7; 8] [3; 2] [2] [1] [1] false = Some [3; 4; 5] /\ avg_pool2d [3; 2; 2] [4] [1] [0] false = None /\
  avg_pool3d [3; 7; 8; 9] [3] [2] [1] true = Some [3; 4; 5; 5] /\ avg_pool1d [3; 7] [3] [2] [1] true = Some [3; 4] /\
  pool_axis 8 2 1 2 1 true 5 /\ max_unpool 2 [1; 2; 3; 4] [1; 2; 3; 4] [6; 8] = Some [1; 2; 6; 8].
Proof.
  repeat (split; [reflexivity|]). split; [|reflexivity]. unfold pool_axis. repeat (split; [lia|]).
  apply C37_pooled_axis_counts_windows; [lia|unfold span; lia|reflexivity].
Qed.

Print Assumptions C37_pooled_axis_counts_windows.
Print Assumptions C37_max_pool2d_spec.
Print Assumptions C37_max_pool3d_partial.
Print Assumptions C37_adaptive_pool_spec.
Print Assumptions C37_adaptive_avg_pool2d_spec.
Print Assumptions C38_default_stride_3d_refuted.
