(** Properties C85 (resizing and regions of images) and C86 (ranges and tensors built from numbers). *)
From Coq Require Import ZArith QArith Qround Bool Lia List.
From Verif Require Import Prelude ShapeCoreModel ShapeCoreSpec ShapeCoreProofs ShapeBroadcastProps ShapeViewProps ShapeDimProps
  ShapeMatProps ShapeMiscModel ShapeMoreModel ShapeMoreSpec.
Import ListNotations.
Open Scope Z_scope.

(** ** Rounding *)

(** [m] is [q] with its fraction dropped. *)
Definition toward_zero (q : Q) (m : Z) : Prop :=
  ((0 <= q)%Q /\ (inject_Z m <= q)%Q /\ (q < inject_Z (m + 1))%Q) \/
  ((q < 0)%Q /\ (inject_Z (m - 1) < q)%Q /\ (q <= inject_Z m)%Q).
Lemma floor_unique : forall q m, (inject_Z m <= q)%Q -> (q < inject_Z (m + 1))%Q -> m = Qfloor q.
Proof.
  intros q m H1 H2. pose proof (Qfloor_le q) as F1. pose proof (Qlt_floor q) as F2.
  assert (A : (inject_Z m < inject_Z (Qfloor q + 1))%Q) by (eapply Qle_lt_trans; eauto). rewrite <- Zlt_Qlt in A.
  assert (B : (inject_Z (Qfloor q) < inject_Z (m + 1))%Q) by (eapply Qle_lt_trans; eauto). rewrite <- Zlt_Qlt in B. lia.
Qed.
Lemma ceiling_unique : forall q m, (inject_Z (m - 1) < q)%Q -> (q <= inject_Z m)%Q -> m = Qceiling q.
Proof.
  intros q m H1 H2. pose proof (Qle_ceiling q) as F1. pose proof (Qceiling_lt q) as F2.
  assert (A : (inject_Z (m - 1) < inject_Z (Qceiling q))%Q) by (eapply Qlt_le_trans; eauto). rewrite <- Zlt_Qlt in A.
  assert (B : (inject_Z (Qceiling q - 1) < inject_Z m)%Q) by (eapply Qlt_le_trans; eauto). rewrite <- Zlt_Qlt in B. lia.
Qed.
Theorem C85_truncation : forall q m, qtrunc q = m <-> toward_zero q m.
Proof.
  intros q m. unfold qtrunc, toward_zero. destruct (Qle_bool 0 q) eqn:E.
  - apply Qle_bool_iff in E. split.
    + intros <-. left. split; auto. split; [apply Qfloor_le|apply Qlt_floor].
    + intros [(_ & A & B)|(A & _)]; [symmetry; now apply floor_unique|]. exfalso. eapply Qlt_not_le; eauto.
  - assert (N : (q < 0)%Q).
    { apply Qnot_le_lt. intros H. apply Qle_bool_iff in H. congruence. }
    split.
    + intros <-. right. split; auto. split; [apply Qceiling_lt|apply Qle_ceiling].
    + intros [(A & _)|(_ & A & B)]; [exfalso; eapply Qlt_not_le; eauto|]. symmetry. now apply ceiling_unique.
Qed.
Theorem C85_truncation_unique : forall q m m', toward_zero q m -> toward_zero q m' -> m = m'.
Proof. intros q m m' H H'. apply C85_truncation in H, H'. congruence. Qed.

(** ** Resizing *)

(** The sizes after batch and channels become [sizes]. *)
Definition resized (input sizes out : list Z) : Prop :=
  exists n c sp, input = n :: c :: sp /\ length sizes = length sp /\ out = n :: c :: sizes.
(** Each size scaled, with its fraction dropped. *)
Definition scaled (input : list Z) (factors : list Q) (out : list Z) : Prop :=
  exists n c sp new, input = n :: c :: sp /\ length factors = length sp /\
    Forall2 (fun zq m => toward_zero (inject_Z (fst zq) * snd zq) m) (combine sp factors) new /\ out = n :: c :: new.
Lemma truncated : forall z q, toward_zero (inject_Z z * q) (qtrunc (zmulq z q)).
Proof. intros. now apply C85_truncation. Qed.
Theorem C85_interpolate_to_size : forall n c h w a b out, interpolate [n; c; h; w] (Some [a; b]) None = Some out <->
  resized [n; c; h; w] [a; b] out.
Proof.
  intros. split.
  - intros [= <-]. exists n, c, [h; w]. auto.
  - intros (n' & c' & sp & [= <- <- <-] & _ & ->). reflexivity.
Qed.
Theorem C85_interpolate_by_factor : forall n c h w f g out, interpolate [n; c; h; w] None (Some [f; g]) = Some out <->
  scaled [n; c; h; w] [f; g] out.
Proof.
  intros. split.
  - intros [= <-]. exists n, c, [h; w], [qtrunc (zmulq h f); qtrunc (zmulq w g)]. repeat split.
    cbn [combine]. constructor; [apply truncated|constructor; [apply truncated|constructor]].
  - intros (n' & c' & sp & new & [= <- <- <-] & _ & F & ->). simpl in F. inversion F as [|? a ? ? A F1]; subst. inversion F1 as [|? b ? ? B F2]; subst.
    inversion F2; subst. apply C85_truncation in A, B. simpl in A, B. subst. reflexivity.
Qed.
Theorem C85_interpolate_needs_one : forall input size scale out, interpolate input size scale = Some out ->
  (size = None <-> scale <> None).
Proof.
  intros input size scale out H. unfold interpolate in H. destruct (pyidx input 0); [|discriminate]. destruct (pyidx input 1); [|discriminate].
  destruct size, scale; try discriminate; split; congruence.
Qed.
(** Images of other ranks are refused or lose axes. *)
Theorem C85_interpolate_other_ranks_refuted :
  (interpolate [1; 2; 8] (Some [4]) None = None /\ resized [1; 2; 8] [4] [1; 2; 4]) /\
  (interpolate [1; 2; 8; 8; 8] (Some [4; 4; 4]) None = Some [1; 2; 4; 4] /\ resized [1; 2; 8; 8; 8] [4; 4; 4] [1; 2; 4; 4; 4]).
Proof.
  split; (split; [reflexivity|]).
  - now exists 1, 2, [8].
  - now exists 1, 2, [8; 8; 8].
Qed.
Theorem C85_upsample_vec_is_interpolate : forall input size scale, upsample2d_vec input size scale = interpolate input size scale.
Proof.
  intros input size scale. unfold upsample2d_vec, interpolate. destruct size as [sz|], scale as [sf|]; destruct (pyidx input 0); cbn [obind]; auto;
  destruct (pyidx input 1); cbn [obind]; auto.
  destruct (pyidx input 2); cbn [obind]; auto; destruct (pyidx sf 0); cbn [obind]; auto.
  destruct (pyidx input 3); cbn [obind]; auto; now destruct (pyidx sf 1).
Qed.
Theorem C85_upsample_to_size : forall n c h w a b,
  (forall out, upsample2d [n; c; h; w] [a; b] = Some out <-> resized [n; c; h; w] [a; b] out) /\
  (forall out, upsample1d [n; c; w] [b] = Some out <-> resized [n; c; w] [b] out) /\
  (forall out, upsample1d_vec [n; c; w] (Some [b]) None = Some out <-> resized [n; c; w] [b] out).
Proof.
  intros n c h w a b. repeat split.
  - intros [= <-]. now exists n, c, [h; w].
  - intros (n' & c' & sp & [= <- <- <-] & _ & ->). reflexivity.
  - intros [= <-]. now exists n, c, [w].
  - intros (n' & c' & sp & [= <- <- <-] & _ & ->). reflexivity.
  - intros [= <-]. now exists n, c, [w].
  - intros (n' & c' & sp & [= <- <- <-] & _ & ->). reflexivity.
Qed.
Theorem C85_upsample1d_by_factor : forall n c w f out, upsample1d_vec [n; c; w] None (Some [f]) = Some out <-> scaled [n; c; w] [f] out.
Proof.
  intros. split.
  - intros [= <-]. exists n, c, [w], [qtrunc (zmulq w f)]. repeat split. cbn [combine]. constructor; [apply truncated|constructor].
  - intros (n' & c' & sp & new & [= <- <- <-] & _ & F & ->). simpl in F. inversion F as [|? a ? ? A F1]; subst. inversion F1; subst.
    apply C85_truncation in A. simpl in A. subst. reflexivity.
Qed.
Theorem C85_upsample_needs_one : forall input size scale out,
  upsample1d_vec input size scale = Some out -> (size = None <-> scale <> None).
Proof. intros input [|] [|] out H; try discriminate; split; congruence. Qed.
(** Shapes that are too short are refused, and further sizes are not looked at. *)
Theorem C85_upsample_reads : forall self out o,
  (upsample1d self out = Some o <-> exists n c sp w r, self = n :: c :: sp /\ out = w :: r /\ o = [n; c; w]) /\
  (upsample2d self out = Some o <-> exists n c sp h w r, self = n :: c :: sp /\ out = h :: w :: r /\ o = [n; c; h; w]).
Proof.
  intros self out o. split; split.
  - destruct self as [|n [|c sp]]; try discriminate. destruct out as [|w r]; [discriminate|]. intros [= <-]. exists n, c, sp, w, r. auto.
  - intros (n & c & sp & w & r & -> & -> & ->). reflexivity.
  - destruct self as [|n [|c sp]]; try discriminate. destruct out as [|h [|w r]]; try discriminate. intros [= <-]. exists n, c, sp, h, w, r. auto.
  - intros (n & c & sp & h & w & r & -> & -> & ->). reflexivity.
Qed.

(** ** Sampling and regions *)

Theorem C85_grid_sampler_spec : forall input grid out, grid_sampler input grid = Some out <->
  exists n c sp n' h w r, input = n :: c :: sp /\ grid = n' :: h :: w :: r /\ out = [n; c; h; w].
Proof.
  intros input grid out. split.
  - destruct input as [|n [|c sp]]; try discriminate. destruct grid as [|n' [|h [|w r]]]; try discriminate. intros [= <-].
    exists n, c, sp, n', h, w, r. auto.
  - intros (n & c & sp & n' & h & w & r & -> & -> & ->). reflexivity.
Qed.
(** Volumes sampled at points lose an axis; batches are not compared. *)
Theorem C85_grid_sampler_volumes_refuted : forall n c d h w d' h' w', 
  grid_sampler [n; c; d; h; w] [n; d'; h'; w'; 3] = Some [n; c; d'; h'] /\ ~ resized [n; c; d; h; w] [d'; h'; w'] [n; c; d'; h'].
Proof. intros. split; [reflexivity|]. intros (? & ? & ? & _ & _ & [=]). Qed.
Theorem C85_roi_align_spec : forall input rois h w out, roi_align input rois h w = Some out <->
  exists k r n c sp, rois = k :: r /\ input = n :: c :: sp /\ out = [k; c; h; w].
Proof.
  intros input rois h w out. split.
  - destruct rois as [|k r]; [discriminate|]. destruct input as [|n [|c sp]]; try discriminate. intros [= <-]. exists k, r, n, c, sp. auto.
  - intros (k & r & n & c & sp & -> & -> & ->). reflexivity.
Qed.
Theorem C85_roi_pool_agrees : forall input rois h w o o', roi_pool input rois h w = Some (o, o') <-> roi_align input rois h w = Some o /\ o' = o.
Proof.
  intros. unfold roi_pool. destruct (roi_align input rois h w) as [x|]; cbn [obind]; split; try discriminate.
  - intros [= <- <-]. auto.
  - intros [[= ->] ->]. auto.
  - intros [? _]. discriminate.
Qed.
Theorem C85_deform_conv2d_spec : forall input weight offset out, deform_conv2d input weight offset = Some out <->
  exists n ir c wr a b h w r, input = n :: ir /\ weight = c :: wr /\ offset = a :: b :: h :: w :: r /\ out = [n; c; h; w].
Proof.
  intros input weight offset out. split.
  - destruct input as [|n ir]; [discriminate|]. destruct weight as [|c wr]; [discriminate|]. destruct offset as [|a [|b [|h [|w r]]]]; try discriminate.
    intros [= <-]. exists n, ir, c, wr, a, b, h, w, r. auto.
  - intros (n & ir & c & wr & a & b & h & w & r & -> & -> & -> & ->). reflexivity.
Qed.
Example C85_nonvacuous :
  interpolate [1; 3; 5; 8] None (Some [3 # 2; 1 # 4]%Q) = Some [1; 3; 7; 2] /\ interpolate [1; 3; 5; 8] (Some [2; 2]) (Some [1; 1]%Q) = None /\
  qtrunc (- (3 # 2)) = -1 /\ upsample1d_vec [1; 3; 5] None (Some [2 # 1]%Q) = Some [1; 3; 10] /\
  roi_align [2; 3; 8; 8] [7; 5] 4 5 = Some [7; 3; 4; 5] /\ deform_conv2d [2; 3; 8; 8] [6; 3; 3; 3] [2; 18; 6; 6] = Some [2; 6; 6; 6].
Proof. repeat split; reflexivity. Qed.

(** ** Ranges *)

Lemma qlt_spec : forall a b, qlt a b = true <-> (a < b)%Q.
Proof.
  intros a b. unfold qlt. rewrite negb_true_iff. split.
  - intros H. apply Qnot_le_lt. intros L. apply Qle_bool_iff in L. congruence.
  - intros H. destruct (Qle_bool b a) eqn:E; auto. apply Qle_bool_iff in E. exfalso. eapply Qlt_not_le; eauto.
Qed.
Lemma qlt_false : forall a b, qlt a b = false <-> (b <= a)%Q.
Proof. intros a b. unfold qlt. rewrite negb_false_iff. apply Qle_bool_iff. Qed.
Lemma below_ceiling : forall q i, (inject_Z i < q)%Q <-> i < Qceiling q.
Proof.
  intros q i. split.
  - intros H. rewrite Zlt_Qlt. eapply Qlt_le_trans; [exact H|apply Qle_ceiling].
  - intros H. pose proof (Qceiling_lt q) as C. eapply Qle_lt_trans; [|exact C]. rewrite <- Zle_Qle. lia.
Qed.
Lemma before_quotient : forall start end_ step i, ~ (step == 0)%Q ->
  (before step end_ (start + inject_Z i * step) <-> (inject_Z i < (end_ - start) / step)%Q).
Proof.
  intros start end_ step i Hz. unfold before. destruct (Qle_bool 0 step) eqn:E.
  - apply Qle_bool_iff in E. assert (P : (0 < step)%Q) by (apply Qle_lt_or_eq in E; destruct E as [|E]; auto; exfalso; apply Hz; symmetry; auto).
    split; intros H.
    + apply Qlt_shift_div_l; auto. rewrite <- (Qplus_lt_r _ _ start). setoid_replace (start + (end_ - start))%Q with end_ by ring. exact H.
    + apply (Qmult_lt_r _ _ _ P) in H. setoid_replace ((end_ - start) / step * step)%Q with (end_ - start)%Q in H by (field; auto).
      rewrite <- (Qplus_lt_r _ _ start) in H. setoid_replace (start + (end_ - start))%Q with end_ in H by ring. exact H.
  - assert (N : (step < 0)%Q) by (apply Qnot_le_lt; intros H; apply Qle_bool_iff in H; congruence).
    assert (P : (0 < - step)%Q) by (setoid_replace 0%Q with (- 0)%Q by ring; now apply Qopp_lt_compat).
    assert (Q : ((end_ - start) / step == (start - end_) / (- step))%Q) by (field; auto).
    rewrite Q. split; intros H.
    + apply Qlt_shift_div_l; auto. rewrite <- (Qplus_lt_r _ _ (end_ + inject_Z i * step)).
      setoid_replace (end_ + inject_Z i * step + inject_Z i * - step)%Q with end_ by ring.
      setoid_replace (end_ + inject_Z i * step + (start - end_))%Q with (start + inject_Z i * step)%Q by ring. exact H.
    + apply (Qmult_lt_r _ _ _ P) in H. setoid_replace ((start - end_) / - step * - step)%Q with (start - end_)%Q in H
        by (field; auto).
      rewrite <- (Qplus_lt_r _ _ (end_ + inject_Z i * step)) in H.
      setoid_replace (end_ + inject_Z i * step + inject_Z i * - step)%Q with end_ in H by ring.
      setoid_replace (end_ + inject_Z i * step + (start - end_))%Q with (start + inject_Z i * step)%Q in H by ring. exact H.
Qed.
Lemma count_unique : forall start end_ step n m, range_count start end_ step n -> range_count start end_ step m -> n = m.
Proof.
  intros start end_ step n m [N H] [M K].
  assert (A : ~ n < m). { intros L. assert (X := proj1 (H n N) (proj2 (K n N) L)). lia. }
  assert (B : ~ m < n). { intros L. assert (X := proj1 (K m M) (proj2 (H m M) L)). lia. } lia.
Qed.
Lemma ceiling_counts : forall start end_ step, ~ (step == 0)%Q -> (0 <= (end_ - start) / step)%Q ->
  range_count start end_ step (Qceiling ((end_ - start) / step)).
Proof.
  intros start end_ step Hz Hn. split.
  - assert (A : -1 < Qceiling ((end_ - start) / step)); [|lia]. apply below_ceiling. eapply Qlt_le_trans; [|exact Hn]. reflexivity.
  - intros i Hi. rewrite before_quotient by auto. apply below_ceiling.
Qed.
Theorem C86_count_determined : forall start end_ step n m, range_count start end_ step n -> range_count start end_ step m -> n = m.
Proof. exact count_unique. Qed.
(** The bounds are in the order of the step. *)
Definition in_order (start end_ step : Q) : Prop := ((0 < step)%Q /\ (start <= end_)%Q) \/ ((step < 0)%Q /\ (end_ <= start)%Q).
Lemma in_order_quotient : forall start end_ step, in_order start end_ step -> ~ (step == 0)%Q /\ (0 <= (end_ - start) / step)%Q.
Proof.
  intros start end_ step [[P L]|[N L]].
  - split; [intros X; rewrite X in P; discriminate|]. apply Qle_shift_div_l; auto. rewrite Qmult_0_l.
    rewrite <- (Qplus_le_r _ _ start). setoid_replace (start + 0)%Q with start by ring. setoid_replace (start + (end_ - start))%Q with end_ by ring. exact L.
  - assert (Z : ~ (step == 0)%Q) by (intros X; rewrite X in N; discriminate). split; auto.
    assert (P : (0 < - step)%Q) by (setoid_replace 0%Q with (- 0)%Q by ring; now apply Qopp_lt_compat).
    assert (Q : ((end_ - start) / step == (start - end_) / (- step))%Q) by (field; auto).
    rewrite Q. apply Qle_shift_div_l; auto. rewrite Qmult_0_l. rewrite <- (Qplus_le_r _ _ end_).
    setoid_replace (end_ + 0)%Q with end_ by ring. setoid_replace (end_ + (start - end_))%Q with start by ring. exact L.
Qed.
Theorem C86_arange_counts_values : forall start end_ step out,
  arange_start_step start end_ step = Some out <-> in_order start end_ step /\ exists n, range_count start end_ step n /\ out = [n].
Proof.
  intros start end_ step out. unfold arange_start_step.
  assert (Z : Qeq_bool step 0 = true <-> (step == 0)%Q) by (split; [apply Qeq_bool_eq|apply Qeq_eq_bool]).
  assert (O : in_order start end_ step <-> (Qeq_bool step 0 = false /\ (if qlt step 0 then qlt start end_ else qlt end_ start) = false)).
  { destruct (Qeq_bool step 0) eqn:E0.
    - split; [|intros [? _]; discriminate]. intros H. apply in_order_quotient in H. destruct H as [H _]. exfalso. apply H. now apply Z.
    - assert (NZ : ~ (step == 0)%Q) by (intros H; apply Z in H; discriminate). destruct (qlt step 0) eqn:E.
      + apply qlt_spec in E. rewrite qlt_false. split.
        * intros [[P _]|[_ L]]; [exfalso; eapply Qlt_not_le; [exact E|now apply Qlt_le_weak]|auto].
        * intros [_ L]. right. auto.
      + apply qlt_false in E. rewrite qlt_false. split.
        * intros [[_ L]|[N _]]; [auto|exfalso; eapply Qlt_not_le; eauto].
        * intros [_ L]. left. split; auto. apply Qle_lt_or_eq in E. destruct E as [|E]; auto. exfalso. apply NZ. now symmetry. }
  split.
  - intros H. assert (I : in_order start end_ step).
    { apply O. destruct (Qeq_bool step 0); [discriminate|]. destruct (if qlt step 0 then _ else _); [discriminate|auto]. }
    split; auto. destruct (proj1 O I) as [E1 E2]. rewrite E1, E2 in H. injection H as <-. eexists. split; [|reflexivity].
    destruct (in_order_quotient _ _ _ I). now apply ceiling_counts.
  - intros [I (n & C & ->)]. destruct (proj1 O I) as [E1 E2]. rewrite E1, E2. do 2 f_equal.
    destruct (in_order_quotient _ _ _ I) as [NZ P]. exact (count_unique _ _ _ _ _ (ceiling_counts _ _ _ NZ P) C).
Qed.
Lemma div_one : forall q, Qceiling (q / 1) = Qceiling q.
Proof. intros q. apply Qceiling_comp. field. Qed.
Theorem C86_arange_from_zero : forall end_ out,
  arange_end end_ = Some out <-> (0 <= end_)%Q /\ exists n, range_count 0 end_ 1 n /\ out = [n].
Proof.
  intros end_ out. unfold arange_end.
  assert (C : (0 <= end_)%Q -> range_count 0 end_ 1 (Qceiling end_)).
  { intros H. replace (Qceiling end_) with (Qceiling ((end_ - 0) / 1)) by (apply Qceiling_comp; field).
    apply ceiling_counts; [discriminate|]. setoid_replace ((end_ - 0) / 1)%Q with end_ by field. exact H. }
  destruct (qlt end_ 0) eqn:E.
  - apply qlt_spec in E. split; [discriminate|]. intros [H _]. exfalso. eapply Qlt_not_le; eauto.
  - apply qlt_false in E. split.
    + intros [= <-]. eauto.
    + intros [_ (n & R & ->)]. do 2 f_equal. eapply count_unique; eauto.
Qed.
Theorem C86_arange_from_start_partial : forall start end_ out,
  arange_start start end_ = Some out <-> (0 <= end_)%Q /\ (start <= end_)%Q /\ exists n, range_count start end_ 1 n /\ out = [n].
Proof.
  intros start end_ out. unfold arange_start.
  assert (C : (start <= end_)%Q -> range_count start end_ 1 (Qceiling (end_ - start))).
  { intros H. rewrite <- div_one. apply ceiling_counts; [discriminate|].
    destruct (in_order_quotient start end_ 1) as [_ P]; auto. left. split; [reflexivity|auto]. }
  destruct (qlt end_ 0) eqn:E.
  - apply qlt_spec in E. split; [discriminate|]. intros [H _]. exfalso. eapply Qlt_not_le; eauto.
  - apply qlt_false in E. destruct (qlt end_ start) eqn:F.
    + apply qlt_spec in F. split; [discriminate|]. intros (_ & H & _). exfalso. eapply Qlt_not_le; eauto.
    + apply qlt_false in F. split.
      * intros [= <-]. split; [exact E|]. split; [exact F|]. eexists. split; [apply C; exact F|reflexivity].
      * intros (_ & _ & n & R & ->). do 2 f_equal. eapply count_unique; eauto.
Qed.
(** A range that ends below zero is refused, although it has values. *)
Theorem C86_arange_negative_end_refuted : arange_start (-5) (-2) = None /\ range_count (-5) (-2) 1 3.
Proof.
  split; [reflexivity|]. assert (H := ceiling_counts (-5) (-2) 1 ltac:(discriminate) ltac:(discriminate)). exact H.
Qed.
Theorem C86_given_sizes : forall n m s, linspace n = [n] /\ iota n = [n] /\ hann_window n = [n] /\ eye n = [n; n] /\ eye_m n m = [n; m] /\
  shape_as_tensor s = [Z.of_nat (length s)].
Proof. repeat split. Qed.
Theorem C86_multinomial_spec : forall self num out, multinomial self num = Some out <->
  exists batch categories, self = batch ++ [categories] /\ (length batch <= 1)%nat /\ out = batch ++ [num].
Proof.
  intros self num out. unfold multinomial. split.
  - destruct (Z.eqb_spec (zlen self) 1) as [E|E].
    + destruct (zlen_1 self E) as [x ->]. intros [= <-]. exists [], x. simpl. auto.
    + destruct (Z.eqb_spec (zlen self) 2) as [E2|]; [|discriminate]. destruct (zlen_2 self E2) as (b & x & ->). intros [= <-]. exists [b], x. simpl. auto.
  - intros (batch & x & -> & L & ->). destruct batch as [|b [|]]; [reflexivity|reflexivity|simpl in L; lia].
Qed.
Example C86_nonvacuous :
  arange_start_step 1 10 (5 # 2) = Some [4] /\ arange_start_step 10 1 (-3) = Some [3] /\ arange_start_step 1 10 (-1) = None /\
  arange_start_step 1 10 0 = None /\ arange_end (7 # 2) = Some [4] /\ arange_start 2 (7 # 2) = Some [2] /\ arange_start 3 2 = None /\
  arange_start_step (-5) (-2) 1 = Some [3] /\ multinomial [4; 9] 3 = Some [4; 3] /\ multinomial [2; 4; 9] 3 = None.
Proof. repeat split; reflexivity. Qed.

Print Assumptions C85_truncation.
Print Assumptions C85_interpolate_by_factor.
Print Assumptions C86_arange_counts_values.
Print Assumptions C86_multinomial_spec.
