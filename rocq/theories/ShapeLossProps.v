(** Properties C87 (losses and normalisations) and C88 (narrowing, complex views and shapes that depend on data). *)
From Coq Require Import ZArith Bool Lia List.
From Verif Require Import Prelude ShapeCoreModel ShapeCoreSpec ShapeCoreProofs ShapeBroadcastProps ShapeViewProps ShapeDimProps
  ShapeMatProps ShapeMiscModel ShapeMoreModel ShapeMoreSpec.
Import ListNotations.
Open Scope Z_scope.

(** ** Classification losses *)

(** [classes self target c loss]: scores of [c] classes for each target; [loss] has a size for each one. *)
Inductive classes : list Z -> list Z -> Z -> list Z -> Prop :=
| cl_one : forall c, classes [c] [] c []
| cl_vector : forall c, classes [c] [c] c []
| cl_batch : forall b c, classes [b; c] [b] c [b].
Definition weights (weight : option (list Z)) (c : Z) : Prop := weight = None \/ weight = Some [c].
Lemma checks_spec : forall self target weight,
  (exists u, nll_checks self target weight = Some u) <-> exists c loss, classes self target c loss /\ weights weight c.
Proof.
  intros self target weight.
  assert (W : forall n, (exists u, match weight with
     | None => Some tt
     | Some w => do good <- (if zlen w =? 1 then do w0 <- pyidx w 0; Some (w0 =? n) else Some false); guard good
     end = Some u) <-> weights weight n).
  { intros n. unfold weights. destruct weight as [w|]; [|split; [auto|eauto]]. destruct (Z.eqb_spec (zlen w) 1) as [E|E].
    - destruct (zlen_1 w E) as [x ->]. change (pyidx [x] 0) with (Some x). cbn [obind]. destruct (Z.eqb_spec x n); cbn.
      + subst. split; [auto|eauto].
      + split; [intros [u ?]; discriminate|intros [?|[= ->]]; congruence].
    - cbn [obind guard]. split; [intros [u ?]; discriminate|intros [?|[= ->]]; [discriminate|exfalso; apply E; reflexivity]]. }
  unfold nll_checks. split.
  - intros [u H]. destruct self as [|x [|y [|]]].
    + discriminate.
    + change ((0 <? zlen [x]) && (zlen [x] <=? 2)) with true in H. cbn [guard obind] in H.
      change (zlen [x] =? 1) with true in H. change (pyidx [x] 0) with (Some x) in H. change (pyidx [x] (-1)) with (Some x) in H.
      destruct target as [|t [|]].
      * cbn in H. exists x, []. split; [constructor|]. apply W. exists u. exact H.
      * change (zlen [t] <=? 1) with true in H. change (zlen [t] =? 0) with false in H. cbn [andb guard obind] in H.
        change (pyidx [t] 0) with (Some t) in H. cbn [obind] in H. destruct (Z.eqb_spec x t); [subst|discriminate]. cbn [guard obind] in H.
        exists t, []. split; [constructor|]. apply W. exists u. exact H.
      * destruct (Z.leb_spec (zlen (t :: z :: l)) 1) as [L|]; [|discriminate]. rewrite !zlen_cons in L. pose proof (zlen_nonneg _ l). lia.
    + change ((0 <? zlen [x; y]) && (zlen [x; y] <=? 2)) with true in H. cbn [guard obind] in H.
      change (zlen [x; y] =? 1) with false in H. change (pyidx [x; y] 0) with (Some x) in H. change (pyidx [x; y] (-1)) with (Some y) in H. cbn [andb] in H.
      destruct target as [|t [|]].
      * discriminate.
      * change (zlen [t] <=? 1) with true in H. cbn [guard obind] in H.
        change (pyidx [t] 0) with (Some t) in H. cbn [obind] in H. destruct (Z.eqb_spec x t); [subst|discriminate]. cbn [guard obind] in H.
        exists y, [t]. split; [constructor|]. apply W. exists u. exact H.
      * destruct (Z.leb_spec (zlen (t :: z :: l)) 1) as [L|]; [|discriminate]. rewrite !zlen_cons in L. pose proof (zlen_nonneg _ l). lia.
    + destruct (Z.leb_spec (zlen (x :: y :: z :: l)) 2) as [L|]; [rewrite !zlen_cons in L; pose proof (zlen_nonneg _ l); lia|].
      rewrite andb_false_r in H. discriminate.
  - intros (c & loss & H & Hw). apply W in Hw. destruct Hw as [u Hw]. exists u. destruct H as [c|c|b c].
    + exact Hw.
    + change ((0 <? zlen [c]) && (zlen [c] <=? 2)) with true. cbn [guard obind]. change (zlen [c] <=? 1) with true. change (zlen [c] =? 1) with true.
      change (zlen [c] =? 0) with false. cbn [andb guard obind]. change (pyidx [c] 0) with (Some c). change (pyidx [c] (-1)) with (Some c).
      cbn [obind]. rewrite Z.eqb_refl. exact Hw.
    + change ((0 <? zlen [b; c]) && (zlen [b; c] <=? 2)) with true. cbn [guard obind]. change (zlen [b] <=? 1) with true. change (zlen [b; c] =? 1) with false.
      cbn [andb guard obind]. change (pyidx [b; c] 0) with (Some b). change (pyidx [b] 0) with (Some b). change (pyidx [b; c] (-1)) with (Some c).
      cbn [obind]. rewrite Z.eqb_refl. exact Hw.
Qed.
Lemma result_spec : forall self target c loss reduction, classes self target c loss ->
  nll_result self reduction = Some (if reduction =? 0 then loss else []).
Proof. intros self target c loss reduction [x|x|b x]; unfold nll_result; destruct (reduction =? 0); reflexivity. Qed.
(** A loss of each target, or of them all; the total weight is one number. *)
Theorem C87_nll_loss_spec : forall self target weight reduction out total,
  nll_loss_forward self target weight reduction = Some (out, total) <->
  exists c loss, classes self target c loss /\ weights weight c /\ out = (if reduction =? 0 then loss else []) /\ total = [].
Proof.
  intros self target weight reduction out total. unfold nll_loss_forward. split.
  - destruct (nll_checks self target weight) as [u|] eqn:E; [|discriminate]. cbn [obind]. intros H.
    destruct (proj1 (checks_spec self target weight) (ex_intro _ u E)) as (c & loss & C & W).
    rewrite (result_spec _ _ _ _ _ C) in H. cbn [obind] in H. injection H as <- <-. exists c, loss. auto.
  - intros (c & loss & C & W & -> & ->). destruct (proj2 (checks_spec self target weight) (ex_intro _ c (ex_intro _ loss (conj C W)))) as [u ->].
    cbn [obind]. now rewrite (result_spec _ _ _ _ _ C).
Qed.
Theorem C87_cross_entropy_spec_partial : forall self target weight reduction out,
  cross_entropy_loss self target weight reduction = Some out <->
  exists c loss, classes self target c loss /\ weights weight c /\ out = (if reduction =? 0 then loss else []).
Proof.
  intros self target weight reduction out. unfold cross_entropy_loss. split.
  - destruct (nll_checks self target weight) as [u|] eqn:E; [|discriminate]. cbn [obind]. intros H.
    destruct (proj1 (checks_spec self target weight) (ex_intro _ u E)) as (c & loss & C & W).
    rewrite (result_spec _ _ _ _ _ C) in H. injection H as <-. exists c, loss. auto.
  - intros (c & loss & C & W & ->). destruct (proj2 (checks_spec self target weight) (ex_intro _ c (ex_intro _ loss (conj C W)))) as [u ->].
    cbn [obind]. now apply result_spec with (1 := C).
Qed.
(** Losses of each pixel, and targets given as probabilities, are refused. *)
Theorem C87_cross_entropy_pixels_refuted : forall n c h w weight reduction,
  cross_entropy_loss [n; c; h; w] [n; h; w] weight reduction = None /\ cross_entropy_loss [n; c] [n; c] weight reduction = None.
Proof. split; reflexivity. Qed.

(** ** Losses of each element *)

Theorem C87_kl_div_spec : forall self reduction out, kl_div self reduction = Some out <->
  (reduction = 0 /\ out = self) \/ (In reduction [1; 2] /\ out = []).
Proof.
  intros self reduction out. unfold kl_div. rewrite unary_spec. simpl. destruct (Z.eqb_spec reduction 0); [subst|].
  - split; [intros [= <-]; auto|]. intros [[_ ->]|[[?|[?|[]]] _]]; [auto|discriminate|discriminate].
  - destruct (Z.eqb_spec reduction 1), (Z.eqb_spec reduction 2); cbn; split; try discriminate; try (intros [= <-]; right; split; [lia|auto]);
    intros [[? _]|[[?|[?|[]]] ->]]; auto; try lia.
Qed.
Theorem C87_pointwise_losses : forall self reduction,
  pointwise_loss self reduction = Some (if reduction =? 0 then self else []) /\
  poisson_nll_loss self reduction = Some (if reduction =? 0 then self else []).
Proof. intros self reduction. unfold pointwise_loss, poisson_nll_loss. rewrite unary_spec. now destruct (reduction =? 0). Qed.

(** ** Normalisations *)

(** The axes before the normalised ones keep their sizes in the statistics, the others have size one. *)
Lemma ones : forall a b, map (fun _ => 1) (zrange a b) = repeat 1 (Z.to_nat (b - a)).
Proof.
  intros a b. unfold zrange. rewrite map_map. generalize (Z.to_nat (b - a)) as n. generalize 0%nat. intros i n. revert i.
  induction n; intros i; simpl; f_equal; auto.
Qed.
Lemma prefix_idx : forall (s : list Z) n, (n <= length s)%nat -> mapM (pyidx s) (zrange 0 (Z.of_nat n)) = Some (firstn n s).
Proof.
  intros s n H. apply mapM_range_nth; [lia|]. unfold zlen. rewrite firstn_length_le by auto. split; auto. intros k Hk. rewrite pyidx_nat.
  rewrite <- (firstn_skipn n s) at 1. rewrite nth_error_app1 by (rewrite firstn_length_le; auto). reflexivity.
Qed.
Theorem C87_layer_norm_spec : forall input normalized out mean rstd,
  native_layer_norm input normalized = Some (out, mean, rstd) <->
  exists lead rest, input = lead ++ rest /\ length rest = length normalized /\
    out = input /\ mean = lead ++ repeat 1 (length rest) /\ rstd = mean.
Proof.
  intros input normalized out mean rstd. unfold native_layer_norm. cbv zeta. destruct (Z.leb_spec 0 (zlen input - zlen normalized)) as [L|L]; cbn [guard obind].
  - replace (zlen input - zlen normalized) with (Z.of_nat (length input - length normalized)) by (unfold zlen in *; lia).
    rewrite prefix_idx by lia. cbn [obind]. rewrite unary_spec, ones. cbn [obind].
    replace (Z.to_nat (zlen input - Z.of_nat (length input - length normalized))) with (length normalized) by (unfold zlen in *; lia). split.
    + intros [= <- <- <-]. exists (firstn (length input - length normalized) input), (skipn (length input - length normalized) input).
      rewrite firstn_skipn, skipn_length. replace (length input - (length input - length normalized))%nat with (length normalized) by (unfold zlen in *; lia). auto 10.
    + intros (lead & rest & -> & E & -> & -> & ->). rewrite app_length, <- E.
      replace (length lead + length rest - length rest)%nat with (length lead) by lia.
      rewrite firstn_app, firstn_all, Nat.sub_diag. simpl. now rewrite app_nil_r.
  - split; [discriminate|]. intros (lead & rest & -> & E & _). unfold zlen in L. rewrite app_length in L. lia.
Qed.
Theorem C87_layer_norm_sizes_unchecked_refuted : native_layer_norm [2; 3] [7] = Some ([2; 3], [2; 1], [2; 1]).
Proof. reflexivity. Qed.
Theorem C87_batch_norm_spec : forall input training out mean rstd,
  native_batch_norm input training = Some (out, mean, rstd) <->
  out = input /\ rstd = mean /\ (if training then exists n c sp, input = n :: c :: sp /\ mean = [c] else mean = [0]).
Proof.
  intros input training out mean rstd. unfold native_batch_norm. destruct training.
  - destruct input as [|n [|c sp]].
    + split; [discriminate|intros (_ & _ & n & c & sp & [=] & _)].
    + split; [discriminate|intros (_ & _ & n' & c & sp & [=] & _)].
    + change (pyidx (n :: c :: sp) 1) with (Some c). cbn [obind]. rewrite unary_spec. cbn [obind]. split.
      * intros [= <- <- <-]. split; auto. split; auto. now exists n, c, sp.
      * intros (-> & -> & n' & c' & sp' & [= <- <- <-] & ->). reflexivity.
  - cbn [obind]. rewrite unary_spec. cbn [obind]. split.
    + intros [= <- <- <-]. auto.
    + intros (-> & -> & ->). reflexivity.
Qed.
Theorem C87_other_norms : forall input n group, batch_norm input = Some input /\
  native_group_norm input n group = Some (input, [n; group], [n; group]).
Proof. intros. unfold batch_norm, native_group_norm. rewrite unary_spec. auto. Qed.
Example C87_nonvacuous :
  nll_loss_forward [8; 10] [8] (Some [10]) 0 = Some ([8], []) /\ nll_loss_forward [8; 10] [8] (Some [8]) 0 = None /\
  nll_loss_forward [8; 10] [7] None 0 = None /\ cross_entropy_loss [8; 10] [8] None 1 = Some [] /\ cross_entropy_loss [10] [] None 0 = Some [] /\
  kl_div [2; 3] 3 = None /\ native_layer_norm [2; 3; 4] [3; 4] = Some ([2; 3; 4], [2; 1; 1], [2; 1; 1]) /\
  native_layer_norm [2] [3; 4] = None /\ native_batch_norm [2; 3; 4] true = Some ([2; 3; 4], [3], [3]) /\ native_batch_norm [2] true = None.
Proof. repeat split; reflexivity. Qed.

(** ** Narrowing *)

Theorem C88_narrow_within : forall self dim k d start len, denotes (length self) dim k -> nth_error self k = Some d ->
  d <= max_int -> 0 <= start < max_int -> 0 <= len -> start + len <= d -> narrow self dim start len = Some (set_nth k len self).
Proof.
  intros self dim k d start len D N M S L F. unfold narrow. rewrite (slice_up_spec _ _ k d); auto; try lia.
  do 2 f_equal. rewrite Z.div_1_r. unfold resolve_bound, clamp.
  repeat match goal with |- context [if ?a <? ?b then _ else _] => destruct (Z.ltb_spec a b) end; lia.
Qed.
(** Starts counted from the end work only when the part does not reach the end. *)
Theorem C88_narrow_from_the_end_partial : forall self dim k d start len, denotes (length self) dim k -> nth_error self k = Some d ->
  - d <= start < 0 -> 0 <= len -> start + len < 0 -> narrow self dim start len = Some (set_nth k len self).
Proof.
  intros self dim k d start len D N S L F. unfold narrow. rewrite (slice_up_spec _ _ k d); auto; try lia; try (unfold max_int; lia).
  do 2 f_equal. rewrite Z.div_1_r. unfold resolve_bound, clamp.
  repeat match goal with |- context [if ?a <? ?b then _ else _] => destruct (Z.ltb_spec a b) end; lia.
Qed.
Theorem C88_narrow_to_the_end_refuted : forall d, 2 <= d -> narrow [d] 0 (-2) 2 = Some [0].
Proof.
  intros d H. unfold narrow. rewrite (slice_up_spec [d] 0 0 d); auto; try (unfold max_int, denotes; simpl; lia).
  simpl set_nth. do 2 f_equal. rewrite Z.div_1_r. unfold resolve_bound, clamp.
  repeat match goal with |- context [if ?a <? ?b then _ else _] => destruct (Z.ltb_spec a b) end; lia.
Qed.
(** Parts that reach beyond the end are cut instead of refused. *)
Theorem C88_narrow_overrun_refuted : narrow [5] 0 3 4 = Some [2] /\ narrow [5] 0 9 1 = Some [0].
Proof. split; reflexivity. Qed.
Theorem C88_narrow_rejects : forall self dim start len, (forall k, ~ denotes (length self) dim k) -> narrow self dim start len = None.
Proof.
  intros self dim start len H. unfold narrow, slice_up. destruct (Z.eqb_spec (zlen self) 0) as [E|E]; auto.
  destruct (wrap_dim dim (zlen self)) as [w|] eqn:W; auto. apply wrap_inv in W; [|intros ->; apply E; reflexivity].
  destruct W as (k & D & _). exfalso. eapply H; eauto.
Qed.
Theorem C88_narrow_at_a_tensor : forall self dim len out, narrow_Tensor self dim len = Some out <->
  exists k, denotes (length self) dim k /\ out = set_nth k len self.
Proof.
  intros self dim len out. unfold narrow_Tensor. split.
  - intros H. assert (X : - zlen self <= dim < zlen self).
    { unfold pyset in H. pose proof (zlen_nonneg _ self).
      destruct (Z.ltb_spec dim 0); [destruct (Z.ltb_spec (dim + zlen self) 0); cbn [orb] in H; [discriminate|lia]|].
      destruct (Z.ltb_spec dim 0); cbn [orb] in H; [discriminate|]. destruct (Z.leb_spec (zlen self) dim); [discriminate|lia]. }
    assert (D : exists k, denotes (length self) dim k).
    { exists (Z.to_nat (if dim <? 0 then dim + zlen self else dim)). unfold denotes, zlen in *. destruct (Z.ltb_spec dim 0); lia. }
    destruct D as [k D]. rewrite (pyset_valid _ _ _ _ D) in H. injection H as <-. eauto.
  - intros (k & D & ->). now apply pyset_valid.
Qed.

(** ** Complex views and flips *)

Theorem C88_view_as_complex_spec : forall self, view_as_complex self = Some (removelast self).
Proof.
  intros self. unfold view_as_complex. destruct self as [|x self] using rev_ind; [reflexivity|]. clear IHself.
  rewrite zlen_app. change (zlen [x]) with 1. replace (zlen self + 1 - 1) with (Z.of_nat (length self)) by (unfold zlen; lia).
  rewrite prefix_idx by (rewrite app_length; lia). rewrite removelast_last. f_equal.
  rewrite firstn_app, firstn_all, Nat.sub_diag. simpl. apply app_nil_r.
Qed.
Theorem C88_complex_views_invert : forall self, view_as_complex (view_as_real self) = Some self.
Proof. intros self. unfold view_as_real. rewrite C88_view_as_complex_spec. f_equal. apply removelast_last. Qed.
Theorem C88_real_view_spec : forall self, view_as_real self = self ++ [2].
Proof. reflexivity. Qed.
(** The last size is not compared with two, and a tensor without axes is accepted. *)
Theorem C88_view_as_complex_unchecked_refuted : view_as_complex [4; 3] = Some [4] /\ view_as_complex [] = Some [].
Proof. split; reflexivity. Qed.
Theorem C88_flips : forall self out,
  (fliplr self = Some out <-> (2 <= length self)%nat /\ out = self) /\ (flipud self = Some out <-> (1 <= length self)%nat /\ out = self).
Proof.
  intros self out. unfold fliplr, flipud, zlen. split.
  - destruct (Z.leb_spec 2 (Z.of_nat (length self))); cbn; split; try discriminate; [intros [= <-]; split; [lia|auto]|intros [_ ->]; auto|intros [L _]; lia].
  - destruct (Z.leb_spec 1 (Z.of_nat (length self))); cbn; split; try discriminate; [intros [= <-]; split; [lia|auto]|intros [_ ->]; auto|intros [L _]; lia].
Qed.
Theorem C88_repeat_interleave_spec : forall size out, repeat_interleave_Tensor size = Some out <-> exists n, size = Some n /\ out = [n].
Proof.
  intros [n|] out; cbn; split; try discriminate.
  - intros [= <-]. eauto.
  - intros (m & [= ->] & ->). auto.
  - intros (m & ? & _). discriminate.
Qed.
Lemma dims_checked : forall (self dims : list Z),
  (exists u, mapM (fun d => assert negb ((d <? - zlen self) || (zlen self <=? d)); Some tt) dims = Some u) <->
  Forall (fun d => exists k, denotes (length self) d k) dims.
Proof.
  intros self dims. assert (G : forall d, (exists k, denotes (length self) d k) <-> negb ((d <? - zlen self) || (zlen self <=? d)) = true).
  { intros d. rewrite negb_true_iff, orb_false_iff, Z.ltb_ge, Z.leb_gt. unfold zlen, denotes. split.
    - intros (k & H). lia.
    - intros H. exists (Z.to_nat (if d <? 0 then d + Z.of_nat (length self) else d)). destruct (Z.ltb_spec d 0); lia. }
  induction dims as [|d dims IH]; simpl.
  - split; [constructor|eauto].
  - destruct (negb ((d <? - zlen self) || (zlen self <=? d))) eqn:E; cbn [guard obind].
    + split.
      * intros [u H]. constructor; [now apply G|]. apply IH. destruct (mapM _ dims) as [v|]; [eauto|discriminate].
      * intros H. inversion H as [|? ? H1 H2]; subst. apply IH in H2. destruct H2 as [u ->]. cbn [obind]. eexists. reflexivity.
    + split; [intros [u ?]; discriminate|]. intros H. inversion H as [|? ? H1 H2]; subst. apply G in H1. congruence.
Qed.
Theorem C88_count_nonzero_spec : forall self dims out, self <> [] -> dims <> [] ->
  (count_nonzero_dims self dims = Some out <->
   exists ks, Forall2 (denotes (length self)) dims ks /\ out = keep_axes (fun i => negb (existsb (Nat.eqb i) ks)) self).
Proof.
  intros self dims out Hs Hd. unfold count_nonzero_dims. rewrite <- C36_dropped_dims by auto. split.
  - destruct (mapM _ dims); [auto|discriminate].
  - intros H. pose proof H as H'. apply C36_dropped_dims in H'; auto. destruct H' as (ks & F & _).
    assert (C : Forall (fun d => exists k, denotes (length self) d k) dims) by (clear - F; induction F; constructor; eauto).
    apply dims_checked in C. destruct C as [u ->]. exact H.
Qed.
(** On a tensor without axes every axis is refused here, unlike in the other reductions. *)
Theorem C88_count_nonzero_scalar : forall dims, count_nonzero_dims [] dims = if forallb (fun _ => false) dims then Some [] else None.
Proof.
  intros [|d dims]; [reflexivity|]. unfold count_nonzero_dims. simpl forallb.
  destruct (mapM _ (d :: dims)) as [u|] eqn:E; [|reflexivity]. exfalso.
  assert (F := proj1 (dims_checked [] (d :: dims)) (ex_intro _ u E)). inversion F as [|? ? (k & K & _) _]; subst. simpl in K. lia.
Qed.

(** ** In-place operands *)

Lemma inplace_step : forall a b k, (length b <= length a)%nat -> (k < length a)%nat ->
  (let j := zlen b - zlen a + Z.of_nat k in
   do x <- pyidx a (Z.of_nat k); do y <- (if 0 <=? j then pyidx b j else Some 1);
   if negb (x =? y) && negb (y =? 1) then None else Some tt) = Some tt <->
  bcast1 (rdim a (length a - 1 - k)) (rdim b (length a - 1 - k)) (rdim a (length a - 1 - k)).
Proof.
  intros a b k L Hk. cbv zeta. rewrite pyidx_nat.
  pose proof (rdim_nth a (length a - 1 - k) ltac:(lia)) as Ra. replace (length a - 1 - (length a - 1 - k))%nat with k in Ra by lia. rewrite Ra. cbn [obind].
  assert (Y : (if 0 <=? zlen b - zlen a + Z.of_nat k then pyidx b (zlen b - zlen a + Z.of_nat k) else Some 1) = Some (rdim b (length a - 1 - k))).
  { unfold zlen. destruct (Z.leb_spec 0 (Z.of_nat (length b) - Z.of_nat (length a) + Z.of_nat k)) as [J|J].
    - rewrite pyidx_pos by lia. pose proof (rdim_nth b (length a - 1 - k) ltac:(lia)) as Rb. rewrite <- Rb. f_equal. lia.
    - f_equal. unfold rdim. rewrite nth_overflow; [reflexivity|]. rewrite rev_length. lia. }
  rewrite Y. cbn [obind]. set (x := rdim a _). set (y := rdim b _). unfold bcast1.
  destruct (Z.eqb_spec x y), (Z.eqb_spec y 1); cbn; split; try auto; try discriminate; intros; try reflexivity; lia.
Qed.
Theorem C88_inplace_operand_fits : forall a b out, broadcast_inplace a b = Some out <-> out = a /\ broadcasts a b a.
Proof.
  intros a b out. unfold broadcast_inplace. rewrite unary_spec. destruct (Z.ltb_spec (zlen a) (zlen b)) as [L|L].
  - split; [discriminate|]. intros [_ [Lm _]]. unfold zlen in L. lia.
  - assert (Lb : (length b <= length a)%nat) by (unfold zlen in L; lia).
    match goal with |- context [mapM ?f ?l] => set (F := f) end. split.
    + destruct (mapM F _) as [u|] eqn:M; [|discriminate]. cbn [obind]. intros [= <-]. split; auto. split; [lia|].
      apply mapM_range_nth in M; [|apply zlen_nonneg]. destruct M as [Lu H]. intros k Hk. unfold zlen in Lu.
      specialize (H (length a - 1 - k)%nat ltac:(lia)). destruct (nth_error u (length a - 1 - k)) as [[]|] eqn:E; [|apply nth_error_None in E; lia].
      unfold F in H. apply inplace_step in H; [|auto|lia]. replace (length a - 1 - (length a - 1 - k))%nat with k in H by lia. exact H.
    + intros [-> [_ B]]. assert (M : mapM F (zrange 0 (zlen a)) = Some (repeat tt (length a))).
      { apply mapM_range_nth; [apply zlen_nonneg|]. unfold zlen. rewrite repeat_length. split; auto. intros k Hk. rewrite nth_error_repeat by auto.
        unfold F. apply inplace_step; auto. apply B. lia. }
      now rewrite M.
Qed.

(** ** Shapes that depend on the data *)

(** For some value of the unknown size the shape is that of the table of the positions of any elements. *)
Theorem C88_nonzero_is_a_table : forall p s, exists u, nonzero u s = position_table p s.
Proof. intros p s. now exists (zlen (positions p s)). Qed.
Theorem C88_nonzero_columns : forall p u s, nonzero u s = position_table p s <-> u = zlen (positions p s).
Proof. intros p u s. unfold nonzero, position_table. split; [intros [= ->]; auto|intros ->; reflexivity]. Qed.
Theorem C88_unknown_lengths : forall u, masked_select u = [u] /\ bincount u = [u].
Proof. split; reflexivity. Qed.
Theorem C88_nonzero_static_spec : forall s size, nonzero_static s size = [size; Z.of_nat (length s)].
Proof. reflexivity. Qed.
(** The boxes kept by non-maximum suppression are a list of numbers; two axes are given. *)
Theorem C88_nms_rank_refuted : forall u dets, length (nms u dets) = 2%nat.
Proof. reflexivity. Qed.
Theorem C88_nms_columns : forall u n, nms u [n; 4] = [u; 2].
Proof. reflexivity. Qed.
Example C88_nonvacuous :
  narrow [5; 6] (-1) 2 3 = Some [5; 3] /\ narrow [5; 6] 1 (-4) 3 = Some [5; 3] /\ narrow [5; 6] 2 0 1 = None /\ narrow_Tensor [5; 6] (-2) 1 = Some [1; 6] /\
  view_as_complex [4; 2] = Some [4] /\ view_as_real [4] = [4; 2] /\ count_nonzero_dims [2; 3; 4] [0; -1] = Some [3] /\ count_nonzero_dims [2; 3] [2] = None /\
  broadcast_inplace [2; 3] [1; 3] = Some [2; 3] /\ broadcast_inplace [2; 3] [3; 2; 3] = None /\ broadcast_inplace [1; 3] [2; 3] = None.
Proof. repeat split; reflexivity. Qed.

Print Assumptions C87_nll_loss_spec.
Print Assumptions C87_layer_norm_spec.
Print Assumptions C88_inplace_operand_fits.
Print Assumptions C88_count_nonzero_spec.
