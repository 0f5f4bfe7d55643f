(** Property C40: flatten, collapse, split_dim and unflatten. *)
From Coq Require Import ZArith Bool Lia List.
From Verif Require Import Prelude ShapeCoreModel ShapeCoreSpec ShapeCoreProofs ShapeBroadcastProps ShapeViewProps
  ShapeDimProps ShapeMiscModel ShapeMiscSpec.
Import ListNotations.
Open Scope Z_scope.

Lemma skipn_skipn : forall A (l : list A) n m, skipn n (skipn m l) = skipn (m + n) l.
Proof. induction l; intros n m; [now rewrite !skipn_nil|]. destruct m; auto. simpl. apply IHl. Qed.
Lemma merged_slices : forall s e a out, (s <= e < length a)%nat ->
  (merged s e a out <-> out = firstn s a ++ prodZ (firstn (S e - s) (skipn s a)) :: skipn (S e) a).
Proof.
  intros s e a out H. unfold merged. split.
  - intros (pre & mid & post & -> & L & M & _ & ->). subst s. f_equal.
    + now rewrite firstn_app, firstn_all, Nat.sub_diag, firstn_O, app_nil_r.
    + f_equal.
      * rewrite skipn_app, skipn_all, Nat.sub_diag, app_nil_l. change (skipn 0 (mid ++ post)) with (mid ++ post). rewrite firstn_app.
        replace (S e - length pre)%nat with (length mid) by lia. rewrite Nat.sub_diag, firstn_O, app_nil_r.
        now rewrite firstn_all.
      * rewrite app_assoc, skipn_app. replace (S e) with (length (pre ++ mid)) by (rewrite app_length; lia).
        now rewrite skipn_all, Nat.sub_diag.
  - intros ->. exists (firstn s a), (firstn (S e - s) (skipn s a)), (skipn (S e) a).
    split; [|split; [|split; [|split; [lia|auto]]]].
    + rewrite <- (firstn_skipn s a) at 1. f_equal. rewrite <- (firstn_skipn (S e - s) (skipn s a)) at 1. f_equal.
      rewrite skipn_skipn. f_equal. lia.
    + rewrite firstn_length. lia.
    + rewrite firstn_length, skipn_length. lia.
Qed.
Lemma merged_prod : forall s e a out, merged s e a out -> prodZ out = prodZ a.
Proof.
  intros s e a out (pre & mid & post & -> & _ & _ & _ & ->). rewrite !prodZ_app. simpl. ring.
Qed.
Lemma merged_range : forall s e a out, merged s e a out -> (s <= e < length a)%nat.
Proof. intros s e a out (pre & mid & post & -> & ? & ? & ? & _). rewrite !app_length. lia. Qed.
Lemma prefix_n : forall (a : list Z) n, (n <= length a)%nat -> mapM (pyidx a) (zrange 0 (Z.of_nat n)) = Some (firstn n a).
Proof.
  intros a n H. rewrite mapM_slice by (unfold zlen; lia). simpl. now rewrite Z.sub_0_r, Nat2Z.id.
Qed.
Lemma suffix_n : forall (a : list Z) n, (n <= length a)%nat ->
  mapM (pyidx a) (zrange (Z.of_nat n) (zlen a)) = Some (skipn n a).
Proof.
  intros a n H. rewrite mapM_slice by (unfold zlen; lia). rewrite Nat2Z.id. f_equal. apply firstn_all2.
  rewrite skipn_length. unfold zlen. lia.
Qed.
Lemma middle_n : forall (a : list Z) s e, (s <= e < length a)%nat ->
  mapM (pyidx a) (zrange (Z.of_nat s) (Z.of_nat e + 1)) = Some (firstn (S e - s) (skipn s a)).
Proof. intros a s e H. rewrite mapM_slice by (unfold zlen; lia). rewrite Nat2Z.id. do 2 f_equal. lia. Qed.

(** flatten merges the axes from start to end, and only those ranges are accepted. *)
Theorem C40_flatten_spec : forall self start end_ out, self <> [] ->
  (flatten self start end_ = Some out <->
   exists s e, denotes (length self) start s /\ denotes (length self) end_ e /\ merged s e self out).
Proof.
  intros self start end_ out Hs. unfold flatten.
  assert (Hl : zlen self =? 0 = false) by (destruct self; [easy|unfold zlen; simpl length; lia]). rewrite Hl.
  assert (V : forall s e, (s <= e < length self)%nat ->
    (if Z.of_nat s =? Z.of_nat e then unary self
     else do xs <- mapM (pyidx self) (zrange (Z.of_nat s) (Z.of_nat e + 1));
          do pre <- mapM (pyidx self) (zrange 0 (Z.of_nat s));
          do post <- mapM (pyidx self) (zrange (Z.of_nat e + 1) (zlen self));
          Some (pre ++ [numel xs] ++ post)) =
    Some (firstn s self ++ prodZ (firstn (S e - s) (skipn s self)) :: skipn (S e) self)).
  { intros s e H. destruct (Z.eqb_spec (Z.of_nat s) (Z.of_nat e)) as [E|E].
    - assert (s = e) by lia. subst e. rewrite unary_spec. f_equal.
      replace (S s - s)%nat with 1%nat by lia. rewrite <- (firstn_skipn s self) at 1. f_equal.
      rewrite <- (firstn_skipn 1 (skipn s self)) at 1. rewrite skipn_skipn.
      assert (L : length (skipn s self) <> 0%nat) by (rewrite skipn_length; lia).
      destruct (skipn s self) as [|x r]; [easy|]. replace (s + 1)%nat with (S s) by lia. generalize (skipn (S s) self). intros q. simpl. now rewrite Z.mul_1_r.
    - rewrite middle_n by lia. cbn [obind]. rewrite prefix_n by lia. cbn [obind].
      replace (Z.of_nat e + 1) with (Z.of_nat (S e)) by lia. rewrite suffix_n by lia. cbn [obind].
      now rewrite numel_prod. }
  split.
  - intros H. destruct (wrap_dim start (zlen self)) as [w1|] eqn:W1; [|discriminate]. cbn [obind] in H.
    destruct (wrap_dim end_ (zlen self)) as [w2|] eqn:W2; [|discriminate]. cbn [obind] in H.
    apply wrap_inv in W1, W2; auto. destruct W1 as (s & D1 & ->), W2 as (e & D2 & ->).
    destruct (Z.ltb_spec (Z.of_nat e) (Z.of_nat s)); [discriminate|].
    assert (R : (s <= e < length self)%nat) by (destruct D2; lia).
    rewrite V in H by auto. injection H as <-. exists s, e. split; [auto|split; [auto|]]. now apply merged_slices.
  - intros (s & e & D1 & D2 & M). pose proof (merged_range _ _ _ _ M) as R.
    rewrite (wrap_valid _ _ _ D1), (wrap_valid _ _ _ D2). cbn [obind].
    destruct (Z.ltb_spec (Z.of_nat e) (Z.of_nat s)); [lia|]. rewrite V by auto.
    f_equal. symmetry. now apply merged_slices.
Qed.
(** A tensor of rank 0 has one element and flattens to [1]. *)
Theorem C40_flatten_scalar : forall start end_ out, flatten [] start end_ = Some out <->
  (start = -1 \/ start = 0) /\ (end_ = -1 \/ end_ = 0) /\ out = [1].
Proof.
  intros start end_ out. unfold flatten.
  assert (W : forall d, wrap_dim d (zlen (@nil Z)) = if (-1 <=? d) && (d <=? 0) then Some 0 else None).
  { intros d. unfold wrap_dim. change (zlen (@nil Z)) with 0. change (0 <=? 0) with true. cbv zeta iota. change (1 - 1) with 0. change (Z.opp 1) with (-1).
    destruct (Z.leb_spec (-1) d), (Z.leb_spec d 0); cbn [andb];
    destruct (Z.ltb_spec d (-1)), (Z.ltb_spec 0 d); cbn [orb]; try lia; auto.
    destruct (Z.ltb_spec d 0); f_equal; lia. }
  rewrite !W.
  destruct (Z.leb_spec (-1) start), (Z.leb_spec start 0); cbn [andb obind];
  try (split; [discriminate|lia]).
  destruct (Z.leb_spec (-1) end_), (Z.leb_spec end_ 0); cbn [andb obind];
  try (split; [discriminate|lia]).
  change (0 <? 0) with false. change (zlen (@nil Z) =? 0) with true. cbn [negb]. split.
  - intros [= <-]. split; [lia|split; [lia|auto]].
  - now intros (_ & _ & ->).
Qed.
Theorem C40_flatten_keeps_element_count : forall self start end_ out,
  flatten self start end_ = Some out -> prodZ out = prodZ self.
Proof.
  intros self start end_ out H. destruct self as [|x self].
  - apply C40_flatten_scalar in H. now destruct H as (_ & _ & ->).
  - apply C40_flatten_spec in H; [|discriminate]. destruct H as (s & e & _ & _ & M). now apply merged_prod in M.
Qed.

Lemma fold_prod : forall (a : list Z) l xs acc, mapM (pyidx a) l = Some xs ->
  foldM (fun acc i => do x <- pyidx a i; Some (acc * x)) l acc = Some (acc * prodZ xs).
Proof.
  intros a l. induction l as [|i l IH]; simpl; intros xs acc H.
  - injection H as <-. simpl. f_equal. ring.
  - destruct (pyidx a i); [|discriminate]. cbn [obind] in *. destruct (mapM (pyidx a) l); [|discriminate].
    cbn [obind] in H. injection H as <-. rewrite (IH _ _ eq_refl). simpl. f_equal. ring.
Qed.
Theorem C40_collapse_spec : forall a start end_ out, collapse a start end_ = Some out <->
  exists s e, start = Z.of_nat s /\ end_ = Z.of_nat e /\ merged s e a out.
Proof.
  intros a start end_ out. unfold collapse. split.
  - intros H.
    destruct (Z.ltb_spec start (zlen a)); [|discriminate]. cbn [guard obind] in H.
    destruct (Z.ltb_spec end_ (zlen a)); [|discriminate]. cbn [guard obind] in H.
    destruct (Z.leb_spec 0 start); [|discriminate]. cbn [guard obind] in H.
    destruct (Z.leb_spec 0 end_); [|discriminate]. cbn [guard obind] in H.
    destruct (Z.leb_spec start end_); [|discriminate]. cbn [guard obind] in H.
    exists (Z.to_nat start), (Z.to_nat end_). split; [lia|split; [lia|]].
    assert (R : (Z.to_nat start <= Z.to_nat end_ < length a)%nat) by (unfold zlen in *; lia).
    apply merged_slices; auto.
    rewrite <- (Z2Nat.id start), <- (Z2Nat.id end_) in H by lia.
    rewrite prefix_n in H by lia. cbn [obind] in H. rewrite (fold_prod _ _ _ _ (middle_n _ _ _ R)) in H. cbn [obind] in H.
    replace (Z.of_nat (Z.to_nat end_) + 1) with (Z.of_nat (S (Z.to_nat end_))) in H by lia.
    rewrite suffix_n in H by lia. cbn [obind] in H. injection H as <-. now rewrite Z.mul_1_l.
  - intros (s & e & -> & -> & M). pose proof (merged_range _ _ _ _ M) as R.
    rewrite !(proj2 (guard_true _)) by (unfold zlen; lia). cbn [obind].
    rewrite prefix_n by lia. cbn [obind]. rewrite (fold_prod _ _ _ _ (middle_n _ _ _ R)). cbn [obind].
    replace (Z.of_nat e + 1) with (Z.of_nat (S e)) by lia.
    rewrite suffix_n by lia. cbn [obind]. rewrite Z.mul_1_l. f_equal. symmetry. now apply merged_slices.
Qed.
(** prims.collapse is flatten restricted to non-negative arguments. *)
Theorem C40_collapse_is_flatten : forall a s e, (s < length a)%nat -> (e < length a)%nat ->
  collapse a (Z.of_nat s) (Z.of_nat e) = flatten a (Z.of_nat s) (Z.of_nat e).
Proof.
  intros a s e Hs He. assert (N : a <> []) by (destruct a; [simpl in Hs; lia|discriminate]).
  assert (E : forall out, collapse a (Z.of_nat s) (Z.of_nat e) = Some out <-> flatten a (Z.of_nat s) (Z.of_nat e) = Some out).
  { intros out. rewrite C40_collapse_spec, C40_flatten_spec by auto. split.
    - intros (s' & e' & ? & ? & M). assert (s' = s) by lia. assert (e' = e) by lia. subst s' e'.
      exists s, e. split; [unfold denotes; lia|split; [unfold denotes; lia|auto]].
    - intros (s' & e' & D1 & D2 & M). exists s, e. split; [auto|split; [auto|]].
      assert (s' = s) by (destruct D1; lia). assert (e' = e) by (destruct D2; lia). now subst. }
  destruct (collapse a (Z.of_nat s) (Z.of_nat e)) as [o|].
  - symmetry. now apply E.
  - destruct (flatten a (Z.of_nat s) (Z.of_nat e)) as [o|]; auto. apply E. reflexivity.
Qed.

Lemma at_split : forall (a : list Z) k, (k < length a)%nat -> exists pre d post, a = pre ++ d :: post /\ length pre = k.
Proof.
  intros a k H. destruct (nth_error a k) as [d|] eqn:E; [|apply nth_error_None in E; lia].
  apply nth_error_split in E. destruct E as (pre & post & -> & <-). eauto.
Qed.
Lemma nth_mid : forall (pre post : list Z) d, nth_error (pre ++ d :: post) (length pre) = Some d.
Proof. intros. rewrite nth_error_app2, Nat.sub_diag by lia. reflexivity. Qed.
Lemma firstn_mid : forall (pre post : list Z) d, firstn (length pre) (pre ++ d :: post) = pre.
Proof. intros. now rewrite firstn_app, firstn_all, Nat.sub_diag, firstn_O, app_nil_r. Qed.
Lemma skipn_mid : forall (pre post : list Z) d, skipn (S (length pre)) (pre ++ d :: post) = post.
Proof.
  intros. rewrite skipn_app. replace (S (length pre) - length pre)%nat with 1%nat by lia.
  rewrite skipn_all2 by lia. reflexivity.
Qed.
Theorem C40_split_dim_spec : forall a dim outer out, split_dim a dim outer = Some out <->
  exists k q, dim = Z.of_nat k /\ 0 < outer /\ nth_error a k = Some (outer * q) /\ axis_split k [outer; q] a out.
Proof.
  intros a dim outer out. unfold split_dim. split.
  - intros H.
    destruct (Z.leb_spec 0 dim); [|discriminate]. cbn [guard obind] in H.
    destruct (Z.ltb_spec dim (zlen a)); [|discriminate]. cbn [guard obind] in H.
    destruct (Z.ltb_spec 0 outer); [|discriminate]. cbn [guard obind] in H.
    destruct (at_split a (Z.to_nat dim)) as (pre & d & post & -> & L); [unfold zlen in *; lia|].
    assert (D : dim = Z.of_nat (length pre)) by lia. rewrite D in *. clear D L.
    rewrite pyidx_nat, nth_mid in H. cbn [obind] in H. unfold pymod, pydiv in H.
    destruct (Z.eqb_spec outer 0); [lia|]. cbn [obind] in H.
    destruct (Z.eqb_spec (d mod outer) 0) as [E|]; [|discriminate]. cbn [guard obind] in H.
    rewrite prefix_n in H by (rewrite app_length; lia). cbn [obind] in H.
    replace (Z.of_nat (length pre) + 1) with (Z.of_nat (S (length pre))) in H by lia.
    rewrite suffix_n in H by (rewrite app_length; simpl; lia). cbn [obind] in H.
    rewrite firstn_mid, skipn_mid in H. injection H as <-.
    assert (Q : d = outer * (d / outer)) by (apply Z.div_exact; lia).
    exists (length pre), (d / outer). split; [auto|split; [auto|split]].
    + rewrite nth_mid. now f_equal.
    + exists pre, d, post. auto.
  - intros (k & q & -> & Ho & N & (pre & d & post & -> & <- & ->)). rewrite nth_mid in N. injection N as ->.
    rewrite !(proj2 (guard_true _)) by (unfold zlen; rewrite ?app_length; simpl; lia). cbn [obind].
    rewrite pyidx_nat, nth_mid. cbn [obind]. unfold pymod, pydiv. destruct (Z.eqb_spec outer 0); [lia|]. cbn [obind].
    rewrite (Z.mul_comm outer q), Z.mod_mul, Z.div_mul by lia. rewrite Z.eqb_refl. cbn [guard obind].
    rewrite prefix_n by (rewrite app_length; lia). cbn [obind].
    replace (Z.of_nat (length pre) + 1) with (Z.of_nat (S (length pre))) by lia.
    rewrite suffix_n by (rewrite app_length; simpl; lia). cbn [obind]. now rewrite firstn_mid, skipn_mid.
Qed.
Theorem C40_split_dim_keeps_element_count : forall a dim outer out,
  split_dim a dim outer = Some out -> prodZ out = prodZ a.
Proof.
  intros a dim outer out H. apply C40_split_dim_spec in H.
  destruct H as (k & q & _ & _ & N & (pre & d & post & -> & <- & ->)). rewrite nth_mid in N. injection N as ->.
  rewrite !prodZ_app. simpl. ring.
Qed.
(** Collapsing the two axes split_dim makes gives back the shape. *)
Theorem C40_collapse_inverts_split_dim : forall a dim outer b,
  split_dim a dim outer = Some b -> collapse b dim (dim + 1) = Some a.
Proof.
  intros a dim outer b H. apply C40_split_dim_spec in H.
  destruct H as (k & q & -> & _ & N & (pre & d & post & -> & <- & ->)). rewrite nth_mid in N. injection N as ->.
  apply C40_collapse_spec. exists (length pre), (S (length pre)). split; [auto|split; [lia|]].
  exists pre, [outer; q], post. split; [auto|split; [auto|split; [simpl; lia|split; [lia|]]]].
  simpl. do 2 f_equal. ring.
Qed.
(** Splitting a collapsed pair of axes by the (positive) size of the first gives it back. *)
Theorem C40_split_dim_inverts_collapse : forall a k x b, nth_error a k = Some x -> 0 < x ->
  collapse a (Z.of_nat k) (Z.of_nat k + 1) = Some b -> split_dim b (Z.of_nat k) x = Some a.
Proof.
  intros a k x b N Hx H. apply C40_collapse_spec in H. destruct H as (s & e & Es & Ee & M).
  assert (s = k) by lia. assert (e = S k) by lia. subst s e.
  destruct M as (pre & mid & post & -> & <- & L & _ & ->).
  destruct mid as [|y [|z [|? ?]]]; simpl in L; try lia.
  simpl app in N. rewrite nth_mid in N. injection N as ->.
  apply C40_split_dim_spec. exists (length pre), z. split; [auto|split; [auto|split]].
  - rewrite nth_mid. simpl. f_equal. ring.
  - exists pre, (prodZ [x; z]), post. auto.
Qed.

Lemma slice_to_nat : forall (a : list Z) k, slice_to a (Z.of_nat k) = firstn k a.
Proof.
  intros. unfold slice_to, clampb, zlen. destruct (Z.ltb_spec (Z.of_nat k) 0); [lia|].
  destruct (Nat.le_gt_cases k (length a)).
  - f_equal. lia.
  - rewrite (firstn_all2 (n := k)) by lia. apply firstn_all2. lia.
Qed.
Lemma slice_from_nat : forall (a : list Z) k, slice_from a (Z.of_nat k) = skipn k a.
Proof.
  intros. unfold slice_from, clampb, zlen. destruct (Z.ltb_spec (Z.of_nat k) 0); [lia|].
  destruct (Nat.le_gt_cases k (length a)).
  - f_equal. lia.
  - rewrite (skipn_all2 (n := k)) by lia. apply skipn_all2. lia.
Qed.
Lemma denotes_wrap : forall (s : list Z) dim k, denotes (length s) dim k -> (if dim <? 0 then dim + zlen s else dim) = Z.of_nat k.
Proof. intros s dim k. unfold zlen. set (r := length s). intros [H [-> | ->]]; destruct (Z.ltb_spec (Z.of_nat k) 0), (Z.ltb_spec (Z.of_nat k - Z.of_nat r) 0); lia. Qed.
(** unflatten replaces the axis by a view of it. *)
Theorem C40_unflatten_spec : forall self dim sizes out k d,
  denotes (length self) dim k -> nth_error self k = Some d -> 0 <= d ->
  (unflatten self dim sizes = Some out <->
   exists mid, axis_split k mid self out /\ view_of d sizes mid /\ (In (-1) sizes -> prodZ (known sizes) <> 0)).
Proof.
  intros self dim sizes out k d D N Hd. unfold unflatten. rewrite (denotes_wrap _ _ _ D).
  rewrite pyidx_nat, N. cbn [obind]. rewrite slice_to_nat. replace (Z.of_nat k + 1) with (Z.of_nat (S k)) by lia.
  rewrite slice_from_nat.
  assert (V : forall m, view [d] sizes = Some m <-> view_of d sizes m /\ (In (-1) sizes -> prodZ (known sizes) <> 0)).
  { intros m. rewrite C31_view_spec by (repeat constructor; auto). simpl. now rewrite Z.mul_1_r. }
  apply nth_error_split in N. destruct N as (pre & post & -> & <-). rewrite firstn_mid, skipn_mid. split.
  - destruct (view [d] sizes) as [m|] eqn:E; [|discriminate]. cbn [obind]. intros [= <-]. exists m. split.
    + exists pre, d, post. auto.
    + now apply V.
  - intros (m & (pre' & d' & post' & E & L & ->) & H). apply V in H. rewrite H. cbn [obind]. f_equal.
    assert (pre' = pre /\ d' :: post' = d :: post) as [-> E2].
    { clear -E L. revert pre' E L. induction pre as [|x pre IH]; intros [|y pre'] E L; simpl in *; try lia.
      - auto.
      - injection E as -> E. destruct (IH pre' E ltac:(lia)) as [-> ?]. auto. }
    now injection E2 as -> ->.
Qed.
Theorem C40_unflatten_keeps_element_count : forall self dim sizes out k d,
  denotes (length self) dim k -> nth_error self k = Some d -> 0 <= d ->
  unflatten self dim sizes = Some out -> prodZ out = prodZ self.
Proof.
  intros self dim sizes out k d D N Hd H. apply (C40_unflatten_spec _ _ _ _ _ _ D N Hd) in H.
  destruct H as (mid & (pre & d' & post & -> & <- & ->) & (_ & _ & P) & _). rewrite nth_mid in N. injection N as ->.
  rewrite !prodZ_app. simpl. rewrite P. ring.
Qed.
(** Flattening the new axes gives back the shape. *)
Theorem C40_flatten_inverts_unflatten : forall self dim sizes out k d,
  denotes (length self) dim k -> nth_error self k = Some d -> 0 <= d -> sizes <> [] ->
  unflatten self dim sizes = Some out ->
  flatten out (Z.of_nat k) (Z.of_nat k + zlen sizes - 1) = Some self.
Proof.
  intros self dim sizes out k d D N Hd Hz H. apply (C40_unflatten_spec _ _ _ _ _ _ D N Hd) in H.
  destruct H as (mid & (pre & d' & post & -> & <- & ->) & (_ & F & P) & _). rewrite nth_mid in N. injection N as ->.
  apply Forall2_len in F. assert (L : length mid <> 0%nat) by (destruct sizes; [easy|simpl in F; lia]).
  apply C40_flatten_spec; [destruct pre, mid; simpl in *; try discriminate; lia|].
  exists (length pre), (length pre + length mid - 1)%nat. split; [|split].
  - split; [rewrite !app_length; lia|auto].
  - split; [rewrite !app_length; lia|]. left. unfold zlen. lia.
  - exists pre, mid, post. split; [auto|split; [auto|split; [lia|split; [lia|]]]]. now rewrite P.
Qed.
(** dim below -rank is a range error in PyTorch; the negative index that remains after adding
    the rank is read a second time from the end, and the tail is copied from there. *)
Theorem C40_unflatten_out_of_range_refuted : forall x y, 0 <= y ->
  (forall k, ~ denotes 2 (-3) k) /\ unflatten [x; y] (-3) [1; y] = Some [x; 1; y; x; y].
Proof.
  intros x y Hy. split; [unfold denotes; lia|]. unfold unflatten.
  change (-3 <? 0) with true. change (-3 + zlen [x; y]) with (-1). cbv iota zeta. change (pyidx [x; y] (-1)) with (Some y).
  cbn [obind]. rewrite (proj2 (C31_view_spec [y] [1; y] [1; y] ltac:(repeat constructor; auto))).
  - reflexivity.
  - split.
    + split; [|split].
      * rewrite count_nonneg; [lia|repeat constructor; lia].
      * apply fits_refl. repeat constructor; lia.
      * simpl. ring.
    + intros [E|[E|[]]]; lia.
Qed.
Example C40_nonvacuous : flatten [2; 3; 4; 5] 1 (-2) = Some [2; 12; 5] /\ collapse [2; 3; 4] 1 2 = Some [2; 12] /\
  split_dim [2; 12] 1 3 = Some [2; 3; 4] /\ unflatten [3; 6; 8] (-2) [3; -1] = Some [3; 3; 2; 8] /\
  split_dim [2; 12] 1 5 = None /\ flatten [2; 3] 1 0 = None.
Proof. repeat split. Qed.

Print Assumptions C40_flatten_spec.
Print Assumptions C40_collapse_spec.
Print Assumptions C40_split_dim_spec.
Print Assumptions C40_collapse_inverts_split_dim.
Print Assumptions C40_flatten_inverts_unflatten.
