(** Properties C44 (advanced indexing) and C45 (elementwise operators broadcast). *)
From Coq Require Import ZArith Bool Lia List.
From Verif Require Import Prelude ShapeCoreModel ShapeCoreSpec ShapeCoreProofs ShapeBroadcastProps ShapeViewProps
  ShapeDimProps ShapeMiscModel ShapeMiscSpec ShapeFlatProps.
Import ListNotations.
Open Scope Z_scope.

(** The first loop: broadcast the index shapes, collect the other sizes. *)
Fixpoint walk (s : list Z) (ix : list (option (list Z))) (bc un : list Z) : option (list Z * list Z) :=
  match s, ix with
  | [], _ => Some (bc, un)
  | x :: s', [] => walk s' [] bc (un ++ [x])
  | _ :: s', Some sh :: ix' => do b <- broadcast bc sh; walk s' ix' b un
  | x :: s', None :: ix' => walk s' ix' bc (un ++ [x])
  end.
Definition loop1 (self : list Z) (indices : list (option (list Z))) (st : list Z * list Z) (i : Z) : option (list Z * list Z) :=
  let '(bc, unused) := st in
      if zlen indices <=? i then do x <- pyidx self i; Some (bc, unused ++ [x])
      else
        do ix <- pyidx indices i;
        match ix with
        | Some s => do b <- broadcast bc s; Some (b, unused)
        | None => do x <- pyidx self i; Some (bc, unused ++ [x])
        end.
Lemma loop1_walk : forall self indices s i ix bc un, skipn i self = s -> skipn i indices = ix -> (i + length s = length self)%nat ->
  foldM (loop1 self indices) (zrange (Z.of_nat i) (zlen self)) (bc, un) = walk s ix bc un.
Proof.
  intros self indices. induction s as [|x s IH]; intros i ix bc un Hs Hi L.
  - rewrite zrange_nil by (unfold zlen; simpl in L; lia). reflexivity.
  - rewrite zrange_cons by (unfold zlen; simpl in L; lia). cbn [foldM].
    replace (Z.of_nat i + 1) with (Z.of_nat (S i)) by lia.
    assert (X : nth_error self i = Some x).
    { rewrite <- (Nat.add_0_r i), <- nth_error_skipn, Hs. reflexivity. }
    assert (Hs' : skipn (S i) self = s).
    { replace (S i) with (i + 1)%nat by lia. rewrite <- skipn_skipn, Hs. reflexivity. }
    assert (Hi' : skipn (S i) indices = tl ix).
    { replace (S i) with (i + 1)%nat by lia. rewrite <- skipn_skipn, Hi. now destruct ix. }
    assert (L' : (S i + length s = length self)%nat) by (simpl in L; lia).
    unfold loop1 at 1. rewrite !pyidx_nat, X. cbn [obind].
    assert (Li : length ix = (length indices - i)%nat) by (rewrite <- Hi; apply skipn_length).
    destruct (Z.leb_spec (zlen indices) (Z.of_nat i)) as [Le|Gt].
    + destruct ix; [|simpl in Li; unfold zlen in Le; lia]. cbn [obind walk]. now apply IH.
    + assert (N : nth_error indices i = nth_error ix 0) by (rewrite <- Hi, nth_error_skipn; f_equal; lia).
      rewrite N. destruct ix as [|o ix]; [unfold zlen in Gt; simpl in Li; lia|]. cbn [nth_error obind].
      destruct o as [sh|]; cbn [walk].
      * destruct (broadcast bc sh); cbn [obind]; auto.
      * cbn [obind]. auto.
Qed.
Lemma walk_spec : forall s ix bc un, (length ix <= length s)%nat ->
  walk s ix bc un = do b <- foldM broadcast (index_shapes ix) bc; Some (b, un ++ unindexed s ix).
Proof.
  induction s as [|x s IH]; intros ix bc un L.
  - destruct ix; [|simpl in L; lia]. simpl. now rewrite app_nil_r.
  - destruct ix as [|[sh|] ix]; cbn [walk].
    + rewrite IH by (simpl; lia). simpl. rewrite <- app_assoc. destruct s; reflexivity.
    + simpl. destruct (broadcast bc sh) as [b|]; cbn [obind]; auto. apply IH. simpl in L. lia.
    + simpl. rewrite IH by (simpl in L; lia). now rewrite <- app_assoc.
Qed.
Lemma foldM_snoc : forall A B (f : A -> B -> option A) l x a, foldM f (l ++ [x]) a = (do b <- foldM f l a; f b x).
Proof.
  induction l as [|y l IH]; simpl; intros x a; [destruct (f a x); reflexivity|]. destruct (f a y); simpl; auto.
Qed.
Lemma fold_broadcast_all : forall l b, foldM broadcast l [] = Some b <-> broadcast_all l b.
Proof.
  induction l as [|s l IH] using rev_ind; intros b.
  - simpl. split; [intros [= <-]; constructor|]. intros H. inversion H as [|? ? ? ? ? ? E]; auto. now destruct l.
  - rewrite foldM_snoc. split.
    + intros H. destruct (foldM broadcast l []) as [c|]; [|discriminate]. cbn [obind] in H.
      econstructor; [now apply IH|]. now apply C28_broadcast_is_common_shape.
    + intros H. inversion H as [E|l' s' c d Hc Hb E]; [now destruct l|].
      apply app_inj_tail in E. destruct E as [-> ->]. apply IH in Hc. rewrite Hc. cbn [obind].
      now apply C28_broadcast_is_common_shape.
Qed.

(** The second loop: where the index tensors are. *)
Definition loop2 (st : Z * Z * bool) (p : Z * option (list Z)) : Z * Z * bool :=
  let '(first, last, together) := st in
  let '(e, ix) := p in
        match ix with
        | None => (first, last, together)
        | Some _ =>
            if first =? -1 then (e, e, together)
            else if negb (e - last =? 1) then (first, e, false)
            else (first, e, together)
        end.
Definition scan (i : Z) (l : list (option (list Z))) (st : Z * Z * bool) : Z * Z * bool :=
  fold_left loop2 (combine (zrange i (i + zlen l)) l) st.
Lemma scan_nil : forall i st, scan i [] st = st.
Proof. intros. unfold scan. destruct (zrange i (i + zlen [])); reflexivity. Qed.
Lemma scan_cons : forall i o l st, scan i (o :: l) st = scan (i + 1) l (loop2 st (i, o)).
Proof.
  intros. unfold scan. rewrite zlen_cons. pose proof (zlen_nonneg _ l). rewrite zrange_cons by lia. cbn [combine fold_left].
  do 3 f_equal. lia.
Qed.
Lemma scan_app : forall l m i st, scan i (l ++ m) st = scan (i + zlen l) m (scan i l st).
Proof.
  induction l as [|o l IH]; intros m i st.
  - rewrite scan_nil. simpl. f_equal. rewrite zlen_nil. lia.
  - simpl. rewrite !scan_cons, IH. f_equal. rewrite zlen_cons. lia.
Qed.
Lemma scan_none : forall n i st, scan i (repeat None n) st = st.
Proof.
  induction n; intros i [[f la] tg]; [apply scan_nil|]. simpl. rewrite scan_cons. apply IHn.
Qed.
Lemma scan_some : forall shapes i f tg, f <> -1 -> scan i (map Some shapes) (f, i - 1, tg) = (f, i + zlen shapes - 1, tg).
Proof.
  induction shapes as [|s l IH]; intros i f tg Hf.
  - rewrite scan_nil, zlen_nil. do 2 f_equal. lia.
  - cbn [map]. rewrite scan_cons. cbn [loop2]. destruct (Z.eqb_spec f (-1)); [easy|].
    replace (i - (i - 1) =? 1) with true by lia. cbn [negb]. replace i with ((i + 1) - 1) at 2 by lia. rewrite IH by auto.
    rewrite zlen_cons. do 2 f_equal. lia.
Qed.
Lemma scan_apart : forall l i f la, exists f' la', scan i l (f, la, false) = (f', la', false).
Proof.
  induction l as [|o l IH]; intros i f la.
  - rewrite scan_nil. eauto.
  - rewrite scan_cons. destruct o; cbn [loop2]; [|auto]. destruct (f =? -1); auto. destruct (negb (i - la =? 1)); auto.
Qed.
Lemma scan_first : forall l i f la tg, 0 <= i -> f <> -1 -> la < i -> exists la' tg', scan i l (f, la, tg) = (f, la', tg') /\ la' < i + zlen l.
Proof.
  induction l as [|o l IH]; intros i f la tg Hi Hf Hla.
  - rewrite scan_nil, zlen_nil. exists la, tg. split; auto. lia.
  - rewrite scan_cons, zlen_cons. replace (i + (1 + zlen l)) with (i + 1 + zlen l) by lia. destruct o; cbn [loop2].
    + destruct (Z.eqb_spec f (-1)); [easy|]. destruct (negb (i - la =? 1)); apply IH; auto; lia.
    + apply IH; auto; lia.
Qed.
Lemma foldM_ext : forall A B (f g : A -> B -> option A) l a, (forall a b, f a b = g a b) -> foldM f l a = foldM g l a.
Proof. induction l; simpl; intros; auto. rewrite H. destruct (g a0 a); simpl; auto. Qed.
Lemma fold_left_ext : forall A B (f g : A -> B -> A) l a, (forall a b, f a b = g a b) -> fold_left f l a = fold_left g l a.
Proof. induction l; simpl; intros; auto. rewrite H. auto. Qed.
Definition start : Z * Z * bool := (-1, -1, true).
Lemma index_eq : forall self ix, index_tensor_like self ix =
  if (zlen ix <=? zlen self) then
    do b <- foldM broadcast (index_shapes ix) [];
    let u := unindexed self ix in
    if zlen u =? 0 then Some b
    else let '(first, _, together) := scan 0 ix start in
      if negb together then Some (b ++ u)
      else do x <- mapM (pyidx u) (zrange 0 first); do y <- mapM (pyidx u) (zrange first (zlen u)); Some (x ++ b ++ y)
  else None.
Proof.
  intros self ix. unfold index_tensor_like. destruct (Z.leb_spec (zlen ix) (zlen self)) as [L|]; [|reflexivity]. cbn [guard obind].
  rewrite (foldM_ext _ _ _ (loop1 self ix)) by (intros [? ?] ?; reflexivity).
  change (zrange 0 (zlen self)) with (zrange (Z.of_nat 0) (zlen self)).
  rewrite (loop1_walk self ix self 0 ix [] []) by reflexivity. rewrite walk_spec by (unfold zlen in L; lia).
  destruct (foldM broadcast (index_shapes ix) []) as [b|]; [|reflexivity]. cbn [obind]. simpl app.
  destruct (zlen (unindexed self ix) =? 0); [reflexivity|].
  replace (combine (zrange 0 (zlen ix)) ix) with (combine (zrange 0 (0 + zlen ix)) ix) by reflexivity.
  rewrite (fold_left_ext _ _ _ loop2) by (intros [[? ?] ?] [? ?]; reflexivity).
  change (fold_left loop2 (combine (zrange 0 (0 + zlen ix)) ix) (-1, -1, true)) with (scan 0 ix start).
  destruct (scan 0 ix start) as [[f la] tg]. destruct tg; reflexivity.
Qed.
Lemma shapes_app : forall a b, index_shapes (a ++ b) = index_shapes a ++ index_shapes b.
Proof. intros. unfold index_shapes. apply flat_map_app. Qed.
Lemma shapes_none : forall n, index_shapes (repeat None n) = [].
Proof. induction n; simpl; auto. Qed.
Lemma shapes_some : forall l, index_shapes (map Some l) = l.
Proof. induction l; simpl; auto. now f_equal. Qed.
Lemma unindexed_nil : forall s, unindexed s [] = s.
Proof. now destruct s. Qed.
Lemma unindexed_nones : forall n s, unindexed s (repeat None n) = s.
Proof. induction n; intros [|x s]; simpl; auto. now rewrite IHn. Qed.
Lemma unindexed_adjacent : forall f shapes t s, (f + length shapes <= length s)%nat ->
  unindexed s (repeat None f ++ map Some shapes ++ repeat None t) = firstn f s ++ skipn (f + length shapes) s.
Proof.
  induction f as [|f IH]; intros shapes t s L.
  - simpl. revert s L. induction shapes as [|sh l IH]; intros s L; simpl; [apply unindexed_nones|].
    destruct s as [|x s]; [simpl in L; lia|]. simpl in *. apply IH. lia.
  - destruct s as [|x s]; [simpl in L; lia|]. simpl. f_equal. apply IH. simpl in L. lia.
Qed.
(** Index tensors on adjacent axes: their broadcast shape takes the place of those axes. *)
Theorem C44_adjacent_indices : forall self f shapes t b, shapes <> [] ->
  (f + length shapes + t <= length self)%nat -> broadcast_all shapes b ->
  index_tensor_like self (repeat None f ++ map Some shapes ++ repeat None t) =
  Some (firstn f self ++ b ++ skipn (f + length shapes) self).
Proof.
  intros self f shapes t b Hn L B. rewrite index_eq. apply fold_broadcast_all in B.
  assert (Lz : zlen (repeat (@None (list Z)) f ++ map Some shapes ++ repeat None t) <=? zlen self = true).
  { unfold zlen. rewrite !app_length, !repeat_length, map_length. lia. }
  rewrite Lz, !shapes_app, !shapes_none, shapes_some, app_nil_r. simpl app. rewrite B. cbn [obind].
  rewrite unindexed_adjacent by lia. cbv zeta.
  destruct (Z.eqb_spec (zlen (firstn f self ++ skipn (f + length shapes) self)) 0) as [E|E].
  - unfold zlen in E. rewrite app_length in E.
    destruct (firstn f self); [|simpl in E; lia]. destruct (skipn (f + length shapes) self); [|simpl in E; lia].
    now rewrite app_nil_r.
  - rewrite !scan_app, !scan_none. unfold start. destruct shapes as [|s l]; [easy|]. cbn [map]. rewrite scan_cons. cbn [loop2].
    change (-1 =? -1) with true. cbv iota. set (i := 0 + zlen (repeat None f)).
    assert (Ei : i = Z.of_nat f) by (unfold i, zlen; rewrite repeat_length; lia).
    pose proof (scan_some l (i + 1) i true ltac:(lia)) as Sc. replace (i + 1 - 1) with i in Sc by lia.
    rewrite Sc. cbn [negb]. rewrite Ei.
    set (u := firstn f self ++ skipn (f + length (s :: l)) self) in *.
    assert (Lu : (f <= length u)%nat) by (unfold u; rewrite app_length, firstn_length; lia).
    rewrite prefix_n by auto. cbn [obind]. rewrite suffix_n by auto. cbn [obind]. unfold u.
    assert (Lf : length (firstn f self) = f) by (rewrite firstn_length; lia).
    do 2 f_equal; [|f_equal].
    + rewrite firstn_app, Lf, Nat.sub_diag, firstn_O, app_nil_r. rewrite firstn_all2 by lia. reflexivity.
    + rewrite skipn_app, Lf, Nat.sub_diag. rewrite skipn_all2 by lia. reflexivity.
Qed.
(** Index tensors separated by an axis that is not indexed: their shape comes first. *)
Theorem C44_separated_indices : forall self p a q1 q2 c r b,
  let ix := p ++ Some a :: q1 ++ None :: q2 ++ Some c :: r in
  (length ix <= length self)%nat -> broadcast_all (index_shapes ix) b ->
  index_tensor_like self ix = Some (b ++ unindexed self ix).
Proof.
  intros self p a q1 q2 c r b ix L B. rewrite index_eq. apply fold_broadcast_all in B.
  rewrite (proj2 (Z.leb_le (zlen ix) (zlen self))) by (unfold zlen; lia). rewrite B. cbn [obind]. cbv zeta.
  assert (U : zlen (unindexed self ix) =? 0 = false).
  { assert (X : forall l s, (length l <= length s)%nat -> In None l -> unindexed s l <> []).
    { induction l as [|o l IH]; intros [|x s] Ls H; simpl in *; try lia; try easy. destruct o; [|discriminate].
      destruct H as [H|H]; [discriminate|]. apply IH; auto. lia. }
    assert (I : In None ix) by (unfold ix; rewrite in_app_iff; right; right; rewrite in_app_iff; right; now left).
    specialize (X ix self L I). destruct (unindexed self ix); [easy|]. rewrite zlen_cons. pose proof (zlen_nonneg _ l). lia. }
  rewrite U.
  assert (A : exists f la, scan 0 ix start = (f, la, false)).
  { unfold ix. rewrite scan_app, scan_cons. unfold start. pose proof (zlen_nonneg _ p).
    destruct (scan 0 p (-1, -1, true)) as [[f0 l0] t0] eqn:E0.
    assert (S1 : exists f1 t1, loop2 (f0, l0, t0) (0 + zlen p, Some a) = (f1, 0 + zlen p, t1) /\ f1 <> -1).
    { cbn [loop2]. destruct (Z.eqb_spec f0 (-1)); [exists (0 + zlen p), t0; split; auto; lia|].
      destruct (negb (0 + zlen p - l0 =? 1)); eauto. }
    destruct S1 as (f1 & t1 & -> & Hf). rewrite scan_app, scan_cons. pose proof (zlen_nonneg _ q1).
    destruct (scan_first q1 (0 + zlen p + 1) f1 (0 + zlen p) t1) as (l2 & t2 & -> & H2); [lia|auto|lia|]. cbn [loop2].
    rewrite scan_app, scan_cons. pose proof (zlen_nonneg _ q2).
    set (i := 0 + zlen p + 1 + zlen q1 + 1).
    assert (G : forall l j la tg, i <= j -> la < i - 1 -> exists la' tg', scan j l (f1, la, tg) = (f1, la', tg') /\
              (tg' = false \/ la' < i - 1)).
    { induction l as [|o l IH]; intros j la tg Hj Hla.
      - rewrite scan_nil. eauto 6.
      - rewrite scan_cons. destruct o; cbn [loop2]; [|apply IH; auto; lia].
        destruct (Z.eqb_spec f1 (-1)); [easy|]. replace (j - la =? 1) with false by lia. cbn [negb].
        assert (Sa : forall m k lb, exists lb', scan k m (f1, lb, false) = (f1, lb', false)).
        { induction m as [|o m IHm]; intros k lb; [rewrite scan_nil; eauto|]. rewrite scan_cons. destruct o; cbn [loop2]; auto.
          destruct (f1 =? -1) eqn:Ef; [lia|]. destruct (negb (k - lb =? 1)); auto. }
        destruct (Sa l (j + 1) j) as (lb & ->). eauto 6. }
    destruct (G q2 i l2 t2) as (l3 & t3 & -> & H3); [lia|unfold i; lia|]. cbn [loop2].
    destruct (Z.eqb_spec f1 (-1)); [easy|].
    destruct H3 as [-> | H3].
    - destruct (negb (i + zlen q2 - l3 =? 1)); apply scan_apart.
    - replace (i + zlen q2 - l3 =? 1) with false by lia. cbn [negb]. apply scan_apart. }
  destruct A as (f & la & ->). reflexivity.
Qed.
(** Every list of indices is one of: no index tensor, adjacent ones, separated ones. *)
Theorem C44_index_kinds : forall ix : list (option (list Z)),
  (exists n, ix = repeat None n) \/
  (exists f shapes t, shapes <> [] /\ ix = repeat None f ++ map Some shapes ++ repeat None t) \/
  (exists p a q1 q2 c r, ix = p ++ Some a :: q1 ++ None :: q2 ++ Some c :: r).
Proof.
  induction ix as [|o ix IH]; [left; now exists 0%nat|].
  destruct IH as [(n & ->)|[(f & sh & t & Hn & ->)|(p & a & q1 & q2 & c & r & ->)]].
  - destruct o as [s|].
    + right. left. exists 0%nat, [s], n. split; [discriminate|reflexivity].
    + left. exists (S n). reflexivity.
  - destruct o as [s|].
    + destruct f as [|f].
      * right. left. exists 0%nat, (s :: sh), t. split; [discriminate|reflexivity].
      * right. right. destruct sh as [|s' sh]; [easy|].
        exists [], s, [], (repeat None f), s', (map Some sh ++ repeat None t). reflexivity.
    + right. left. exists (S f), sh, t. split; auto.
  - right. right. exists (o :: p), a, q1, q2, c, r. reflexivity.
Qed.
Theorem C44_index_rejects : forall self ix, index_tensor_like self ix = None <->
  (length self < length ix)%nat \/ (forall b, ~ broadcast_all (index_shapes ix) b).
Proof.
  intros self ix. split.
  - intros H. destruct (Nat.lt_ge_cases (length self) (length ix)); auto. right. intros b B.
    destruct (C44_index_kinds ix) as [(n & ->)|[(f & sh & t & Hn & ->)|(p & a & q1 & q2 & c & r & ->)]].
    + rewrite index_eq in H. rewrite (proj2 (Z.leb_le _ _)) in H by (unfold zlen; lia). rewrite shapes_none in H.
      cbn [foldM obind] in H. rewrite unindexed_nones in H. cbv zeta in H. destruct (Z.eqb_spec (zlen self) 0) as [E|E]; [discriminate|].
      rewrite scan_none in H. unfold start in H. cbn [negb] in H. pose proof (zlen_nonneg _ self).
      rewrite zrange_nil in H by lia. cbn [mapM obind] in H. rewrite zrange_cons in H by lia. cbn [mapM] in H.
      change (-1 + 1) with (Z.of_nat 0) in H. rewrite suffix_n in H by lia.
      change (-1) with (- (Z.of_nat 0 + 1)) in H. rewrite pyidx_neg in H by lia.
      destruct (Z.ltb_spec (- (Z.of_nat 0 + 1) + zlen self) 0); [lia|].
      destruct (nth_error self (Z.to_nat (- (Z.of_nat 0 + 1) + zlen self))) eqn:N; [discriminate|].
      apply nth_error_None in N. unfold zlen in *. lia.
    + rewrite !shapes_app, !shapes_none, shapes_some, app_nil_r in B. simpl in B.
      rewrite !app_length, !repeat_length, map_length in H0.
      rewrite (C44_adjacent_indices self f sh t b) in H by (auto; lia). discriminate.
    + rewrite (C44_separated_indices self p a q1 q2 c r b H0 B) in H. discriminate.
  - intros H. rewrite index_eq. destruct (Z.leb_spec (zlen ix) (zlen self)) as [L|]; auto.
    destruct H as [H|H]; [unfold zlen in L; lia|].
    destruct (foldM broadcast (index_shapes ix) []) as [b|] eqn:E; auto. apply fold_broadcast_all in E. now apply H in E.
Qed.
(** With only None indices the tensor is not indexed, but the function repeats the last size
    in front (it starts copying at position -1). *)
Theorem C44_no_index_tensor_refuted : forall pre d n, (n <= S (length pre))%nat ->
  index_tensor_like (pre ++ [d]) (repeat None n) = Some (d :: pre ++ [d]).
Proof.
  intros pre d n Hn. rewrite index_eq.
  assert (L : length (pre ++ [d]) = S (length pre)) by (rewrite app_length; simpl; lia).
  rewrite (proj2 (Z.leb_le _ _)) by (unfold zlen; rewrite L, repeat_length; lia). rewrite shapes_none. cbn [foldM obind].
  rewrite unindexed_nones. cbv zeta. destruct (Z.eqb_spec (zlen (pre ++ [d])) 0); [unfold zlen in *; lia|].
  rewrite scan_none. unfold start. cbn [negb]. rewrite zrange_nil by lia. cbn [mapM obind].
  rewrite zrange_cons by (unfold zlen; lia). cbn [mapM].
  change (-1 + 1) with (Z.of_nat 0). rewrite suffix_n by lia.
  rewrite (pyidx_neg _ _ (-1)) by lia. destruct (Z.ltb_spec (-1 + zlen (pre ++ [d])) 0); [unfold zlen in *; lia|].
  replace (Z.to_nat (-1 + zlen (pre ++ [d]))) with (length pre) by (unfold zlen; lia). rewrite nth_mid. reflexivity.
Qed.
Example C44_nonvacuous : index_tensor_like [2; 3; 4; 5] [None; Some [4]; Some [6; 1]] = Some [2; 6; 4; 5] /\
  index_tensor_like [2; 3; 4; 5] [Some [4; 2]; None; Some [2]] = Some [4; 2; 3; 5] /\
  index_tensor_like [2] [Some [4]; Some [4]] = None /\ index_tensor_like [2; 3] [Some [4]; Some [5]] = None.
Proof. repeat split. Qed.

(** The operators whose shape function returns the shape of the first operand. *)
Definition first_operand_only : list elem2 :=
  [remainder_Tensor; fmod_Tensor; polar; clamp_min_Tensor; logaddexp; logaddexp2; masked_fill_Scalar; mse_loss_none; l1_loss_none].
Theorem C45_two_operands_broadcast_partial : forall op a b c, ~ In op first_operand_only ->
  (elem2_shape op a b = Some c <-> broadcasts a b c).
Proof.
  intros op a b c H. rewrite <- C28_broadcast_is_common_shape.
  destruct op; try reflexivity; exfalso; apply H; unfold first_operand_only; simpl; tauto.
Qed.
Theorem C45_mismatch_rejected : forall op a b, ~ In op first_operand_only ->
  (elem2_shape op a b = None <-> exists k, rdim a k <> rdim b k /\ rdim a k <> 1 /\ rdim b k <> 1).
Proof.
  intros op a b H. rewrite <- C28_broadcast_fails_on_mismatch.
  destruct op; try reflexivity; exfalso; apply H; unfold first_operand_only; simpl; tauto.
Qed.
Theorem C45_operands_commute : forall op a b, ~ In op first_operand_only -> elem2_shape op a b = elem2_shape op b a.
Proof.
  intros op a b H.
  destruct op; try apply C28_broadcast_commutative; exfalso; apply H; unfold first_operand_only; simpl; tauto.
Qed.
(** The remaining ones are right exactly when the other operand expands to the first. *)
Theorem C45_first_operand_shape_refuted : forall op a b, In op first_operand_only ->
  elem2_shape op a b = Some a /\
  elem2_shape op [1] [3] = Some [1] /\ broadcasts [1] [3] [3] /\
  elem2_shape op [2] [3] = Some [2] /\ (forall c, ~ broadcasts [2] [3] c).
Proof.
  intros op a b H. assert (E : forall x y, elem2_shape op x y = Some x).
  { intros x y. unfold first_operand_only in H. simpl in H.
    destruct H as [<-|[<-|[<-|[<-|[<-|[<-|[<-|[<-|[<-|[]]]]]]]]]]; apply unary_spec. }
  split; [auto|split; [auto|split; [|split; [auto|]]]].
  - now apply C28_broadcast_is_common_shape.
  - intros c Hc. apply C28_broadcast_is_common_shape in Hc. discriminate.
Qed.
Theorem C45_first_operand_right_when_widest : forall op a b c, In op first_operand_only ->
  broadcasts a b c -> (elem2_shape op a b = Some c <-> expandable b a).
Proof.
  intros op a b c H Hc. destruct (C45_first_operand_shape_refuted op a b H) as [-> _]. split.
  - intros [= <-]. destruct Hc as [L R]. split; [lia|]. intros k. destruct (Nat.lt_ge_cases k (length a)).
    + specialize (R k H0). unfold bcast1 in R. lia.
    + right. apply rdim_out. lia.
  - intros [L R]. f_equal. destruct Hc as [Lc Rc]. apply list_rdim_ext; [lia|]. intros k Hk.
    specialize (Rc k ltac:(lia)). specialize (R k). unfold bcast1 in Rc. lia.
Qed.
Theorem C45_three_operands_broadcast_partial : forall op a b c d, op <> clamp_Tensor -> op <> masked_fill_Tensor ->
  (elem3_shape op a b c = Some d <-> exists bc, broadcasts b c bc /\ broadcasts a bc d).
Proof.
  intros op a b c d H1 H2.
  assert (E : elem3_shape op a b c = do bc <- broadcast b c; broadcast a bc) by (destruct op; try reflexivity; congruence).
  rewrite E. split.
  - intros H. destruct (broadcast b c) as [bc|] eqn:B; [|discriminate]. cbn [obind] in H. exists bc.
    split; now apply C28_broadcast_is_common_shape.
  - intros (bc & B & H). apply C28_broadcast_is_common_shape in B, H. now rewrite B.
Qed.
Theorem C45_three_operands_refuted : forall op, op = clamp_Tensor \/ op = masked_fill_Tensor ->
  elem3_shape op [1] [3] [3] = Some [1] /\ elem3_shape addcmul [1] [3] [3] = Some [3].
Proof. intros op [-> | ->]; split; reflexivity. Qed.
(** broadcast_tensors gives every tensor the common shape. *)
Theorem C45_broadcast_tensors_spec : forall ts outs, ts <> [] ->
  (broadcast_tensors ts = Some outs <-> exists s, broadcast_all ts s /\ outs = repeat s (length ts)).
Proof.
  intros ts outs H. destruct ts as [|t r]; [easy|]. unfold broadcast_tensors.
  assert (E : forall s, foldM broadcast r t = Some s <-> broadcast_all (t :: r) s).
  { intros s. rewrite <- fold_broadcast_all. cbn [foldM]. rewrite C28_broadcast_unit. reflexivity. }
  assert (M : forall (s : list Z) (l : list (list Z)), map (fun _ => s) l = repeat s (length l)) by (induction l; simpl; f_equal; auto).
  split.
  - intros Hs. destruct (foldM broadcast r t) as [s|] eqn:F; [|discriminate]. cbn [obind] in Hs. injection Hs as <-.
    exists s. split; [now apply E|]. now rewrite <- (M s (t :: r)).
  - intros (s & B & ->). apply E in B. rewrite B. cbn [obind]. f_equal. apply (M s (t :: r)).
Qed.
Example C45_nonvacuous : elem2_shape add_Tensor [3; 1] [1; 4] = Some [3; 4] /\ elem2_shape le_Tensor [3] [4] = None /\
  elem3_shape where_self [2] [3; 1] [1; 1] = Some [3; 2] /\ broadcast_tensors [[2; 1]; [3]] = Some [[2; 3]; [2; 3]] /\
  ~ In add_Tensor first_operand_only.
Proof.
  split; [reflexivity|split; [reflexivity|split; [reflexivity|split; [reflexivity|]]]].
  unfold first_operand_only. simpl. intros H. repeat (destruct H as [H|H]; [discriminate|]). exact H.
Qed.

Print Assumptions C44_adjacent_indices.
Print Assumptions C44_separated_indices.
Print Assumptions C44_index_rejects.
Print Assumptions C45_two_operands_broadcast_partial.
Print Assumptions C45_first_operand_shape_refuted.
