(** Properties C34-C36 and C46, continued: the shape functions built on cat, transpose and the reductions. *)
From Coq Require Import ZArith Bool Lia List.
From Verif Require Import Prelude ShapeCoreModel ShapeCoreSpec ShapeCoreProofs ShapeBroadcastProps ShapeViewProps
  ShapeDimProps ShapeCatProps ShapeMiscModel ShapeMiscSpec ShapeFlatProps ShapePadProps.
Import ListNotations.
Open Scope Z_scope.

Lemma rot_odd : forall k, let m := (k mod 4 + 4) mod 4 in ((m =? 1) || (m =? 3)) = Z.odd k.
Proof.
  intros k m. unfold m. replace (k mod 4 + 4) with (k mod 4 + 1 * 4) by lia. rewrite Z.mod_add, Z.mod_mod by lia.
  assert (E : Z.odd k = Z.odd (k mod 4)).
  { rewrite (Z.div_mod k 4) at 1 by lia. rewrite Z.odd_add, Z.odd_mul. simpl. now destruct (Z.odd (k mod 4)). }
  rewrite E. pose proof (Z.mod_pos_bound k 4 ltac:(lia)).
  assert (H' : k mod 4 = 0 \/ k mod 4 = 1 \/ k mod 4 = 2 \/ k mod 4 = 3) by lia.
  destruct H' as [-> | [-> | [-> | ->]]]; reflexivity.
Qed.
(** An odd number of quarter turns swaps the two axes, an even number swaps none. *)
Theorem C46_rot90_spec : forall self k d0 d1 k0 k1, denotes (length self) d0 k0 -> denotes (length self) d1 k1 -> k0 <> k1 ->
  rot90 self k [d0; d1] = if Z.odd k then transpose self d0 d1 else Some self.
Proof.
  intros self k d0 d1 k0 k1 D0 D1 Ne. unfold rot90.
  assert (L : 2 <= zlen self) by (unfold zlen; destruct D0, D1; lia).
  rewrite (proj2 (guard_true _)) by lia. cbn [obind]. rewrite (proj2 (guard_true _)) by reflexivity. cbn [obind].
  cbv zeta. rewrite rot_odd. destruct (Z.odd k); auto. cbn [pyidx]. change (pyidx [d0; d1] 0) with (Some d0).
  change (pyidx [d0; d1] 1) with (Some d1). cbn [obind]. rewrite (pyidx_valid _ _ _ D0), (pyidx_valid _ _ _ D1).
  destruct (nth_error self k1) as [y|] eqn:Y; [|apply nth_error_None in Y; destruct D1; lia].
  destruct (nth_error self k0) as [x|] eqn:X; [|apply nth_error_None in X; destruct D0; lia].
  cbn [obind]. rewrite (pyset_valid _ _ _ _ D0). cbn [obind].
  assert (D1' : denotes (length (set_nth k0 y self)) d1 k1) by now rewrite set_nth_length.
  rewrite (pyset_valid _ _ _ _ D1'). symmetry. apply (C35_transpose_swaps _ _ _ k0 k1); auto.
  rewrite !set_nth_length. split; auto.
  split; [rewrite set_nth_other, set_nth_same by (auto; destruct D0; lia); auto|].
  split; [rewrite set_nth_same by (rewrite set_nth_length; destruct D1; lia); auto|].
  intros i H0 H1. now rewrite !set_nth_other.
Qed.
Theorem C46_rot90_four_turns : forall self k d0 d1 k0 k1, denotes (length self) d0 k0 -> denotes (length self) d1 k1 -> k0 <> k1 ->
  rot90 self (k + 4) [d0; d1] = rot90 self k [d0; d1].
Proof.
  intros self k d0 d1 k0 k1 D0 D1 Ne. rewrite !(C46_rot90_spec _ _ _ _ k0 k1) by auto. rewrite Z.odd_add. simpl.
  now destruct (Z.odd k).
Qed.
Theorem C46_rot90_rejects : forall self k dims, (length self < 2)%nat \/ length dims <> 2%nat -> rot90 self k dims = None.
Proof.
  intros self k dims H. unfold rot90, guard, zlen. destruct (Z.leb_spec 2 (Z.of_nat (length self))); [|reflexivity].
  destruct (Z.eqb_spec (Z.of_nat (length dims)) 2); [lia|reflexivity].
Qed.
(** For an even number of turns the axes are never looked at. *)
Theorem C46_rot90_axes_unchecked_refuted : forall self k d0 d1, (2 <= length self)%nat -> Z.odd k = false ->
  rot90 self k [d0; d1] = Some self.
Proof.
  intros self k d0 d1 L O. unfold rot90. rewrite (proj2 (guard_true _)) by (unfold zlen; lia). cbn [obind].
  rewrite (proj2 (guard_true _)) by reflexivity. cbn [obind]. cbv zeta. now rewrite rot_odd, O.
Qed.

(** glu halves the axis. *)
Theorem C46_glu_spec : forall self dim k d out, denotes (length self) dim k -> nth_error self k = Some d ->
  (glu self dim = Some out <-> exists h, d = 2 * h /\ out = set_nth k h self).
Proof.
  intros self dim k d out D Hd. unfold glu. rewrite (denotes_wrap _ _ _ D). rewrite pyidx_nat, Hd. cbn [obind].
  change (pymod d 2) with (Some (d mod 2)). change (pydiv d 2) with (Some (d / 2)). cbn [obind].
  rewrite slice_to_nat. replace (Z.of_nat k + 1) with (Z.of_nat (S k)) by lia. rewrite slice_from_nat.
  assert (S : forall v, firstn k self ++ [v] ++ skipn (S k) self = set_nth k v self).
  { intros v. destruct D as [Hk _]. destruct (at_split self k Hk) as (pre & x & post & -> & <-).
    rewrite firstn_mid, skipn_mid. simpl. clear. induction pre; simpl; auto. now f_equal. }
  rewrite S. pose proof (Z.div_mod d 2 ltac:(lia)). destruct (Z.eqb_spec (d mod 2) 0) as [E|E]; cbn [guard obind].
  - split.
    + intros [= <-]. exists (d / 2). split; auto. lia.
    + intros (h & -> & ->). now rewrite Z.mul_comm, Z.div_mul by lia.
  - split; [discriminate|]. intros (h & -> & _). rewrite Z.mul_comm, Z.mod_mul in E by lia. easy.
Qed.
(** The dim is wrapped by hand and then indexed python-fashion, so it wraps twice. *)
Theorem C46_glu_wraps_twice_refuted : (forall k, ~ denotes 2 (-3) k) /\ glu [4; 6] (-3) = Some [4; 3; 4; 6].
Proof. split; [unfold denotes; intros k; lia|reflexivity]. Qed.

(** cosine_similarity drops the axis of the common shape; for dim = -1 it does not. *)
Theorem C46_cosine_similarity_partial : forall x1 x2 b dim k, broadcasts x1 x2 b -> denotes (length b) dim k -> dim <> -1 ->
  cosine_similarity x1 x2 dim = Some (drop_at k b).
Proof.
  intros x1 x2 b dim k B D N. apply C28_broadcast_is_common_shape in B. unfold cosine_similarity. rewrite B. cbn [obind].
  destruct (slices_at _ _ _ D N) as [-> ->]. reflexivity.
Qed.
Theorem C46_cosine_similarity_mismatch : forall x1 x2 dim, (forall b, ~ broadcasts x1 x2 b) -> cosine_similarity x1 x2 dim = None.
Proof.
  intros x1 x2 dim H. unfold cosine_similarity. destruct (broadcast x1 x2) as [b|] eqn:B; auto.
  apply C28_broadcast_is_common_shape in B. now apply H in B.
Qed.
Theorem C46_cosine_similarity_last_axis_refuted : forall x1 x2 b, broadcasts x1 x2 b -> b <> [] ->
  cosine_similarity x1 x2 (-1) = Some (firstn (length b - 1) b ++ b).
Proof.
  intros x1 x2 b B Hb. apply C28_broadcast_is_common_shape in B. unfold cosine_similarity. rewrite B. cbn [obind].
  assert (0 < length b)%nat by (destruct b; simpl; [congruence|lia]).
  f_equal. f_equal.
  - unfold slice_to, clampb, zlen. destruct (Z.ltb_spec (-1) 0); [|lia]. f_equal. lia.
  - apply (slice_from_nat b 0).
Qed.
Theorem C46_cosine_similarity_range_unchecked_refuted : (forall k, ~ denotes 2 5 k) /\ cosine_similarity [2; 3] [2; 3] 5 = Some [2; 3].
Proof. split; [unfold denotes; intros k; lia|reflexivity]. Qed.

Theorem C46_count_nonzero_spec : forall self dim out, count_nonzero self (Some dim) = Some out <->
  exists k, denotes (length self) dim k /\ out = drop_at k self.
Proof.
  intros self dim out. unfold count_nonzero, zlen.
  destruct (Z.ltb_spec dim (- Z.of_nat (length self))); cbn [orb negb guard obind].
  { split; [discriminate|]. intros (k & D & _). unfold denotes in D. lia. }
  destruct (Z.leb_spec (Z.of_nat (length self)) dim); cbn [orb negb guard obind].
  { split; [discriminate|]. intros (k & D & _). unfold denotes in D. lia. }
  assert (Hs : self <> []) by (intros ->; simpl in *; lia).
  assert (X : exists k, denotes (length self) dim k).
  { destruct (Z.ltb_spec dim 0); [exists (Z.to_nat (dim + Z.of_nat (length self)))|exists (Z.to_nat dim)]; unfold denotes; lia. }
  destruct X as [k D].
  assert (E : argmax self (Some dim) false = Some (drop_at k self)).
  { rewrite C36_argmax_is_a_reduction by auto. apply C36_dropped_dims; auto; [discriminate|].
    exists [k]. split; [constructor; [exact D|constructor]|].
    destruct D as [Hk _]. destruct (at_split self k Hk) as (pre & x & post & -> & <-). unfold drop_at.
    rewrite firstn_mid, skipn_mid. unfold keep_axes. clear.
    assert (G : forall pre i, keep_axes_from i (fun j => negb (existsb (Nat.eqb j) [(i + length pre)%nat])) (pre ++ x :: post) = pre ++ post).
    { induction pre0 as [|y pre0 IH]; intros i.
      - simpl. rewrite Nat.add_0_r, Nat.eqb_refl. simpl.
        assert (P : forall l j n, (n < j)%nat -> keep_axes_from j (fun j => negb (existsb (Nat.eqb j) [n])) l = l).
        { induction l as [|a l IH]; intros j n H; simpl; auto. destruct (Nat.eqb_spec j n); [lia|]. simpl. f_equal. apply IH. lia. }
        apply (P post (S i) i). lia.
      - cbn [app keep_axes_from existsb length]. destruct (Nat.eqb_spec i (i + S (length pre0))); [lia|]. cbn [orb negb]. f_equal.
        specialize (IH (S i)). replace (S i + length pre0)%nat with (i + S (length pre0))%nat in IH by lia. exact IH. }
    symmetry. apply (G pre 0%nat). }
  rewrite E. split.
  - intros [= <-]. eauto.
  - intros (k' & D' & ->). f_equal. f_equal. unfold denotes in D, D'. lia.
Qed.
Theorem C46_count_nonzero_all : forall self, count_nonzero self None = Some [].
Proof. reflexivity. Qed.

(** aten.argmax, argmin and aminmax: a reduction over one axis, or over all of them. *)
Theorem C36_patched_argmax_is_a_reduction : forall self dim keep, self <> [] \/ dim = None ->
  patched_argmax self dim keep = sum_mean_dim self (option_map (fun d => [d]) dim) keep.
Proof.
  intros self [d|] keep H; unfold patched_argmax.
  - destruct H as [H|H]; [|discriminate]. rewrite C36_argmax_is_a_reduction by auto. reflexivity.
  - cbn [option_map]. destruct (C36_no_dims_reduces_all self None ltac:(auto)) as [A B]. destruct keep.
    + rewrite B. f_equal. clear. induction self; simpl; f_equal; auto.
    + now rewrite A.
Qed.

(** aten.t swaps the axes of a matrix. *)
Theorem C35_t_of_a_matrix_partial : forall a b, aten_t [a; b] = Some [b; a].
Proof. reflexivity. Qed.
(** It rejects vectors and accepts tensors of rank three and more. *)
Theorem C35_t_of_other_ranks_refuted : (forall a, aten_t [a] = None) /\
  (forall a b c r, aten_t (a :: b :: c :: r) = Some (b :: a :: c :: r)).
Proof.
  split; [reflexivity|]. intros a b c r. unfold aten_t. apply (C35_transpose_swaps _ _ _ 0%nat 1%nat);
    [unfold denotes; simpl; lia|unfold denotes; simpl; lia|].
  split; [reflexivity|split; [reflexivity|split; [reflexivity|]]]. intros [|[|i]] H0 H1; [lia|lia|reflexivity].
Qed.

(** The smallest rank forms. *)
Theorem C34_atleast_spec : forall self, atleast_1d self = Some (if list_eq_dec Z.eq_dec self [] then [1] else self) /\
  atleast_2d self = Some (repeat 1 (2 - length self) ++ self).
Proof.
  intros [|a [|b r]]; [split; reflexivity|split; reflexivity|]. unfold atleast_1d, atleast_2d. rewrite !zlen_cons.
  pose proof (zlen_nonneg _ r). destruct (Z.eqb_spec (1 + (1 + zlen r)) 0); [lia|]. destruct (Z.eqb_spec (1 + (1 + zlen r)) 1); [lia|].
  split; reflexivity.
Qed.
Lemma atleast_map : forall ts, mapM atleast_1d ts = Some (map (fun t => if list_eq_dec Z.eq_dec t [] then [1] else t) ts).
Proof.
  induction ts as [|t ts IH]; [reflexivity|]. cbn [mapM map]. destruct (C34_atleast_spec t) as [-> _]. cbn [obind].
  now rewrite IH.
Qed.
Theorem C34_hstack_spec : forall ts, hstack ts =
  let ts' := map (fun t => if list_eq_dec Z.eq_dec t [] then [1] else t) ts in
  match ts' with [] => None | t0 :: _ => cat ts' (if (length t0 =? 1)%nat then 0 else 1) end.
Proof.
  intros ts. unfold hstack. rewrite atleast_map. cbn [obind]. cbv zeta.
  destruct (map _ ts) as [|t0 r]; [reflexivity|]. change (pyidx (t0 :: r) 0) with (Some t0). cbn [obind]. unfold zlen.
  destruct (Z.eqb_spec (Z.of_nat (length t0)) 1), (Nat.eqb_spec (length t0) 1); try lia; reflexivity.
Qed.
(** Vectors are joined end to end, and matrices side by side. *)
Theorem C34_hstack_vectors : forall ns, ns <> [] -> Forall (fun n => n <> 0) ns -> hstack (map (fun n => [n]) ns) = Some [sumZ ns].
Proof.
  intros ns Hn H. rewrite C34_hstack_spec. cbv zeta. rewrite map_map.
  rewrite (map_ext _ (fun n => [n])) by (intros; now destruct (list_eq_dec Z.eq_dec [a] [])).
  destruct ns as [|n ns]; [easy|]. cbn [map length Nat.eqb]. change ([n] :: map (fun n => [n]) ns) with (map (fun n => [n]) (n :: ns)).
  apply C34_cat_spec. split; [discriminate|]. split; [apply Forall_map, Forall_forall; discriminate|].
  assert (C : counted (map (fun n => [n]) (n :: ns)) = map (fun n => [n]) (n :: ns)).
  { revert H. generalize (n :: ns). clear. intros l H. induction H as [|x l Hx H IH]; [reflexivity|]. cbn [map].
    unfold counted in *. cbn [filter]. destruct (list_eq_dec Z.eq_dec [x] [0]) as [[= E]|_]; [easy|]. now rewrite IH. }
  rewrite C. destruct (list_eq_dec _ _ _) as [E|_]; [discriminate|].
  exists 0%nat. split.
  - apply Forall_map, Forall_forall. intros x _. split; [unfold denotes; simpl; lia|]. split; auto.
    intros [|i] Hi; [easy|]. now destruct i.
  - cbn [nth_error]. f_equal. f_equal. rewrite map_map. cbn [nth]. now rewrite map_id.
Qed.
Theorem C34_hstack_matrices : forall r ns, ns <> [] -> hstack (map (fun n => [r; n]) ns) = Some [r; sumZ ns].
Proof.
  intros r ns Hn. rewrite C34_hstack_spec. cbv zeta. rewrite map_map.
  rewrite (map_ext _ (fun n => [r; n])) by (intros; now destruct (list_eq_dec Z.eq_dec [r; a] [])).
  destruct ns as [|n ns]; [easy|]. cbn [map length Nat.eqb].
  change ([r; n] :: map (fun n => [r; n]) ns) with (map (fun n => [r; n]) (n :: ns)).
  apply C34_cat_spec. split; [discriminate|]. split; [apply Forall_map, Forall_forall; discriminate|].
  assert (C : counted (map (fun n => [r; n]) (n :: ns)) = map (fun n => [r; n]) (n :: ns)).
  { generalize (n :: ns). clear. intros l. induction l as [|x l IH]; [reflexivity|]. cbn [map].
    unfold counted in *. cbn [filter]. destruct (list_eq_dec Z.eq_dec [r; x] [0]) as [E|_]; [discriminate|]. now rewrite IH. }
  rewrite C. destruct (list_eq_dec _ _ _) as [E|_]; [discriminate|].
  exists 1%nat. split.
  - apply Forall_map, Forall_forall. intros x _. split; [unfold denotes; simpl; lia|]. split; auto.
    intros [|[|i]] Hi; [easy|easy|]. now destruct i.
  - cbn [nth_error]. f_equal. f_equal. rewrite map_map. cbn [nth]. now rewrite map_id.
Qed.
(** column_stack turns vectors into columns. *)
Theorem C34_column_stack_vectors : forall n m, (0 < m)%nat -> column_stack (repeat [n] m) = Some [n; Z.of_nat m].
Proof.
  intros n m Hm. unfold column_stack.
  assert (M : map (fun t => if zlen t =? 0 then [1; 1] else if zlen t =? 1 then t ++ [1] else t) (repeat [n] m) = repeat [n; 1] m)
    by (clear; induction m; simpl; f_equal; auto).
  rewrite M. clear M. apply C34_cat_spec. split; [destruct m; [lia|discriminate]|].
  split; [apply Forall_forall; intros x Hx; apply repeat_spec in Hx; subst; discriminate|].
  assert (C : counted (repeat [n; 1] m) = repeat [n; 1] m).
  { clear. induction m; [reflexivity|]. cbn [repeat]. unfold counted in *. cbn [filter].
    destruct (list_eq_dec Z.eq_dec [n; 1] [0]) as [E|_]; [discriminate|]. now rewrite IHm. }
  rewrite C. destruct (list_eq_dec _ _ _) as [E|_]; [destruct m; [lia|discriminate]|].
  exists 1%nat. split.
  - apply Forall_forall. intros x Hx. apply repeat_spec in Hx. subst. split; [unfold denotes; simpl; lia|]. split; auto.
    intros [|[|i]] Hi; [easy|easy|]. now destruct i.
  - cbn [nth_error]. f_equal. clear. induction m; [reflexivity|]. cbn [repeat map nth sumZ fold_right].
    fold (sumZ (map (fun t => nth 1 t 0) (repeat [n; 1] m))). rewrite <- IHm. lia.
Qed.
Theorem C34_column_stack_scalars_and_matrices : forall ts : list (list Z),
  column_stack (map (fun _ => []) ts) = column_stack (map (fun _ => [1]) ts) /\
  (Forall (fun t => 2 <= length t)%nat ts -> column_stack ts = cat ts 1).
Proof.
  intros ts. split; [unfold column_stack; now rewrite !map_map|]. intros H. unfold column_stack. f_equal.
  rewrite <- (map_id ts) at 2. apply map_ext_in. intros t Ht. rewrite Forall_forall in H. apply H in Ht. unfold zlen.
  destruct (Z.eqb_spec (Z.of_nat (length t)) 0); [lia|]. destruct (Z.eqb_spec (Z.of_nat (length t)) 1); [lia|auto].
Qed.

Example axis_nonvacuous : rot90 [2; 3; 4] (-1) [0; -1] = Some [4; 3; 2] /\ rot90 [2; 3] 6 [0; 1] = Some [2; 3] /\
  glu [4; 6] (-1) = Some [4; 3] /\ glu [4; 5] 1 = None /\ cosine_similarity [2; 3; 1] [4] 1 = Some [2; 4] /\
  count_nonzero [2; 3; 4] (Some (-2)) = Some [2; 4] /\ patched_argmax [2; 3] None true = Some [1; 1] /\
  patched_argmax [2; 3] (Some 1) true = Some [2; 1] /\ hstack [[]; [3]] = Some [4] /\ hstack [[2; 3]; [2; 5]] = Some [2; 8] /\
  column_stack [[2]; [2; 5]; [2]] = Some [2; 7] /\ denotes 3 (-1) 2.
Proof.
  repeat (split; [reflexivity|]). unfold denotes. lia.
Qed.

Print Assumptions C46_rot90_spec.
Print Assumptions C46_glu_spec.
Print Assumptions C46_count_nonzero_spec.
Print Assumptions C36_patched_argmax_is_a_reduction.
Print Assumptions C34_hstack_vectors.
Print Assumptions C34_column_stack_vectors.
