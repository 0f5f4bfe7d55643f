(** C135: the axes that amin, amax and aminmax reduce. *)
From Coq Require Import ZArith Bool PeanoNat Permutation Sorted Lia List.
From Verif Require Import Prelude TensorOps DecReduceModel DecReduceProofs.
Import ListNotations.
Open Scope Z_scope.

(** The pattern refuses exactly what is not constant or out of range. *)
Theorem C135_refused : forall keep rank dims, 0 <= rank ->
  (dec_amax keep rank dims = None <-> keep = None \/ dims = None \/ exists ds, dims = Some ds /\ ~ Forall (in_range rank) ds).
Proof.
  intros keep rank dims R. unfold dec_amax. destruct keep as [keep|]; [|tauto]. destruct dims as [ds|]; [|tauto].
  assert (X : reduce_axes keep rank (zrange 0 rank) (sort_desc (match ds with [] => zrange 0 rank | _ => ds end)) = None <-> ~ Forall (in_range rank) ds).
  { rewrite reduce_refused by auto. destruct ds as [|d ds].
    - split; intros N; exfalso; apply N; [|constructor]. apply (Permutation_Forall (sort_perm _)).
      eapply Forall_impl; [|apply zrange_range]. unfold in_range. cbn. lia.
    - split; intros N F; apply N; [now apply (Permutation_Forall (sort_perm _))|]. now apply (Permutation_Forall (Permutation_sym (sort_perm (d :: ds)))). }
  rewrite X. split; [intros N; right; right; eauto|]. intros [E|[E|(ds' & E & N)]]; try discriminate. injection E as <-. exact N.
Qed.
(** If the axes are kept, exactly the axes that were asked for are reduced. *)
Theorem C135_keepdim : forall rank ds, 0 <= rank -> ds <> [] -> Forall (in_range rank) ds ->
  exists axes, dec_amax (Some true) rank (Some ds) = Some (Some axes) /\ Permutation axes (map (axis_of rank) ds).
Proof.
  intros rank ds R N F. destruct ds as [|d ds]; [contradiction|]. unfold dec_amax. eexists. split.
  - apply reduce_keep; auto. now apply (Permutation_Forall (sort_perm (d :: ds))).
  - apply Permutation_map, Permutation_sym, sort_perm.
Qed.
(** If they are not, the same holds if all dimensions have the same sign. *)
Theorem C135_same_sign_partial : forall rank ds, 0 <= rank -> ds <> [] -> Forall (in_range rank) ds -> NoDup (map (axis_of rank) ds) ->
  Forall (fun d => 0 <= d) ds \/ Forall (fun d => d < 0) ds ->
  exists axes, dec_amax (Some false) rank (Some ds) = Some (Some axes) /\ Permutation axes (map (axis_of rank) ds).
Proof.
  intros rank ds R N F D Hs. destruct ds as [|d ds]; [contradiction|]. unfold dec_amax. eexists. split.
  - now apply axes_same_sign.
  - apply Permutation_map, Permutation_sym, sort_perm.
Qed.
(** No dimensions are all of them. *)
Theorem C135_all_axes : forall keep rank, 0 <= rank ->
  exists axes, dec_amax (Some keep) rank (Some []) = Some (Some axes) /\ Permutation axes (zrange 0 rank).
Proof.
  intros keep rank R. unfold dec_amax.
  assert (I : Forall (in_range rank) (zrange 0 rank)) by (eapply Forall_impl; [|apply zrange_range]; unfold in_range; cbn; lia).
  assert (M : map (axis_of rank) (zrange 0 rank) = zrange 0 rank).
  { rewrite <- (map_id (zrange 0 rank)) at 2. apply map_ext_in. intros d Hd. pose proof (proj1 (Forall_forall _ _) (zrange_range rank) d Hd) as B.
    unfold axis_of. cbn in B. destruct (Z.ltb_spec d 0); lia. }
  exists (map (axis_of rank) (sort_desc (zrange 0 rank))). split.
  - destruct keep; [apply reduce_keep; auto; now apply (Permutation_Forall (sort_perm _))|].
    apply axes_same_sign; auto; [rewrite M; apply zrange_nodup|left; eapply Forall_impl; [|apply zrange_range]; cbn; lia].
  - rewrite <- M at 2. apply Permutation_map, Permutation_sym, sort_perm.
Qed.
(** aminmax reduces its one axis, or all. *)
Theorem C135_aminmax : forall keep rank dim, 0 <= rank -> (forall d, dim = Some d -> in_range rank d) ->
  exists axes, dec_amax (Some keep) rank (Some (aminmax_dims dim)) = Some (Some axes) /\
    Permutation axes (match dim with None => zrange 0 rank | Some d => [axis_of rank d] end).
Proof.
  intros keep rank [d|] R H; cbn [aminmax_dims]; [|now apply C135_all_axes].
  assert (F : Forall (in_range rank) [d]) by (constructor; [now apply H|constructor]).
  destruct keep; [apply C135_keepdim|apply C135_same_sign_partial]; auto; try discriminate; [constructor; [intros []|constructor]|].
  destruct (Z.le_gt_cases 0 d); [left|right]; repeat constructor; lia.
Qed.
(** Dimensions of both signs are sorted before they are made positive: for dims 0 and -2 the last axis is reduced
    instead of the one before it, ... *)
Theorem C135_mixed_signs_refuted : forall rank, 3 <= rank ->
  dec_amax (Some false) rank (Some [0; -2]) = Some (Some [0; rank - 1]) /\ map (axis_of rank) [0; -2] = [0; rank - 2].
Proof.
  intros rank R. split.
  - unfold dec_amax. change (sort_desc [0; -2]) with [0; -2]. cbn [reduce_axes].
    rewrite (proj2 (valid_is 0 rank ltac:(lia))) by (unfold in_range; lia). rewrite (proj2 (valid_is (-2) rank ltac:(lia))) by (unfold in_range; lia).
    rewrite !to_positive_is. change (axis_of rank 0) with 0. change (axis_of rank (-2)) with (-2 + rank).
    rewrite zrange_nth by lia. change (Z.to_nat 0) with 0%nat.
    assert (E : nth_error (remove 0 (zrange 0 rank)) (Z.to_nat (-2 + rank)) = Some (rank - 1)).
    { rewrite <- (zrange_nth rank (rank - 1)) by lia. replace (Z.to_nat (rank - 1)) with (S (Z.to_nat (-2 + rank))) by lia.
      destruct (zrange 0 rank); [destruct (Z.to_nat (-2 + rank)); reflexivity|reflexivity]. }
    rewrite E. reflexivity.
  - unfold axis_of. cbn. do 2 f_equal. lia.
Qed.
(** ... and for 0 and -1 an axis that does not exist. *)
Theorem C135_mixed_signs_error_refuted : forall rank, 2 <= rank -> dec_amax (Some false) rank (Some [0; -1]) = Some None.
Proof.
  intros rank R. unfold dec_amax. change (sort_desc [0; -1]) with [0; -1]. cbn [reduce_axes].
  rewrite (proj2 (valid_is 0 rank ltac:(lia))) by (unfold in_range; lia). rewrite (proj2 (valid_is (-1) rank ltac:(lia))) by (unfold in_range; lia).
  rewrite !to_positive_is. change (axis_of rank 0) with 0. change (axis_of rank (-1)) with (-1 + rank).
  rewrite zrange_nth by lia. change (Z.to_nat 0) with 0%nat.
  assert (E : nth_error (remove 0 (zrange 0 rank)) (Z.to_nat (-1 + rank)) = None).
  { apply nth_error_None. assert (L : length (zrange 0 rank) = Z.to_nat rank) by (unfold zrange; rewrite map_length, seq_length; lia).
    destruct (zrange 0 rank) as [|x l]; cbn [remove length] in *; lia. }
  rewrite E. reflexivity.
Qed.

Example C135_nonvacuous :
  dec_amax (Some false) 4 (Some [1; 3]) = Some (Some [3; 1]) /\
  dec_amax (Some false) 4 (Some [-1; -4]) = Some (Some [3; 0]) /\
  dec_amax (Some true) 3 (Some [0; -2]) = Some (Some [0; 1]) /\
  dec_amax (Some false) 3 (Some [0; -2]) = Some (Some [0; 2]) /\
  dec_amax (Some false) 2 (Some []) = Some (Some [1; 0]) /\
  dec_amax (Some false) 2 (Some [2]) = None.
Proof. repeat split. Qed.

Print Assumptions C135_refused.
Print Assumptions C135_keepdim.
Print Assumptions C135_same_sign_partial.
Print Assumptions C135_all_axes.
Print Assumptions C135_aminmax.
Print Assumptions C135_mixed_signs_refuted.
Print Assumptions C135_mixed_signs_error_refuted.
