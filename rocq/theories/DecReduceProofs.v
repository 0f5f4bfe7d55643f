(** Proofs about DecReduceModel.v. *)
From Coq Require Import ZArith Bool PeanoNat Permutation Sorted Lia List.
From Verif Require Import Prelude TensorOps DecReduceModel.
Import ListNotations.
Open Scope Z_scope.

Lemma insert_desc_perm : forall x l, Permutation (x :: l) (insert_desc x l).
Proof.
  intros x l. induction l as [|y l IH]; cbn [insert_desc]; [reflexivity|]. destruct (y <=? x); [reflexivity|].
  etransitivity; [apply perm_swap|]. now constructor.
Qed.
Lemma sort_perm : forall l, Permutation l (sort_desc l).
Proof.
  induction l as [|x l IH]; cbn [sort_desc fold_right]; [constructor|]. etransitivity; [constructor; exact IH|]. apply insert_desc_perm.
Qed.
Lemma insert_desc_sorted : forall x l, StronglySorted Z.ge l -> StronglySorted Z.ge (insert_desc x l).
Proof.
  intros x l S0. induction S0 as [|y l S0 IH F]; cbn [insert_desc]; [repeat constructor|].
  destruct (Z.leb_spec y x).
  - constructor; [constructor; assumption|]. constructor; [lia|]. eapply Forall_impl; [|exact F]. cbn. intros z Hz. lia.
  - constructor; [exact IH|]. apply (Permutation_Forall (insert_desc_perm x l)). constructor; [lia|exact F].
Qed.
Lemma sort_sorted : forall l, StronglySorted Z.ge (sort_desc l).
Proof. induction l as [|x l IH]; cbn [sort_desc fold_right]; [constructor|]. now apply insert_desc_sorted. Qed.

Definition in_range (rank d : Z) : Prop := - rank <= d < rank.
(** The axis that a dimension names. *)
Definition axis_of (rank d : Z) : Z := if d <? 0 then d + rank else d.
Lemma to_positive_is : forall d rank, to_positive d rank = axis_of rank d.
Proof. intros. unfold to_positive, axis_of. destruct (Z.leb_spec 0 d), (Z.ltb_spec d 0); lia. Qed.
Lemma valid_is : forall d rank, 0 <= rank -> (valid_dim (to_positive d rank) rank = true <-> in_range rank d).
Proof. intros d rank R. unfold valid_dim, to_positive, in_range. rewrite andb_true_iff, Z.leb_le, Z.ltb_lt. destruct (Z.leb_spec 0 d); lia. Qed.
Lemma reduce_refused : forall keep rank dims axes, 0 <= rank -> (reduce_axes keep rank axes dims = None <-> ~ Forall (in_range rank) dims).
Proof.
  intros keep rank dims. induction dims as [|d dims IH]; intros axes R; cbn [reduce_axes]; [split; [discriminate|intros X; exfalso; apply X; constructor]|].
  destruct (valid_dim (to_positive d rank) rank) eqn:V.
  - apply valid_is in V; auto.
    assert (X : forall ax, reduce_axes keep rank ax dims = None <-> ~ Forall (in_range rank) (d :: dims)).
    { intros ax. rewrite IH by auto. split; intros N F; apply N; [now inversion F|now constructor]. }
    destruct (nth_error axes (Z.to_nat (to_positive d rank))).
    + rewrite <- (X (if keep then axes else remove (Z.to_nat (to_positive d rank)) axes)). destruct (reduce_axes _ _ _ dims); split; congruence.
    + rewrite <- (X axes). destruct (reduce_axes _ _ _ dims); split; congruence.
  - split; [|reflexivity]. intros _ F. inversion F; subst. rewrite (proj2 (valid_is d rank R)) in V; [discriminate|assumption].
Qed.
Lemma zrange_nth : forall rank p, 0 <= p < rank -> nth_error (zrange 0 rank) (Z.to_nat p) = Some p.
Proof.
  intros rank p H. unfold zrange. erewrite map_nth_error; [|erewrite nth_error_nth' with (d := O); [reflexivity|rewrite seq_length; lia]].
  rewrite seq_nth by lia. f_equal. lia.
Qed.
Lemma axis_of_range : forall rank d, in_range rank d -> 0 <= axis_of rank d < rank.
Proof. unfold in_range, axis_of. intros rank d H. destruct (Z.ltb_spec d 0); lia. Qed.
Lemma reduce_keep : forall rank dims, 0 <= rank -> Forall (in_range rank) dims ->
  reduce_axes true rank (zrange 0 rank) dims = Some (Some (map (axis_of rank) dims)).
Proof.
  intros rank dims R F. induction F as [|d dims H F IH]; cbn [reduce_axes map]; [reflexivity|].
  rewrite (proj2 (valid_is d rank R) H), to_positive_is, zrange_nth by (now apply axis_of_range). rewrite IH. reflexivity.
Qed.
Lemma nth_error_remove : forall (l : list Z) k j, (j < k)%nat -> nth_error (remove k l) j = nth_error l j.
Proof. induction l as [|x l IH]; intros [|k] [|j] H; cbn; try lia; auto. apply IH. lia. Qed.
Lemma reduce_descending : forall rank dims axes, 0 <= rank -> Forall (in_range rank) dims ->
  StronglySorted Z.gt (map (axis_of rank) dims) ->
  (forall p d, In d dims -> 0 <= p <= axis_of rank d -> nth_error axes (Z.to_nat p) = Some p) ->
  reduce_axes false rank axes dims = Some (Some (map (axis_of rank) dims)).
Proof.
  intros rank dims. induction dims as [|d dims IH]; intros axes R F S0 G; cbn [reduce_axes map]; [reflexivity|].
  inversion F as [|? ? H F']; subst. cbn [map] in S0. inversion S0 as [|? ? S1 D]; subst.
  pose proof (axis_of_range rank d H) as Ra. rewrite (proj2 (valid_is d rank R) H), to_positive_is.
  rewrite (G (axis_of rank d) d) by (cbn; auto; lia). rewrite IH; auto.
  intros p e He Hp. rewrite Forall_forall in D. assert (axis_of rank d > axis_of rank e) by (apply D, in_map, He).
  rewrite nth_error_remove by lia. apply (G p d); [now left|lia].
Qed.
Lemma sorted_strict : forall l, StronglySorted Z.ge l -> NoDup l -> StronglySorted Z.gt l.
Proof.
  intros l S0 N. induction S0 as [|x l S0 IH F]; [constructor|]. inversion N as [|? ? Nx N']; subst. constructor; [auto|].
  rewrite Forall_forall in *. intros y Hy. specialize (F y Hy). assert (x <> y) by (intros ->; contradiction). lia.
Qed.
Lemma sorted_map : forall rank l, StronglySorted Z.ge l -> (Forall (fun d => 0 <= d) l \/ Forall (fun d => d < 0) l) -> StronglySorted Z.ge (map (axis_of rank) l).
Proof.
  intros rank l S0 Hs. induction S0 as [|x l S0 IH F]; cbn [map]; [constructor|]. constructor.
  - apply IH. destruct Hs as [X|X]; inversion X; auto.
  - rewrite !Forall_forall in *. intros y Hy. apply in_map_iff in Hy. destruct Hy as (z & <- & Hz). specialize (F z Hz).
    unfold axis_of. destruct Hs as [X|X]; pose proof (X z (or_intror Hz)) as Xz; pose proof (X x (or_introl eq_refl)) as Xx; cbn in Xz, Xx;
      destruct (Z.ltb_spec x 0), (Z.ltb_spec z 0); lia.
Qed.
Lemma zrange_range : forall rank, Forall (fun d => 0 <= d < rank) (zrange 0 rank).
Proof. intros rank. unfold zrange. rewrite Forall_map, Forall_forall. intros j J. apply in_seq in J. lia. Qed.
Lemma zrange_nodup : forall rank, NoDup (zrange 0 rank).
Proof. intros rank. unfold zrange. apply FinFun.Injective_map_NoDup; [intros x y H; lia|apply seq_NoDup]. Qed.
Lemma axes_same_sign : forall rank dims, 0 <= rank -> Forall (in_range rank) dims -> NoDup (map (axis_of rank) dims) ->
  (Forall (fun d => 0 <= d) dims \/ Forall (fun d => d < 0) dims) ->
  reduce_axes false rank (zrange 0 rank) (sort_desc dims) = Some (Some (map (axis_of rank) (sort_desc dims))).
Proof.
  intros rank dims R F N Hs. pose proof (sort_perm dims) as P. apply reduce_descending; auto.
  - now apply (Permutation_Forall P).
  - apply sorted_strict; [apply sorted_map; [apply sort_sorted|]|].
    + destruct Hs as [X|X]; [left|right]; now apply (Permutation_Forall P).
    + apply (Permutation_NoDup (l := map (axis_of rank) dims)); [now apply Permutation_map|exact N].
  - intros p d Hd Hp. apply zrange_nth. apply (Permutation_in _ (Permutation_sym P)) in Hd. rewrite Forall_forall in F.
    pose proof (axis_of_range rank d (F d Hd)). lia.
Qed.
