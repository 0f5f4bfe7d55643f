(** C137: topk and argsort. *)
From Coq Require Import ZArith Bool PeanoNat Permutation Sorted Lia List.
From Verif Require Import Prelude DecTopkModel DecTopkProofs.
Import ListNotations.
Open Scope Z_scope.

(** The values and indices are the k first in the order, and there are no others. *)
Theorem C137_topk : forall largest k l vs is, 0 <= k <= Z.of_nat (length l) ->
  (dec_topk (Some true) largest k l = Some (vs, is) <->
   exists ps, vs = map fst ps /\ is = map snd ps /\ Z.of_nat (length ps) = k /\ is_topk largest l ps).
Proof.
  intros largest k l vs is K. unfold dec_topk. rewrite !slice_to_map.
  assert (L : Z.of_nat (length (slice_to k (aten_sort largest l))) = k).
  { rewrite slice_to_len, sort_length. destruct (Z.ltb_spec k 0); lia. }
  split.
  - intros H. injection H as <- <-. eexists. repeat split; eauto; apply slice_topk.
  - intros (ps & -> & -> & Lp & T). rewrite (topk_unique largest l ps (slice_to k (aten_sort largest l))); auto; [apply slice_topk|lia].
Qed.
(** The pattern needs sorted=True. *)
Theorem C137_topk_refused : forall sorted largest k l, dec_topk sorted largest k l = None <-> sorted <> Some true.
Proof. intros [[]|] largest k l; cbn; split; try discriminate; auto; intros H; exfalso; now apply H. Qed.
(** A k that is negative or too large, which is an error of topk, gives a result of another length. *)
Theorem C137_topk_range_refuted : forall largest k l vs is, dec_topk (Some true) largest k l = Some (vs, is) ->
  (Z.of_nat (length l) < k -> length vs = length l /\ length is = length l) /\
  (k < 0 -> Z.of_nat (length vs) = Z.max 0 (Z.of_nat (length l) + k) /\ length is = length vs).
Proof.
  intros largest k l vs is H. unfold dec_topk in H. injection H as <- <-. rewrite !slice_to_len, !map_length, !sort_length.
  split; intros K; destruct (Z.ltb_spec k 0); lia.
Qed.
(** argsort is the one list of all indices that is in the order of the elements. *)
Theorem C137_argsort : forall desc l is,
  dec_argsort desc l = is <->
  exists ps, is = map snd ps /\ StronglySorted (before desc) ps /\ (forall v i, In (v, i) ps <-> nth_error l i = Some v).
Proof.
  intros desc l is. unfold dec_argsort. split.
  - intros <-. exists (aten_sort desc l). split; [reflexivity|]. split; [apply sort_is_sorted|apply in_sort].
  - intros (ps & -> & S0 & H). f_equal. apply (sorted_unique desc); auto; [apply sort_is_sorted|].
    intros [v i]. rewrite in_sort. symmetry. apply H.
Qed.
(** It is a permutation of the indices. *)
Theorem C137_argsort_permutation : forall desc l, Permutation (dec_argsort desc l) (seq 0 (length l)).
Proof.
  intros desc l. unfold dec_argsort, aten_sort. rewrite <- (sort_pairs_perm desc (combine l (seq 0 (length l)))).
  assert (X : forall (a : list Z) (b : list nat), length a = length b -> map snd (combine a b) = b).
  { induction a as [|x a IH]; intros [|y b] H; cbn in *; try discriminate; [reflexivity|]. f_equal. apply IH. lia. }
  rewrite X; [reflexivity|]. now rewrite seq_length.
Qed.

Example C137_nonvacuous :
  dec_topk (Some true) true 3 [2; 5; 1; 5] = Some ([5; 5; 2], [1; 3; 0]%nat) /\
  dec_topk (Some true) false 2 [2; 5; 1; 5] = Some ([1; 2], [2; 0]%nat) /\
  dec_topk (Some true) true 9 [2; 5] = Some ([5; 2], [1; 0]%nat) /\
  dec_topk (Some true) true (-1) [2; 5] = Some ([5], [1]%nat) /\
  dec_argsort false [3; 1; 3; 2] = [1; 3; 0; 2]%nat.
Proof. repeat split. Qed.

Print Assumptions C137_topk.
Print Assumptions C137_topk_refused.
Print Assumptions C137_topk_range_refuted.
Print Assumptions C137_argsort.
Print Assumptions C137_argsort_permutation.
