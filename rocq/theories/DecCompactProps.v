(** Property C112: nonzero and masked_scatter number the selected elements by a running sum. *)
From Coq Require Import ZArith List Lia Bool.
From Verif Require Import Prelude TensorOps VecOps DecCompactSpec DecCompactModel DecCompactProofs.
From Verif Require NumOps.
Import ListNotations.
Open Scope Z_scope.

(** The indices of the elements that are not zero, in lexicographic order, for tensors of any rank but 0. *)
Theorem C112_nonzero_lists_the_indices : forall A (nonzero : A -> bool) (t : tensor A), sized t -> sizes t <> [] ->
  dec_nonzero nonzero t = Some (nonzero_rows nonzero t).
Proof. exact nonzero_proof. Qed.
(** In particular: an index is in the result if and only if its element is not zero. *)
Theorem C112_nonzero_exactly : forall A (nonzero : A -> bool) (t : tensor A) rows, sized t -> dec_nonzero nonzero t = Some rows ->
  NoDup rows /\ forall ix, In ix rows <-> within (sizes t) ix /\ nonzero (elt t ix) = true.
Proof.
  intros A nz t rows F H. assert (N : sizes t <> []) by (intros E; unfold dec_nonzero in H; rewrite E in H; discriminate).
  rewrite nonzero_proof in H by auto. injection H as <-. unfold nonzero_rows. split.
  - apply NoDup_filter. rewrite all_indices_unravel by auto. pose proof (NoDup_zrange 0 (prodZ (sizes t))) as D.
    assert (G : forall p, In p (zrange 0 (prodZ (sizes t))) -> ravel (sizes t) (unravel (sizes t) p) = p).
    { intros p I. apply in_zrange in I. now apply DecReshapeProofs.unravel_within. }
    induction D as [|p l I D IH]; [constructor|]. cbn [map]. constructor; [|apply IH; intros; apply G; now right].
    intros J. apply in_map_iff in J. destruct J as (q & E & J). apply I.
    rewrite <- (G p (or_introl eq_refl)), <- E, (G q (or_intror J)). exact J.
  - intros ix. rewrite filter_In, in_all_indices. unfold within, in_bounds. split; intros [W E]; (split; [|exact E]).
    + clear - W. revert W. generalize (sizes t). induction ix; intros s W; inversion W; subst; constructor; auto.
    + clear - W. revert ix W. induction (sizes t); intros ix W; inversion W; subst; constructor; auto.
Qed.
(** A tensor of rank 0 is not handled: the list whose first element is read is empty. *)
Theorem C112_nonzero_of_rank_0_refuted : exists t : tensor Z, sized t /\
  dec_nonzero (fun x => negb (x =? 0)) t = None /\ nonzero_rows (fun x => negb (x =? 0)) t = [[]].
Proof. exists {| sizes := []; elt := fun _ => 5 |}. repeat split. constructor. Qed.
(** A vector is numbered by a running sum, and scattered. *)
Theorem C112_compacted_lists_the_positions : forall selected,
  compacted selected = Some (filter (fun p => nth (Z.to_nat p) selected false) (zrange 0 (zlen selected))).
Proof.
  intros l. rewrite compacted_pos. f_equal. pose proof (pos_filter (fun p => nth (Z.to_nat p) l false) (zlen l) 0 (zlen_nonneg _ l)) as P.
  rewrite Z.add_0_l in P. rewrite <- P. f_equal. apply nth_ext with (d := false) (d' := false).
  - rewrite map_length. pose proof (zlen_zrange 0 (zlen l)) as L. unfold zlen in L at 1. pose proof (zlen_nonneg _ l). unfold zlen in *. lia.
  - intros n Hn. set (f := fun p => nth (Z.to_nat p) l false). assert (B : 0 <= Z.of_nat n < zlen l) by (unfold zlen; lia).
    rewrite (nth_indep (map f _) false (f 0)) by (rewrite map_length; pose proof (zlen_zrange 0 (zlen l)) as L; unfold zlen in L at 1; lia).
    rewrite (map_nth f). unfold f. rewrite <- (Nat2Z.id n) at 2. rewrite zrange_nth by exact B. now rewrite Nat2Z.id.
Qed.

(** masked_scatter, for a mask that fits the tensor; an error where PyTorch has one (too few elements in the source). *)
Theorem C112_masked_scatter_partial : forall A (self : tensor A) mask source, sized self -> sized source ->
  NumOps.broadcast (sizes mask) (sizes self) = Some (sizes self) -> 0 < prodZ (sizes source) \/ prodZ (sizes self) = 0 ->
  agree (dec_masked_scatter self mask source) (masked_scatter self mask source).
Proof. exact masked_scatter_proof. Qed.
(** With an empty source and nothing marked, PyTorch returns the tensor; the decomposition selects element 0 of the source. *)
Theorem C112_masked_scatter_from_nothing_refuted : exists (self : tensor Z) mask source, sized self /\ sized source /\
  sizes mask = sizes self /\ dec_masked_scatter self mask source = None /\
  exists u, masked_scatter self mask source = Some u /\ same u self.
Proof.
  exists {| sizes := [2]; elt := fun ix => get ix 0 |}, {| sizes := [2]; elt := fun _ => false |}, {| sizes := [0]; elt := fun _ => 0 |}.
  split; [repeat constructor; discriminate|]. split; [repeat constructor; discriminate|]. split; [reflexivity|]. split; [reflexivity|].
  eexists. split; [reflexivity|]. split; [reflexivity|]. intros ix W. inversion W as [|? i ? r B R]; subst. inversion R; subst.
  cbn [elt NumOps.at_broadcast sizes]. unfold NumOps.at_broadcast. cbn. destruct (Z.eqb_spec 2 1); [discriminate|reflexivity].
Qed.
(** PyTorch also broadcasts the tensor to the mask. *)
Theorem C112_masked_scatter_of_a_larger_mask_refuted : exists (self : tensor Z) mask source, sized self /\ sized source /\
  dec_masked_scatter self mask source = None /\ exists u, masked_scatter self mask source = Some u /\ sizes u = [3].
Proof.
  exists {| sizes := [1]; elt := fun _ => 7 |}, {| sizes := [3]; elt := fun _ => true |}, {| sizes := [3]; elt := fun ix => get ix 0 |}.
  split; [repeat constructor; discriminate|]. split; [repeat constructor; discriminate|]. split; [reflexivity|]. eexists. split; reflexivity.
Qed.

Definition grid : tensor Z := {| sizes := [2; 3]; elt := fun ix => (get ix 0 + get ix 1) mod 2 |}.
Example C112_nonvacuous : dec_nonzero (fun x => negb (x =? 0)) grid = Some [[0; 1]; [1; 0]; [1; 2]] /\
  compacted [false; false; true; true; false; false] = Some [2; 3] /\ strides [2; 3; 4] = [12; 4; 1] /\
  option_map (fun u => map (elt u) (all_indices (sizes u)))
    (dec_masked_scatter grid {| sizes := [3]; elt := fun ix => negb (get ix 0 =? 1) |} {| sizes := [5]; elt := fun ix => 10 + get ix 0 |}) =
  Some [10; 1; 11; 12; 0; 13].
Proof. vm_compute. repeat split. Qed.

Print Assumptions C112_nonzero_lists_the_indices.
Print Assumptions C112_nonzero_exactly.
Print Assumptions C112_nonzero_of_rank_0_refuted.
Print Assumptions C112_compacted_lists_the_positions.
Print Assumptions C112_masked_scatter_partial.
Print Assumptions C112_masked_scatter_from_nothing_refuted.
Print Assumptions C112_masked_scatter_of_a_larger_mask_refuted.
