(** C134: missing indices and masks of aten.index and aten.index_put. *)
From Coq Require Import ZArith Bool PeanoNat Permutation Lia List.
From Verif Require Import Prelude TensorOps NumOps DecFillModel DecIndexModel DecIndexSpec DecIndexProofs.
Import ListNotations.
Open Scope Z_scope.

(** At the position x ++ y ++ z, the new indices name the position x of the leading axes without an index, what the
    given indices hold at y, and the position z of the trailing axes: what PyTorch reads there. *)
Theorem C134_new_indices_values : forall ls us zs x y z, us <> [] \/ ls = [] -> within ls x -> within zs z -> length y = max_rank (useds us) ->
  exists L, create_new_indices (nones ls ++ useds us ++ nones zs) = Some L /\
    map (fun u => at_broadcast u (x ++ y ++ z)) L = x ++ map (fun p => at_broadcast (snd p) y) us ++ z.
Proof. exact new_indices_values. Qed.
(** The new indices are broadcast to PyTorch's shape: the leading sizes, the shape that the given indices are
    broadcast to, and the trailing sizes. *)
Theorem C134_new_indices_shape : forall ls us zs b L, us <> [] \/ ls = [] ->
  is_broadcast (map (fun p => sizes (snd p)) us) b -> length b = max_rank (useds us) ->
  create_new_indices (nones ls ++ useds us ++ nones zs) = Some L -> is_broadcast (map sizes L) (ls ++ b ++ zs).
Proof. exact shape_proof. Qed.
(** The check for gaps accepts exactly one run of indices. *)
Theorem C134_consecutive : forall used, consecutive used = true <-> exists a b c, used = repeat false a ++ repeat true b ++ repeat false c.
Proof. exact consecutive_is. Qed.
(** With a gap, the axes are permuted: those with an index first, in their order. *)
Theorem C134_index_slots : forall slots,
  index_slots slots = if consecutive (map is_used slots) then slots else filter is_used slots ++ filter (fun s => negb (is_used s)) slots.
Proof. intros slots. unfold index_slots. destruct (consecutive (map is_used slots)); [reflexivity|apply permuted_slots]. Qed.
Theorem C134_permuted_order : forall used, Permutation (seq 0 (length used)) (permuted_order used).
Proof. exact order_permutation. Qed.
(** So what createNewIndices is given has one run of indices, and it does not refuse it. *)
Theorem C134_index_accepted : forall slots, Forall (fun s => 0 <= fst s) slots ->
  exists ls us zs, index_slots slots = nones ls ++ useds us ++ nones zs /\ (us <> [] \/ ls = []).
Proof.
  intros slots F.
  assert (N : forall l, (forall s, In s l -> is_used s = false) -> exists ns, l = nones ns).
  { induction l as [|[n [t|]] l IH]; intros H; [exists []; reflexivity|specialize (H _ (or_introl eq_refl)); discriminate|].
    destruct IH as [ns ->]; [intros s X; apply H; now right|]. exists (n :: ns). reflexivity. }
  assert (U : forall l, (forall s, In s l -> is_used s = true) -> exists us, l = useds us).
  { induction l as [|[n [t|]] l IH]; intros H; [exists []; reflexivity| |specialize (H _ (or_introl eq_refl)); discriminate].
    destruct IH as [us ->]; [intros s X; apply H; now right|]. exists ((n, t) :: us). reflexivity. }
  rewrite C134_index_slots. destruct (consecutive (map is_used slots)) eqn:C.
  - apply consecutive_is in C. destruct C as (a & b & c & E).
    apply map_eq_app in E. destruct E as (l1 & l2 & -> & E1 & E). apply map_eq_app in E. destruct E as (l3 & l4 & -> & E2 & E3).
    assert (R : forall (l : list slot) v n, map is_used l = repeat v n -> forall s, In s l -> is_used s = v).
    { intros l v n X s Y. apply (in_map is_used) in Y. rewrite X in Y. now apply repeat_spec in Y. }
    destruct (N l1 (R _ _ _ E1)) as [n1 ->]. destruct (U l3 (R _ _ _ E2)) as [us ->]. destruct (N l4 (R _ _ _ E3)) as [n2 ->].
    destruct us as [|p us]; [|exists n1, (p :: us), n2; split; [reflexivity|left; discriminate]].
    exists [], [], (n1 ++ n2). split; [|auto]. cbn [useds nones map app]. symmetry. apply map_app.
  - destruct (U (filter is_used slots)) as [us Eu]; [intros s X; now apply filter_In in X|].
    destruct (N (filter (fun s => negb (is_used s)) slots)) as [zs Ez].
    { intros s X. apply filter_In in X. destruct X as [_ X]. now apply negb_true_iff in X. }
    exists [], us, zs. rewrite Eu, Ez. split; [reflexivity|auto].
Qed.
(** A second run of indices is refused. *)
Theorem C134_gap_refused : forall m cnt slots, (exists s, In s slots /\ is_used s = true) -> leading m cnt slots = None.
Proof. intros m cnt slots. apply leading_refuses. Qed.

(** Masks of aten.index_put without a missing index are checked against the axes that they index. *)
Theorem C134_put_masks_partial : forall indices input, Forall (fun i => i <> Missing) indices ->
  ((exists u, put_used input 0 indices = Some u) <->
   Forall (fun i => i <> Unknown /\ i <> MaskUnranked /\ i <> Mask []) indices /\ masks_match input indices).
Proof. intros indices input F. exact (put_used_iff indices input 0 F). Qed.
(** Which of the expanded indices are tensors; the accepted ones form one run. *)
Theorem C134_put_used : forall indices input used, put_check input indices = Some used ->
  used = flat_map expand_index indices ++ repeat false (length input - length (flat_map expand_index indices)) /\
  exists a b c, used = repeat false a ++ repeat true b ++ repeat false c.
Proof.
  intros indices input used H. unfold put_check in H. destruct (put_used input 0 indices) as [u|] eqn:E; [|discriminate]. cbn [obind] in H.
  apply put_used_expands in E. subst u. destruct (consecutive _) eqn:C; [|discriminate]. injection H as <-. split; [reflexivity|]. now apply consecutive_is.
Qed.
Theorem C134_put_refused : forall indices input, put_check input indices = None <->
  put_used input 0 indices = None \/ consecutive (flat_map expand_index indices ++ repeat false (length input - length (flat_map expand_index indices))) = false.
Proof.
  intros indices input. unfold put_check. destruct (put_used input 0 indices) as [u|] eqn:E; cbn [obind]; [|tauto].
  apply put_used_expands in E. subst u. destruct (consecutive _); split; intros H; try discriminate; auto. destruct H; discriminate.
Qed.
(** A missing index before a mask is not counted: a mask that fits its axis is refused ... *)
Theorem C134_put_missing_refuted : forall n m, n <> m ->
  masks_match [Some n; Some m] [Missing; Mask [Some m]] /\ put_check [Some n; Some m] [Missing; Mask [Some m]] = None.
Proof.
  intros n m N. split.
  - cbn. split; [lia|]. split; [|exact Logic.I]. constructor; [congruence|constructor].
  - unfold put_check, put_used. cbn [skipn mask_fits clash]. destruct (Z.eqb_spec m n); [congruence|reflexivity].
Qed.
(** ... and one that does not fit is accepted. *)
Theorem C134_put_mismatch_refuted : forall n m, n <> m ->
  ~ masks_match [Some n; Some m] [Missing; Mask [Some n]] /\ put_check [Some n; Some m] [Missing; Mask [Some n]] = Some [false; true].
Proof.
  intros n m N. split.
  - cbn. intros (_ & F & _). inversion F as [|? ? ? ? X]; subst. apply N. now apply X.
  - unfold put_check, put_used. cbn [skipn mask_fits clash]. rewrite Z.eqb_refl. reflexivity.
Qed.

Definition rows : tensor Z := {| sizes := [2]; elt := fun ix => 1 - get ix 0 |}.
Example C134_nonvacuous :
  option_map (map (fun u => sizes u)) (create_new_indices [(4, None); (3, Some rows); (5, None)]) = Some [[4; 1; 1]; [2; 1]; [5]] /\
  option_map (map (fun u => at_broadcast u [3; 0; 2])) (create_new_indices [(4, None); (3, Some rows); (5, None)]) = Some [3; 1; 2] /\
  map is_used (index_slots [(3, Some rows); (4, None); (3, Some rows)]) = [true; true; false] /\
  permuted_order [true; false; true] = [0; 2; 1]%nat /\
  put_check [Some 2; Some 3; Some 4] [Mask [Some 2; None]] = Some [true; true; false] /\
  put_check [Some 2; Some 3] [Integers; Missing; Integers] = None.
Proof. repeat split. Qed.

Print Assumptions C134_new_indices_values.
Print Assumptions C134_new_indices_shape.
Print Assumptions C134_consecutive.
Print Assumptions C134_index_slots.
Print Assumptions C134_permuted_order.
Print Assumptions C134_index_accepted.
Print Assumptions C134_gap_refused.
Print Assumptions C134_put_masks_partial.
Print Assumptions C134_put_used.
Print Assumptions C134_put_refused.
Print Assumptions C134_put_missing_refuted.
Print Assumptions C134_put_mismatch_refuted.
