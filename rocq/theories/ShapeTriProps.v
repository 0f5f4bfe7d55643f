(** Property C41: triu_indices and tril_indices count the triangles of a matrix. *)
From Coq Require Import ZArith Bool Lia List.
From Verif Require Import Prelude ShapeMiscModel ShapeMiscSpec.
Import ListNotations.
Open Scope Z_scope.

Definition row_count (col offset i : Z) : Z := Z.max 0 (Z.min col (i + offset + 1)).
Lemma count_row : forall col offset i,
  zlen (filter (lower offset) (map (fun j => (i, j)) (zrange 0 col))) = row_count col offset i.
Proof.
  intros col offset i. destruct (Z.le_gt_cases 0 col) as [H|H].
  - rewrite <- (Z2Nat.id col H). induction (Z.to_nat col) as [|n IH].
    + change (zrange 0 (Z.of_nat 0)) with (@nil Z). unfold row_count. simpl. unfold zlen. simpl. lia.
    + replace (Z.of_nat (S n)) with (Z.of_nat n + 1) by lia. rewrite zrange_snoc, map_app, filter_app, zlen_app, IH by lia.
      unfold row_count. cbn [map filter]. unfold lower at 1. cbn [fst snd].
      destruct (Z.leb_spec (Z.of_nat n - i) offset); rewrite ?zlen_cons, ?zlen_nil; lia.
  - rewrite zrange_nil by lia. unfold row_count. cbn [map filter]. rewrite zlen_nil. lia.
Qed.
Lemma cells_snoc : forall row col, 0 <= row -> cells (row + 1) col = cells row col ++ map (fun j => (row, j)) (zrange 0 col).
Proof.
  intros row col H. unfold cells. rewrite zrange_snoc by lia.
  assert (A : forall l m (r : list Z), list_prod (l ++ m) r = list_prod l r ++ list_prod m r :> list (Z * Z)).
  { induction l; simpl; intros; auto. now rewrite IHl, app_assoc. }
  rewrite A. simpl. now rewrite app_nil_r.
Qed.
Lemma half : forall x y, (x + y) mod 2 = 1 -> 2 * (x * y / 2) = x * y.
Proof.
  intros x y H. assert (E : (x * y) mod 2 = 0).
  { rewrite Z.mul_mod by lia. rewrite Z.add_mod in H by lia.
    pose proof (Z.mod_pos_bound x 2 ltac:(lia)). pose proof (Z.mod_pos_bound y 2 ltac:(lia)).
    assert (Hx : x mod 2 = 0 \/ x mod 2 = 1) by lia. assert (Hy : y mod 2 = 0 \/ y mod 2 = 1) by lia.
    destruct Hx as [Ex|Ex], Hy as [Ey|Ey]; rewrite Ex, Ey in *; try reflexivity; discriminate H. }
  pose proof (Z.div_mod (x * y) 2 ltac:(lia)). lia.
Qed.
Lemma trap : forall f l, 2 * ((f + l) * (l - f + 1) / 2) = (f + l) * (l - f + 1).
Proof. intros. apply half. replace (f + l + (l - f + 1)) with (1 + l * 2) by ring. now rewrite Z.mod_add. Qed.
(** The closed form, doubled to avoid the division. *)
Lemma tril_twice : forall row col offset, 2 * tril_count row col offset =
  let f := if 0 <? offset then Z.min col (1 + offset) else if 0 <? row + offset then 1 else 0 in
  let l := Z.max 0 (Z.min col (row + offset)) in
  (f + l) * (l - f + 1) + 2 * Z.max 0 ((Z.max 0 (Z.min row (row + offset)) - (l - f + 1)) * col).
Proof. intros. unfold tril_count. cbv zeta. rewrite Z.mul_add_distr_l, trap. reflexivity. Qed.
Lemma tril_one : forall col offset, 0 < col -> tril_count 1 col offset = row_count col offset 0.
Proof.
  intros col offset H. apply (Z.mul_reg_l _ _ 2); [lia|]. rewrite tril_twice. cbv zeta. unfold row_count.
  destruct (Z.ltb_spec 0 offset); [|destruct (Z.ltb_spec 0 (1 + offset))].
  - replace (Z.max 0 (Z.min 1 (1 + offset))) with 1 by lia.
    replace (Z.max 0 (Z.min col (1 + offset))) with (Z.min col (1 + offset)) by lia.
    replace (Z.min col (1 + offset) - Z.min col (1 + offset) + 1) with 1 by ring. rewrite Z.sub_diag, Z.mul_0_l. lia.
  - assert (offset = 0) by lia. subst. change (1 + 0) with 1. rewrite Z.min_r, Z.max_r by lia. 
    rewrite Z.min_id. rewrite Z.max_r by lia. lia.
  - rewrite (Z.max_l 0 (Z.min col (1 + offset))) by lia. rewrite (Z.max_l 0 (Z.min 1 (1 + offset))) by lia.
    replace ((0 - (0 - 0 + 1)) * col) with (- col) by ring. lia.
Qed.
Ltac mm := repeat first [ rewrite Z.min_l by lia | rewrite Z.min_r by lia | rewrite Z.max_l by lia
  | rewrite Z.max_r by lia | rewrite Z.max_r by nia | rewrite Z.max_l by nia ].
Lemma tril_step : forall row col offset, 0 < row -> 0 < col ->
  tril_count (row + 1) col offset = tril_count row col offset + row_count col offset row.
Proof.
  intros row col offset Hr Hc. apply (Z.mul_reg_l _ _ 2); [lia|]. rewrite Z.mul_add_distr_l, !tril_twice. cbv zeta.
  unfold row_count.
  destruct (Z.ltb_spec 0 offset).
  - destruct (Z.le_gt_cases col (1 + offset)); [|destruct (Z.le_gt_cases col (row + offset))]; mm; ring.
  - destruct (Z.ltb_spec 0 (row + offset)), (Z.ltb_spec 0 (row + 1 + offset)); try lia.
    + destruct (Z.le_gt_cases col (row + offset)); mm; ring.
    + assert (offset = - row) by lia. subst. mm. ring.
Qed.
Lemma tril_cells : forall row col offset, 0 < row -> 0 < col ->
  tril_count row col offset = zlen (filter (lower offset) (cells row col)).
Proof.
  intros row col offset Hr Hc. rewrite <- (Z2Nat.id row) by lia.
  assert (N : Z.to_nat row <> 0%nat) by lia. clear Hr. induction (Z.to_nat row) as [|n IH]; [easy|].
  destruct n as [|n].
  - rewrite tril_one by auto. change (Z.of_nat 1) with (0 + 1). rewrite cells_snoc by lia.
    change (cells 0 col) with (@nil (Z * Z)). rewrite app_nil_l, count_row. reflexivity.
  - replace (Z.of_nat (S (S n))) with (Z.of_nat (S n) + 1) by lia.
    rewrite tril_step, cells_snoc, filter_app, zlen_app, count_row by lia. rewrite IH by lia. reflexivity.
Qed.
Lemma cells_length : forall row col, 0 <= row -> 0 <= col -> zlen (cells row col) = row * col.
Proof.
  intros row col Hr Hc. unfold cells, zlen. rewrite prod_length, Nat2Z.inj_mul.
  change (Z.of_nat (length (zrange 0 row))) with (zlen (zrange 0 row)).
  change (Z.of_nat (length (zrange 0 col))) with (zlen (zrange 0 col)). rewrite !zlen_zrange. rewrite !Z.max_r by lia. ring.
Qed.
Lemma split_count : forall (p q : Z * Z -> bool) l, (forall x, q x = negb (p x)) ->
  zlen (filter p l) + zlen (filter q l) = zlen l.
Proof.
  intros p q l H. induction l as [|x l IH]; simpl; [reflexivity|]. rewrite H. destruct (p x); simpl; rewrite !zlen_cons; lia.
Qed.
(** tril_indices: as many columns as the matrix has positions on or below the diagonal. *)
Theorem C41_tril_counts_the_triangle : forall row col offset, 0 <= row -> 0 <= col ->
  tril_indices row col offset = [2; zlen (filter (lower offset) (cells row col))].
Proof.
  intros row col offset Hr Hc. unfold tril_indices.
  destruct (Z.eqb_spec row 0) as [->|]; [reflexivity|]. destruct (Z.eqb_spec col 0) as [->|].
  - cbn [orb]. assert (E : cells row 0 = []).
    { assert (L : zlen (cells row 0) = 0) by (rewrite cells_length; lia). unfold zlen in L. destruct (cells row 0); [auto|simpl in L; lia]. }
    now rewrite E.
  - cbn [orb]. now rewrite tril_cells by lia.
Qed.
(** triu_indices: the positions on or above it. *)
Theorem C41_triu_counts_the_triangle : forall row col offset, 0 <= row -> 0 <= col ->
  triu_indices row col offset = [2; zlen (filter (upper offset) (cells row col))].
Proof.
  intros row col offset Hr Hc. unfold triu_indices.
  assert (S : zlen (filter (lower (offset - 1)) (cells row col)) + zlen (filter (upper offset) (cells row col)) = row * col).
  { rewrite split_count, cells_length; auto. intros x. unfold upper, lower. lia. }
  destruct (Z.eqb_spec row 0) as [->|]; [reflexivity|]. destruct (Z.eqb_spec col 0) as [->|].
  - cbn [orb]. assert (E : cells row 0 = []).
    { assert (L : zlen (cells row 0) = 0) by (rewrite cells_length; lia). unfold zlen in L. destruct (cells row 0); [auto|simpl in L; lia]. }
    now rewrite E.
  - cbn [orb]. rewrite tril_cells by lia. do 2 f_equal. lia.
Qed.
(** The upper triangle and the lower triangle strictly below it make up the matrix. *)
Theorem C41_triangles_partition : forall row col offset, 0 <= row -> 0 <= col ->
  exists u l, triu_indices row col offset = [2; u] /\ tril_indices row col (offset - 1) = [2; l] /\
    u + l = row * col /\ 0 <= u /\ 0 <= l.
Proof.
  intros row col offset Hr Hc. eexists. eexists.
  rewrite C41_triu_counts_the_triangle, C41_tril_counts_the_triangle by auto. split; [reflexivity|split; [reflexivity|]].
  split; [|split; apply zlen_nonneg]. rewrite Z.add_comm, split_count, cells_length; auto.
  intros x. unfold upper, lower. lia.
Qed.
(** Negative sizes are an error in PyTorch; the shape functions answer with a negative count. *)
Theorem C41_negative_sizes_accepted_refuted : triu_indices (-2) 3 0 = [2; -6] /\ tril_indices 3 (-2) 5 = [2; -3].
Proof. split; vm_compute; reflexivity. Qed.
Example C41_nonvacuous : tril_indices 4 3 1 = [2; 11] /\ triu_indices 4 3 1 = [2; 3] /\ tril_indices 7 5 (-2) = [2; 15] /\
  filter (lower (-1)) (cells 3 2) = [(1, 0); (2, 0); (2, 1)].
Proof. repeat split. Qed.

Print Assumptions C41_tril_counts_the_triangle.
Print Assumptions C41_triu_counts_the_triangle.
Print Assumptions C41_triangles_partition.
