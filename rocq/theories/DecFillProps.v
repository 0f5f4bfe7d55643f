(** C132: operations replaced by comparisons with a range, a scatter into a slice, or diagonals. *)
From Coq Require Import ZArith List Lia Bool.
From Verif Require Import Prelude TensorOps NumOps DecMoveProofs DecFillModel DecFillSpec DecFillProofs.
Import ListNotations.
Open Scope Z_scope.

(** select_scatter is computed, with the same errors, for every index but -1. *)
Theorem C132_select_scatter_partial : forall A (t src : tensor A) dim index, sized t -> rank src + 1 = rank t -> index <> -1 ->
  agree (dec_select_scatter t src dim index) (torch_select_scatter t src dim index).
Proof. exact select_scatter_agree. Qed.
(** Index -1 is always an error, though it names the last position: the slice is taken from -1 to 0. *)
Theorem C132_select_scatter_last_refuted : forall A (t src u : tensor A) dim, torch_select_scatter t src dim (-1) = Some u ->
  dec_select_scatter t src dim (-1) = None.
Proof. exact select_scatter_last. Qed.
(** The scatter into a slice: what was scattered is read back, scattering what is there changes nothing, and
    a position that no position of the slice names keeps its element. *)
Theorem C132_scatter_read_back : forall A (t src u : tensor A) d start stop step, sized t ->
  slice_scatter t src d start stop step = Some u -> exists v, slice u d start stop step = Some v /\ same v src.
Proof. exact scatter_then_slice. Qed.
Theorem C132_scatter_unchanged : forall A (t v : tensor A) d start stop step, sized t ->
  slice t d start stop step = Some v -> exists u, slice_scatter t v d start stop step = Some u /\ same u t.
Proof. exact scatter_same. Qed.
Theorem C132_scatter_elsewhere : forall A (t src u : tensor A) d k start stop step, axis (rank t) d = Some k ->
  slice_scatter t src d start stop step = Some u ->
  sizes u = sizes t /\
  forall ix, within (sizes t) ix -> elt u ix = elt t ix \/
    exists jx, within (sizes src) jx /\ elt u ix = elt src jx /\ ix = put jx k (bound (get (sizes t) k) start 0 + get jx k * step).
Proof. exact scatter_elsewhere. Qed.
(** The gated linear unit is computed with the same errors. *)
Theorem C132_glu : forall A (sigmoid : A -> A) (mul : A -> A -> A) t dim, sized t ->
  agree (dec_glu sigmoid mul t dim) (torch_glu sigmoid mul t dim).
Proof. exact glu_agree. Qed.
(** eye is the matrix with ones on its diagonal, and an error for a negative size. *)
Theorem C132_eye_m : forall A (zero one : A) n m,
  match dec_eye_m zero one n m with Some t => 0 <= n /\ 0 <= m /\ is_eye zero one n m t | None => n < 0 \/ m < 0 end.
Proof. exact eye_proof. Qed.
Theorem C132_eye : forall A (zero one : A) n,
  match dec_eye zero one n with Some t => 0 <= n /\ is_eye zero one n n t | None => n < 0 end.
Proof. intros A zero one n. unfold dec_eye. pose proof (eye_proof A zero one n n) as H. destruct (dec_eye_m zero one n n); tauto. Qed.
(** one_hot has a one at the class of each element, when the number of classes is given. *)
Theorem C132_one_hot_partial : forall (t : tensor Z) num, 0 <= num -> exists u, dec_one_hot t num = Some u /\ is_one_hot t num u.
Proof. intros t num N. pose proof (one_hot_proof t num) as H. destruct (dec_one_hot t num) as [u|]; [|lia]. exists u. tauto. Qed.
(** A class out of range gives a row of zeros, where PyTorch raises an error. *)
Theorem C132_one_hot_class_refuted : forall (t : tensor Z) num u ix, dec_one_hot t num = Some u -> within (sizes t) ix ->
  ~ (0 <= elt t ix < num) -> forall c, 0 <= c < num -> elt u (ix ++ [c]) = 0.
Proof.
  intros t num u ix E W N c C. pose proof (one_hot_proof t num) as H. rewrite E in H. destruct H as [_ [_ H]]. rewrite H by auto.
  destruct (Z.eqb_spec (elt t ix) c); [lia|reflexivity].
Qed.
(** A number of classes of -1, which PyTorch takes from the elements, is an error. *)
Theorem C132_one_hot_inferred_refuted : forall t, dec_one_hot t (-1) = None.
Proof. intros t. reflexivity. Qed.
(** diag takes the diagonal of a matrix and puts a vector on a diagonal; it applies to nothing else. *)
Theorem C132_diag_matrix : forall A (zero : A) (t : tensor A) offset, rank t = 2 ->
  exists v, dec_diag zero t offset = Some (Some v) /\ is_diagonal t offset v /\ forall w, is_diagonal t offset w -> same v w.
Proof.
  intros A zero t offset R. destruct (diagonal_proof A t offset R) as (v & E & D). exists v. unfold dec_diag. rewrite R. cbn [Z.eqb Pos.eqb].
  rewrite E. split; [reflexivity|]. split; [exact D|]. intros w. now apply diagonal_unique with (t := t) (offset := offset).
Qed.
Theorem C132_diag_vector : forall A (zero : A) (t : tensor A) n offset, sizes t = [n] -> 0 <= n ->
  exists u, dec_diag zero t offset = Some (Some u) /\ is_diag_matrix zero t offset u.
Proof. exact diag_vector. Qed.
Theorem C132_diag_applies : forall A (zero : A) (t : tensor A) offset, dec_diag zero t offset = None <-> rank t <> 1 /\ rank t <> 2.
Proof. intros. unfold dec_diag. destruct (Z.eqb_spec (rank t) 1), (Z.eqb_spec (rank t) 2); split; try congruence; intros; tauto || lia. Qed.
(** The two created operations, for dimensions in either order. *)
Theorem C132_diagonal_dims : forall A (t : tensor A) offset d1 d2 v, diagonal t offset d1 d2 = Some v ->
  exists a b, rank t = 2 /\ axis 2 d1 = Some a /\ axis 2 d2 = Some b /\ a <> b /\
  (a = 0%nat -> is_diagonal t offset v) /\ (a = 1%nat -> exists u, transpose t 0 1 = Some u /\ is_diagonal u offset v).
Proof. exact diagonal_dims. Qed.
Theorem C132_diag_embed_dims : forall A (zero : A) (t u : tensor A) offset d1 d2, sized t -> diag_embed zero t offset d1 d2 = Some u ->
  exists a b, rank t = 1 /\ axis 2 d1 = Some a /\ axis 2 d2 = Some b /\ a <> b /\
  (a = 0%nat -> is_diag_matrix zero t offset u) /\ (a = 1%nat -> exists v, transpose u 0 1 = Some v /\ is_diag_matrix zero t offset v).
Proof. exact diag_embed_dims. Qed.
(** trace adds the elements t[i][i], for any addition; it applies to matrices. *)
Theorem C132_trace : forall A add (zero : A) (t : tensor A),
  (forall n m, sizes t = [n; m] -> dec_trace add zero t = Some (Some (fold_right add zero (map (fun i => elt t [i; i]) (zrange 0 (Z.min n m)))))) /\
  (dec_trace add zero t = None <-> rank t <> 2).
Proof.
  intros A add zero t. split; [apply trace_proof|]. unfold dec_trace. destruct (Z.eqb_spec (rank t) 2); split; congruence || tauto.
Qed.

Definition square : tensor Z := {| sizes := [2; 3]; elt := fun ix => 10 * get ix 0 + get ix 1 |}.
Definition row : tensor Z := {| sizes := [3]; elt := fun ix => 100 + get ix 0 |}.
Definition shown (t : option (tensor Z)) : option (list Z * list Z) :=
  option_map (fun t => (sizes t, map (elt t) (all_indices (sizes t)))) t.
Example C132_nonvacuous :
  shown (dec_select_scatter square row 0 1) = Some ([2; 3], [0; 1; 2; 100; 101; 102]) /\
  shown (torch_select_scatter square row 0 (-1)) = Some ([2; 3], [0; 1; 2; 100; 101; 102]) /\
  dec_select_scatter square row 0 (-1) = None /\
  shown (dec_eye 0 1 2) = Some ([2; 2], [1; 0; 0; 1]) /\
  shown (dec_one_hot {| sizes := [2]; elt := fun ix => get ix 0 + 1 |} 3) = Some ([2; 3], [0; 1; 0; 0; 0; 1]) /\
  option_map shown (dec_diag 0 square 1) = Some (Some ([2], [1; 12])) /\
  option_map shown (dec_diag 0 {| sizes := [1]; elt := fun _ => 7 |} (-1)) = Some (Some ([2; 2], [0; 0; 7; 0])) /\
  dec_trace Z.add 0 square = Some (Some 11) /\
  shown (dec_glu (fun x => x + 1) Z.mul {| sizes := [4]; elt := fun ix => get ix 0 |} 0) = Some ([2], [0; 4]) /\
  dec_glu (fun x => x) Z.mul square 1 = None.
Proof. vm_compute. repeat split. Qed.

Print Assumptions C132_select_scatter_partial.
Print Assumptions C132_select_scatter_last_refuted.
Print Assumptions C132_scatter_read_back.
Print Assumptions C132_scatter_unchanged.
Print Assumptions C132_scatter_elsewhere.
Print Assumptions C132_glu.
Print Assumptions C132_eye_m.
Print Assumptions C132_eye.
Print Assumptions C132_one_hot_partial.
Print Assumptions C132_one_hot_class_refuted.
Print Assumptions C132_one_hot_inferred_refuted.
Print Assumptions C132_diag_matrix.
Print Assumptions C132_diag_vector.
Print Assumptions C132_diag_applies.
Print Assumptions C132_diagonal_dims.
Print Assumptions C132_diag_embed_dims.
Print Assumptions C132_trace.
