(** Property C111: the decompositions of triu_indices and tril_indices list the triangles. *)
From Coq Require Import ZArith Bool Lia List.
From Verif Require Import Prelude ShapeMiscSpec DecTriSpec DecTriModel DecTriProofs.
From Verif Require ShapeMiscModel ShapeTriProps DtypeModel.
Import ListNotations.
Open Scope Z_scope.

(** The integer computations are the floors of the real numbers. *)
Theorem C111_floors_of_roots : forall a d, 0 <= d ->
  is_floor (below_minus a d) (floor_minus_root a d) /\ is_floor (below_plus a d) (floor_plus_root a d).
Proof. intros a d D. split; [now apply minus_floor|now apply plus_floor]. Qed.
Theorem C111_floor_is_unique : forall below k l, is_floor below k -> is_floor below l -> k = l.
Proof. exact floor_unique. Qed.

(** Every position of the triangle, once, in the order of torch.triu_indices. *)
Theorem C111_triu_lists_the_triangle : forall h w o, 0 <= h -> 0 <= w ->
  triu_rows_cols h w o = coordinates (positions (upper o) h w).
Proof. exact triu_proof. Qed.
Theorem C111_tril_lists_the_triangle : forall h w o, 0 <= h -> 0 <= w ->
  tril_rows_cols h w o = coordinates (positions (lower o) h w).
Proof. exact tril_proof. Qed.
(** The operands must be constants, and the code of the dtype must be that of a type. *)
Theorem C111_triu_when : forall q r, dec_triu_indices q = Some r <-> exists h w o c t m,
  row q = Some h /\ col q = Some w /\ offset q = Some o /\ dtype q = Some c /\
  DtypeModel.decode c = Some t /\ DtypeModel.getTypeForScalarType t = Some m /\ r = triu_rows_cols h w o.
Proof.
  intros [[h|] [w|] [o|] [c|]] r; cbn; split; try discriminate; try (intros (? & ? & ? & ? & ? & ? & ? & ? & ? & ? & ?); congruence).
  - unfold has_type. destruct (DtypeModel.decode c) as [t|] eqn:T; [|discriminate]. destruct (DtypeModel.getTypeForScalarType t) as [m|] eqn:M; [|discriminate].
    intros [= <-]. exists h, w, o, c, t, m. auto 10.
  - intros (h' & w' & o' & c' & t & m & [= ->] & [= ->] & [= ->] & [= ->] & T & M & ->). unfold has_type. now rewrite T, M.
Qed.
Theorem C111_tril_when : forall q r, dec_tril_indices q = Some r <-> exists h w o c t m,
  row q = Some h /\ col q = Some w /\ offset q = Some o /\ dtype q = Some c /\
  DtypeModel.decode c = Some t /\ DtypeModel.getTypeForScalarType t = Some m /\ r = tril_rows_cols h w o.
Proof.
  intros [[h|] [w|] [o|] [c|]] r; cbn; split; try discriminate; try (intros (? & ? & ? & ? & ? & ? & ? & ? & ? & ? & ?); congruence).
  - unfold has_type. destruct (DtypeModel.decode c) as [t|] eqn:T; [|discriminate]. destruct (DtypeModel.getTypeForScalarType t) as [m|] eqn:M; [|discriminate].
    intros [= <-]. exists h, w, o, c, t, m. auto 10.
  - intros (h' & w' & o' & c' & t & m & [= ->] & [= ->] & [= ->] & [= ->] & T & M & ->). unfold has_type. now rewrite T, M.
Qed.
(** The sizes written in the type of the result are those of the shape functions (C41), and those of the lists. *)
Theorem C111_declared_sizes : forall h w o, 0 <= h -> 0 <= w ->
  fst (declared_triu h w o) = ShapeMiscModel.triu_indices h w o /\ fst (declared_tril h w o) = ShapeMiscModel.tril_indices h w o /\
  (forall l, In l (triu_rows_cols h w o) -> fst (declared_triu h w o) = [2; zlen l]) /\
  (forall l, In l (tril_rows_cols h w o) -> fst (declared_tril h w o) = [2; zlen l]).
Proof.
  intros h w o H W.
  assert (U : fst (declared_triu h w o) = [2; zlen (filter (upper o) (cells h w))]).
  { unfold declared_triu, declared. pose proof (triu_total h w o H W) as T. destruct (triu_sizes h w o) as [[t r] m]. cbn [fst]. now rewrite T. }
  assert (L : fst (declared_tril h w o) = [2; zlen (filter (lower o) (cells h w))]).
  { unfold declared_tril, declared. destruct (Z.eq_dec h 0) as [E|]; [|destruct (Z.eq_dec w 0) as [E|]].
    - rewrite (cells_empty _ _ _ (or_introl E)). subst. reflexivity.
    - rewrite (cells_empty _ _ _ (or_intror E)). subst. unfold tril_sizes. rewrite orb_true_r. reflexivity.
    - pose proof (tril_total h w o ltac:(lia) ltac:(lia)) as T. destruct (tril_sizes h w o) as [[t r] m]. cbn [fst]. rewrite <- T. do 2 f_equal. ring. }
  split; [now rewrite U, ShapeTriProps.C41_triu_counts_the_triangle|]. split; [now rewrite L, ShapeTriProps.C41_tril_counts_the_triangle|].
  rewrite U, L, triu_proof, tril_proof by auto. unfold coordinates, positions.
  split; intros l [<-|[<-|[]]]; now rewrite zlen_map'.
Qed.
(** The type of the result says int64, also when another dtype is asked for. *)
Theorem C111_other_dtype_refuted : exists q, dtype q = Some 3 /\ dec_triu_indices q <> None /\ dec_tril_indices q <> None /\
  snd (declared_triu 2 3 0) = 4 /\ snd (declared_tril 2 3 0) = 4.
Proof. exists {| row := Some 2; col := Some 3; offset := Some 0; dtype := Some 3 |}. repeat split; discriminate. Qed.
Theorem C111_declared_dtype_is_always_int64 : forall h w o, snd (declared_triu h w o) = 4 /\ snd (declared_tril h w o) = 4.
Proof. intros. unfold declared_triu, declared_tril, declared. destruct (triu_sizes h w o) as [[? ?] ?], (tril_sizes h w o) as [[? ?] ?]. auto. Qed.
(** Negative sizes are refused by PyTorch; here they give a type with a negative size. *)
Theorem C111_negative_sizes_refuted : fst (declared_triu (-2) 3 0) = [2; -6] /\ fst (declared_tril 3 (-2) 5) = [2; -3].
Proof. split; vm_compute; reflexivity. Qed.

Example C111_nonvacuous :
  triu_rows_cols 3 4 (-1) = [[0; 0; 0; 0; 1; 1; 1; 1; 2; 2; 2]; [0; 1; 2; 3; 0; 1; 2; 3; 1; 2; 3]] /\
  triu_rows_cols 3 4 2 = [[0; 0; 1]; [2; 3; 3]] /\ tril_rows_cols 4 2 (-1) = [[1; 2; 2; 3; 3]; [0; 0; 1; 0; 1]] /\
  tril_rows_cols 3 3 1 = [[0; 0; 1; 1; 1; 2; 2; 2]; [0; 1; 0; 1; 2; 0; 1; 2]] /\ triu_rows_cols 2 2 5 = [[]; []] /\
  dec_triu_indices {| row := Some 2; col := Some 3; offset := Some 0; dtype := None |} = None /\
  dec_tril_indices {| row := Some 1; col := Some 2; offset := Some 0; dtype := Some 3 |} = Some [[0]; [0]].
Proof. vm_compute. repeat split. Qed.

Print Assumptions C111_floors_of_roots.
Print Assumptions C111_floor_is_unique.
Print Assumptions C111_triu_lists_the_triangle.
Print Assumptions C111_tril_lists_the_triangle.
Print Assumptions C111_triu_when.
Print Assumptions C111_tril_when.
Print Assumptions C111_declared_sizes.
Print Assumptions C111_other_dtype_refuted.
Print Assumptions C111_declared_dtype_is_always_int64.
Print Assumptions C111_negative_sizes_refuted.
