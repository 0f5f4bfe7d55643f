(** C105 and C106: slices, concatenations, flips and permutations that replace other operations. *)
From Coq Require Import ZArith List Lia Bool.
From Verif Require Import Prelude TensorOps DecMoveModel DecMoveSpec DecMoveProofs.
Import ListNotations.
Open Scope Z_scope.

(** * C105 *)
Theorem C105_select_is_one_position : forall A (t u : tensor A) dim index,
  torch_select t dim index = Some u -> exists v, dec_select t dim index = Some v /\ same v u.
Proof. exact select_proof. Qed.
(** The index is not checked: past the end it is an empty slice, which squeeze leaves alone. *)
Theorem C105_select_out_of_range_refuted : forall A (t : tensor A) n, sizes t = [n] -> 0 <= n ->
  torch_select t 0 n = None /\ exists v, dec_select t 0 n = Some v /\ sizes v = [0].
Proof.
  intros A t n S N. assert (Ax : forall m : Z, axis (zlen [m]) 0 = Some 0%nat) by reflexivity. split.
  - unfold torch_select, rank. rewrite S, Ax. cbn [obind get nth]. unfold get. cbn [nth]. destruct (Z.leb_spec (- n) n), (Z.ltb_spec n n); try lia; reflexivity.
  - unfold dec_select, size_int, rank. rewrite S, Ax. cbn [obind]. unfold get; cbn [nth].
    destruct (Z.ltb_spec n 0); [lia|]. replace (n + 0 * n) with n by lia. unfold slice, rank. rewrite S, Ax. cbn [obind]. unfold bound, get; cbn [nth]. destruct (Z.ltb_spec n 0); [lia|]. destruct (Z.ltb_spec (n + 1) 0); [lia|].
    replace (Z.max 0 (Z.min n n)) with n by lia. replace (Z.max 0 (Z.min n (n + 1))) with n by lia. rewrite Z.ltb_irrefl. cbn. eexists. split; reflexivity.
Qed.
Theorem C105_narrow_is_consecutive_positions : forall A (t u : tensor A) dim start length,
  torch_narrow t dim start length = Some u -> 0 <= start \/ start + length <> 0 \/ length = 0 ->
  exists v, dec_narrow t dim start length = Some v /\ same v u.
Proof. exact narrow_proof. Qed.
(** The last positions, counted from the end: the end of the slice is 0, and nothing is left. *)
Theorem C105_narrow_of_the_end_refuted : forall A (t : tensor A) dim k start length,
  axis (rank t) dim = Some k -> start < 0 -> 0 < length -> start + length = 0 -> - start <= get (sizes t) k ->
  (exists u, torch_narrow t dim start length = Some u /\ get (sizes u) k = length) /\
  exists v, dec_narrow t dim start length = Some v /\ get (sizes v) k = 0.
Proof.
  intros A t dim k start length Ax N L E Le. pose proof (axis_rank _ _ _ _ Ax) as K. split.
  - unfold torch_narrow. rewrite Ax. cbn [obind]. destruct (Z.ltb_spec start 0); [|lia]. destruct (Z.leb_spec 0 (start + get (sizes t) k)), (Z.leb_spec 0 length), (Z.leb_spec (start + get (sizes t) k + length) (get (sizes t) k)); try lia.
    cbn. eexists. split; [reflexivity|]. cbn [sizes reindex]. apply get_put_same; auto.
  - destruct (narrow_exception A t dim k start length Ax N L E Le) as [v [Ev Sv]]. exists v. split; [exact Ev|]. rewrite Sv. apply get_put_same; auto.
Qed.
Theorem C105_split_is_consecutive_parts : forall A (t : tensor A) split dim us, split <> [] -> torch_split t split dim = Some us ->
  exists vs, dec_split t split dim = Some (Some vs) /\ Forall2 same vs us.
Proof. exact split_proof. Qed.
Theorem C105_stack_is_stack : forall A (ts : list (tensor A)) dim,
  match dec_stack ts dim with None => torch_stack ts dim = None | Some x => agree x (torch_stack ts dim) end.
Proof. exact stack_proof. Qed.
Theorem C105_atleast_1d_2d : forall A (t : tensor A), agree (dec_atleast_1d t) (Some (vector t)) /\ agree (dec_atleast_2d t) (Some (matrix_row t)).
Proof. intros. split; [apply atleast_1d_proof|apply atleast_2d_proof]. Qed.
Theorem C105_hstack_is_hstack : forall A (t : tensor A) ts, sizes t <> [] -> agree (dec_hstack (t :: ts)) (torch_hstack (t :: ts)).
Proof. exact hstack_proof. Qed.
(** If the first tensor has no dimensions the concatenation is along an axis that is not there. *)
Theorem C105_hstack_of_a_scalar_refuted : forall A (t : tensor A), sizes t = [] ->
  dec_hstack [t] = None /\ exists u, torch_hstack [t] = Some u /\ sizes u = [1].
Proof.
  intros A t S. split; [now apply hstack_scalar|]. unfold torch_hstack. cbn [map]. unfold vector at 2. rewrite S. cbn. unfold vector. rewrite S. cbn. eexists. split; reflexivity.
Qed.
Theorem C105_column_stack_is_column_stack : forall A (ts : list (bool * tensor A)), Forall (fun kt => sized (snd kt)) ts ->
  agree (dec_column_stack ts) (torch_column_stack (map snd ts)).
Proof. exact column_stack_proof. Qed.
(** roll is right if no shift is larger than the axis; a larger one is ignored. *)
Theorem C105_roll_is_roll_of_small_shifts : forall A (t : tensor A) shifts dims, sized t -> length shifts = length dims ->
  Forall (fun sd => match axis (rank t) (snd sd) with Some k => Z.abs (fst sd) <= get (sizes t) k | None => True end) (combine shifts dims) ->
  exists x, dec_roll t shifts dims = Some x /\ agree x (torch_roll t shifts dims).
Proof.
  intros A t shifts dims Zt L F. destruct (roll_proof A t shifts dims Zt L) as [x [E G]]. exists x. split; [exact E|].
  replace shifts with (effective_shifts t shifts dims); [exact G|]. unfold effective_shifts. clear E G. revert dims L F. induction shifts as [|s shifts IH]; intros [|d dims] L F; cbn [length] in L; try lia; [reflexivity|].
  cbn [combine map fst snd] in *. inversion_clear F as [|? ? F0 Fr]. cbn [fst snd] in F0. rewrite IH by (auto; lia). f_equal. destruct (axis (rank t) d); [|reflexivity]. unfold effective. destruct (Z.leb_spec (Z.abs s) (get (sizes t) n)); [reflexivity|lia].
Qed.
Theorem C105_roll_exactly : forall A (t : tensor A) shift dim k, sized t -> axis (rank t) dim = Some k ->
  exists v, dec_roll t [shift] [dim] = Some (Some v) /\ same v (rolled k (if Z.abs shift <=? get (sizes t) k then shift else 0) t).
Proof.
  intros A t s d k Zt Ax. unfold dec_roll. cbn [zlen length]. rewrite Z.eqb_refl. cbn [combine foldM fst snd]. destruct (imitate_roll_proof A t s d k Zt Ax) as [v [E G]]. rewrite E. cbn [obind]. exists v. split; [reflexivity|exact G].
Qed.
Definition counting (n : Z) : tensor Z := {| sizes := [n]; elt := fun ix => get ix 0 |}.
Theorem C105_roll_of_a_large_shift_refuted : exists v u, dec_roll (counting 2) [3] [0] = Some (Some v) /\ torch_roll (counting 2) [3] [0] = Some u /\ ~ same v u.
Proof.
  eexists. eexists. split; [reflexivity|]. split; [reflexivity|]. intros [_ E]. specialize (E [0]). cbv in E. specialize (E ltac:(repeat constructor; discriminate)). discriminate.
Qed.
Definition table (t : option (tensor Z)) (ixs : list (list Z)) : option (list Z * list Z) := do u <- t; Some (sizes u, map (elt u) ixs).
Definition grid : tensor Z := {| sizes := [2; 3]; elt := fun ix => 10 * get ix 0 + get ix 1 |}.
Example C105_nonvacuous :
  table (dec_select grid (-1) (-2)) [[0]; [1]] = Some ([2], [1; 11]) /\
  table (dec_narrow grid 1 (-3) 2) [[1; 0]; [1; 1]] = Some ([2; 2], [10; 11]) /\
  table (dec_narrow grid 1 (-2) 2) [] = Some ([2; 0], []) /\
  (do vs <- dec_split grid [1; 2] 1; do vs <- vs; Some (map sizes vs)) = Some [[2; 1]; [2; 2]] /\
  table (do x <- dec_stack [counting 2; counting 2] (-1); x) [[0; 0]; [1; 1]] = Some ([2; 2], [0; 1]) /\
  table (dec_hstack [grid; grid]) [[0; 4]] = Some ([2; 6], [1]) /\
  table (dec_column_stack [(true, counting 2); (false, counting 2)]) [[1; 0]; [0; 1]] = Some ([2; 2], [1; 0]) /\
  table (do x <- dec_roll grid [1; -1] [1; 0]; x) [[0; 0]; [1; 1]] = Some ([2; 3], [12; 0]).
Proof. repeat split. Qed.

(** * C106 *)
Theorem C106_fliplr_flipud : forall A (t : tensor A),
  match dec_fliplr t with None => torch_fliplr t = None | Some x => agree x (torch_fliplr t) end /\
  match dec_flipud t with None => torch_flipud t = None | Some x => agree x (torch_flipud t) end.
Proof. intros. split; [apply fliplr_proof|apply flipud_proof]. Qed.
Theorem C106_t_is_the_transpose : forall A (t : tensor A), match dec_t t with None => torch_t t = None | Some x => agree x (torch_t t) end.
Proof. exact t_proof. Qed.
Theorem C106_numpy_t_reverses_the_axes : forall A (t : tensor A), agree (dec_numpy_t t) (Some (reversed t)).
Proof. exact numpy_t_proof. Qed.
Theorem C106_movedim_moves_one_axis : forall A (t u : tensor A) src dst, torch_movedim t src dst = Some u -> exists v, dec_movedim t src dst = Some (Some v) /\ same v u.
Proof. exact movedim_proof. Qed.
Theorem C106_movedim_refuses_bad_axes : forall A (t : tensor A) src dst, 2 <= rank t -> (dec_movedim t src dst = None <-> torch_movedim t src dst = None).
Proof. exact movedim_refused. Qed.
Theorem C106_rot90_is_quarter_turns : forall A (t u : tensor A) k d0 d1, torch_rot90 t k d0 d1 = Some u -> exists v, dec_rot90 t k d0 d1 = Some v /\ same v u.
Proof.
  intros A t u k d0 d1 H. unfold torch_rot90 in H. destruct (axis (rank t) d0) as [a|] eqn:Aa; [|discriminate]. cbn [obind] in H. destruct (axis (rank t) d1) as [b|] eqn:Ab; [|discriminate]. cbn [obind] in H.
  destruct (Nat.eqb_spec a b); [discriminate|]. injection H as <-. apply rot90_turns; auto.
Qed.
Theorem C106_squeeze_removes_the_named_axes : forall A (t u : tensor A) dims, NoDup dims -> prims_squeeze t dims = Some u -> exists v, dec_squeeze t dims = Some (Some v) /\ same v u.
Proof. exact squeeze_proof. Qed.
Theorem C106_squeeze_of_a_size_that_is_not_one_fails : forall A (t : tensor A) d, - rank t <= d < rank t ->
  get (sizes t) (Z.to_nat (if d <? 0 then d + rank t else d)) <> 1 -> dec_squeeze t [d] = Some None.
Proof.
  intros A t d B G. unfold dec_squeeze, descending. cbn [fold_right place squeeze_all].
  unfold squeeze_one, to_positive_dim, is_valid_dim. destruct (Z.ltb_spec d 0), (Z.leb_spec 0 d); try lia.
  - destruct (Z.leb_spec 0 (d + rank t)), (Z.ltb_spec (d + rank t) (rank t)); try lia. cbn [andb].
    destruct (Z.eqb_spec (get (sizes t) (Z.to_nat (d + rank t))) 1); [contradiction|reflexivity].
  - destruct (Z.leb_spec 0 d), (Z.ltb_spec d (rank t)); try lia. cbn [andb].
    destruct (Z.eqb_spec (get (sizes t) (Z.to_nat d)) 1); [contradiction|reflexivity].
Qed.
Theorem C106_squeeze_refuses_the_others : forall A (t v : tensor A) dims, NoDup dims -> Forall (fun d => 0 <= d) dims -> dec_squeeze t dims = Some (Some v) -> exists u, prims_squeeze t dims = Some u.
Proof. exact squeeze_refused. Qed.
(** An axis that is named twice takes the next one with it. *)
Theorem C106_squeeze_named_twice_refuted : forall A (f : list Z -> A), let t := {| sizes := [1; 1]; elt := f |} in
  exists u v, prims_squeeze t [0; 0] = Some u /\ sizes u = [1] /\ dec_squeeze t [0; 0] = Some (Some v) /\ sizes v = [].
Proof. intros A f. eexists. eexists. cbn. split; [reflexivity|]. split; [reflexivity|]. split; reflexivity. Qed.
Definition block : tensor Z := {| sizes := [2; 3; 4]; elt := fun ix => 100 * get ix 0 + 10 * get ix 1 + get ix 2 |}.
Example C106_nonvacuous :
  table (do x <- dec_fliplr grid; x) [[0; 0]; [1; 2]] = Some ([2; 3], [2; 10]) /\
  table (do x <- dec_t grid; x) [[2; 1]] = Some ([3; 2], [12]) /\
  table (dec_numpy_t block) [[3; 2; 1]] = Some ([4; 3; 2], [123]) /\
  table (do x <- dec_movedim block 0 (-1); x) [[2; 3; 1]] = Some ([3; 4; 2], [123]) /\
  table (dec_rot90 grid 1 0 1) [[0; 0]; [2; 1]] = Some ([3; 2], [2; 10]) /\
  table (dec_rot90 grid (-1) 0 1) [[0; 0]; [2; 1]] = Some ([3; 2], [10; 2]) /\
  table (dec_rot90 grid 6 0 1) [[0; 0]] = Some ([2; 3], [12]) /\
  table (do x <- dec_squeeze {| sizes := [1; 3; 1]; elt := fun ix => get ix 1 |} [0; 2]; x) [[2]] = Some ([3], [2]).
Proof. repeat split. Qed.

Print Assumptions C105_select_is_one_position.
Print Assumptions C105_select_out_of_range_refuted.
Print Assumptions C105_narrow_is_consecutive_positions.
Print Assumptions C105_narrow_of_the_end_refuted.
Print Assumptions C105_split_is_consecutive_parts.
Print Assumptions C105_stack_is_stack.
Print Assumptions C105_atleast_1d_2d.
Print Assumptions C105_hstack_is_hstack.
Print Assumptions C105_hstack_of_a_scalar_refuted.
Print Assumptions C105_column_stack_is_column_stack.
Print Assumptions C105_roll_is_roll_of_small_shifts.
Print Assumptions C105_roll_exactly.
Print Assumptions C105_roll_of_a_large_shift_refuted.
Print Assumptions C106_fliplr_flipud.
Print Assumptions C106_t_is_the_transpose.
Print Assumptions C106_numpy_t_reverses_the_axes.
Print Assumptions C106_movedim_moves_one_axis.
Print Assumptions C106_movedim_refuses_bad_axes.
Print Assumptions C106_rot90_is_quarter_turns.
Print Assumptions C106_squeeze_removes_the_named_axes.
Print Assumptions C106_squeeze_refuses_the_others.
Print Assumptions C106_squeeze_named_twice_refuted.
Print Assumptions C106_squeeze_of_a_size_that_is_not_one_fails.
