(** C138: torchvision.nms. *)
From Coq Require Import ZArith Bool PeanoNat Lia List.
From Verif Require Import Prelude DecTopkModel DecTopkProofs DecTopkProps DecNmsModel DecNmsProofs.
Import ListNotations.
Open Scope Z_scope.

(** The loops compute the greedy suppression, for any uninitialised result. *)
Theorem C138_loops : forall sup order empty out, length empty = length order ->
  (nms_loops sup order empty = out <-> greedy sup [] order out).
Proof.
  intros sup order empty out L. pose proof (nms_greedy sup order empty L) as G. split; [intros <-; exact G|]. intros H. eapply greedy_det; eauto.
Qed.
(** A box suppresses another one if the intersection, over the union, is above the threshold; corners may be in any order. *)
Theorem C138_suppressed : forall tn td a b wx wy ax ay cx cy,
  common (bx0 a) (bx1 a) (bx0 b) (bx1 b) wx -> common (by0 a) (by1 a) (by0 b) (by1 b) wy ->
  common (bx0 a) (bx1 a) (bx0 a) (bx1 a) ax -> common (by0 a) (by1 a) (by0 a) (by1 a) ay ->
  common (bx0 b) (bx1 b) (bx0 b) (bx1 b) cx -> common (by0 b) (by1 b) (by0 b) (by1 b) cy ->
  (suppressed tn td a b = true <-> tn * (ax * ay + cx * cy - wx * wy) < td * (wx * wy)).
Proof.
  intros tn td a b wx wy ax ay cx cy H1 H2 H3 H4 H5 H6. apply common_is in H1, H2, H3, H4, H5, H6.
  unfold suppressed. rewrite Z.ltb_lt.
  replace (intersection_area a b) with (wx * wy) by (subst; reflexivity).
  replace (box_area a) with (ax * ay) by (unfold box_area, high_x, low_x, high_y, low_y; subst; f_equal; lia).
  replace (box_area b) with (cx * cy) by (unfold box_area, high_x, low_x, high_y, low_y; subst; f_equal; lia).
  replace (cx * cy + ax * ay) with (ax * ay + cx * cy) by lia. reflexivity.
Qed.
(** Those lengths exist. *)
Theorem C138_common_exists : forall a b c d, exists w, common a b c d w.
Proof. intros. eexists. apply common_is. reflexivity. Qed.
(** No box that is kept suppresses a later one, every other box is suppressed by one that is kept, and the
    first one has the highest score. *)
Theorem C138_nms : forall tn td boxes scores empty, length empty = length scores ->
  let b i := nth i boxes {| bx0 := 0; by0 := 0; bx1 := 0; by1 := 0 |} in
  let out := dec_nms tn td boxes scores empty in
  greedy (fun i j => suppressed tn td (b i) (b j)) [] (dec_argsort true scores) out /\
  (forall i j, (i < j < length out)%nat -> suppressed tn td (b (nth i out 0%nat)) (b (nth j out 0%nat)) = false) /\
  (forall i, In i out -> (i < length scores)%nat) /\
  (forall i, (i < length scores)%nat -> In i out \/ exists k, In k out /\ suppressed tn td (b k) (b i) = true).
Proof.
  intros tn td boxes scores empty L b out. pose proof (C137_argsort_permutation true scores) as P.
  assert (G : greedy (fun i j => suppressed tn td (b i) (b j)) [] (dec_argsort true scores) out).
  { apply nms_greedy. rewrite L. rewrite (Permutation.Permutation_length P), seq_length. reflexivity. }
  split; [exact G|]. split; [|split].
  - intros i j J. apply (greedy_apart _ _ _ _ G i j J).
  - intros i I0. apply (greedy_in _ _ _ _ G) in I0. destruct I0 as (I0 & _). apply (Permutation.Permutation_in _ P) in I0. apply in_seq in I0. lia.
  - intros i I0. destruct (greedy_dropped _ _ _ _ G i) as [|(k & [[]|K] & Q)]; eauto.
    apply (Permutation.Permutation_in _ (Permutation.Permutation_sym P)). apply in_seq. lia.
Qed.
Theorem C138_first_kept : forall tn td boxes scores empty x r, length empty = length scores -> dec_argsort true scores = x :: r ->
  exists out, dec_nms tn td boxes scores empty = x :: out.
Proof.
  intros tn td boxes scores empty x r L E. destruct (C138_nms tn td boxes scores empty L) as (G & _). rewrite E in G.
  inversion G as [|k0 x0 r0 o0 D G0|]; subst; [destruct D as (k & [] & _)|eauto].
Qed.

Definition ex_boxes : list box :=
  [{| bx0 := 0; by0 := 0; bx1 := 10; by1 := 10 |}; {| bx0 := 10; by0 := 10; bx1 := 1; by1 := 0 |}; {| bx0 := 20; by0 := 0; bx1 := 30; by1 := 10 |}].
Example C138_nonvacuous :
  dec_nms 1 2 ex_boxes [5; 7; 6] [9; 9; 9]%nat = [1; 2]%nat /\
  dec_nms 19 20 ex_boxes [5; 7; 6] [9; 9; 9]%nat = [1; 2; 0]%nat /\
  suppressed 1 2 (nth 0 ex_boxes (Build_box 0 0 0 0)) (nth 1 ex_boxes (Build_box 0 0 0 0)) = true /\
  suppressed 0 1 (Build_box 0 0 0 0) (Build_box 0 0 0 0) = false.
Proof. repeat split. Qed.

Print Assumptions C138_loops.
Print Assumptions C138_suppressed.
Print Assumptions C138_common_exists.
Print Assumptions C138_nms.
Print Assumptions C138_first_kept.
