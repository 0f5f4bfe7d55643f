(** C136: bucketize, argmax and argmin. *)
From Coq Require Import ZArith Bool PeanoNat Sorted Lia List.
From Verif Require Import Prelude DecBucketModel DecBucketProofs.
Import ListNotations.
Open Scope Z_scope.

(** For sorted boundaries the decomposition gives the bucket of the element, ... *)
Theorem C136_bucketize : forall right x bounds k, bounds <> [] -> StronglySorted Z.le bounds ->
  (dec_bucketize right x bounds = Some k <-> is_bucket right x bounds k).
Proof.
  intros right x bounds k N S0. destruct (bucketize_is right x bounds N S0) as (i & E & Hi). rewrite E. split.
  - intros H. injection H as <-. exact Hi.
  - intros H. f_equal. eapply bucket_unique; eauto.
Qed.
(** ... which is the only one. *)
Theorem C136_bucket_unique : forall right x bounds i k, is_bucket right x bounds i -> is_bucket right x bounds k -> i = k.
Proof. exact bucket_unique. Qed.
(** It fails exactly if there are no boundaries, although 0 is the bucket of every element then. *)
Theorem C136_bucketize_fails : forall right x bounds, dec_bucketize right x bounds = None <-> bounds = [].
Proof.
  intros right x bounds. split; [|intros ->; reflexivity]. destruct bounds as [|b bounds]; [reflexivity|]. unfold dec_bucketize.
  assert (N : b :: bounds <> []) by discriminate. destruct (exists_last N) as (front & lst & ->).
  rewrite map_app. cbn [map]. rewrite select_last_snoc. rewrite map_app. destruct (map as_f32 (map (bucket_compare right x) front)); discriminate.
Qed.
Theorem C136_no_boundaries_refuted : forall right x, dec_bucketize right x [] = None /\ is_bucket right x [] 0.
Proof. intros right x. split; [reflexivity|]. split; [cbn; lia|]. intros [|j] b; discriminate. Qed.
(** The index of the first greatest and of the first least element. *)
Theorem C136_argmax_vec : forall l i, argmax_vec l = Some i <-> first_best Z.gt l i.
Proof. exact argmax_first. Qed.
Theorem C136_argmin_vec : forall l i, argmin_vec l = Some i <-> first_best Z.lt l i.
Proof. exact argmin_first. Qed.
(** Without a dim the result is that index among all elements, and has one axis of size 1 for each of the input if
    they are kept; an input without axes is refused. *)
Theorem C136_argmax_all : forall arg keep shape data s i,
  dec_argmax_all arg keep shape data = Some (s, i) <->
  exists k sh, keep = Some k /\ shape = Some sh /\ sh <> [] /\ i = arg data /\ s = (if k then map (fun _ => 1) sh else []).
Proof.
  intros arg keep shape data s i. unfold dec_argmax_all. split.
  - destruct keep as [k|]; [|discriminate]. destruct shape as [[|n sh]|]; try discriminate. intros H. injection H as <- <-.
    exists k, (n :: sh). repeat split; try discriminate. destruct k; [|reflexivity]. cbn [repeat map]. f_equal. clear. induction sh; cbn; congruence.
  - intros (k & sh & -> & -> & N & -> & ->). destruct sh as [|n sh]; [contradiction|]. do 2 f_equal. destruct k; [|reflexivity].
    cbn [repeat map]. f_equal. clear. induction sh; cbn; congruence.
Qed.
(** The flattened input has as many elements as the input if its size is known. *)
Theorem C136_flatten_size : forall shape, ~ In (-1) shape -> flatten_size shape = prodZ shape.
Proof.
  intros shape N. unfold flatten_size. replace (forallb (fun n => negb (n =? -1)) shape) with true.
  - unfold prodZ. apply fold_symmetric; intros; lia.
  - symmetry. apply forallb_forall. intros n Hn. apply negb_true_iff, Z.eqb_neq. intros ->. contradiction.
Qed.
Theorem C136_flatten_size_unknown : forall shape, In (-1) shape -> flatten_size shape = -1.
Proof.
  intros shape N. unfold flatten_size. destruct (forallb (fun n => negb (n =? -1)) shape) eqn:F; [|reflexivity].
  rewrite forallb_forall in F. specialize (F _ N). discriminate.
Qed.

Example C136_nonvacuous :
  map (fun x => dec_bucketize false x [1; 3; 3; 7]) [0; 1; 3; 4; 9] = [Some 0; Some 0; Some 1; Some 3; Some 4] /\
  map (fun x => dec_bucketize true x [1; 3; 3; 7]) [0; 1; 3; 4; 7] = [Some 0; Some 1; Some 3; Some 3; Some 4] /\
  argmax_vec [2; 5; 1; 5] = Some 1 /\ argmin_vec [2; 1; 5; 1] = Some 1 /\
  dec_argmax_all argmax_vec (Some true) (Some [2; 2]) [2; 5; 1; 5] = Some ([1; 1], Some 1) /\
  flatten_size [2; 3] = 6 /\ flatten_size [2; -1] = -1.
Proof. repeat split. Qed.

Print Assumptions C136_bucketize.
Print Assumptions C136_bucket_unique.
Print Assumptions C136_bucketize_fails.
Print Assumptions C136_no_boundaries_refuted.
Print Assumptions C136_argmax_vec.
Print Assumptions C136_argmin_vec.
Print Assumptions C136_argmax_all.
Print Assumptions C136_flatten_size.
Print Assumptions C136_flatten_size_unknown.
