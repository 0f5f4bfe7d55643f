(** Proofs about DecBucketModel.v. *)
From Coq Require Import ZArith Bool PeanoNat Sorted Lia List.
From Verif Require Import Prelude DecBucketModel.
Import ListNotations.
Open Scope Z_scope.

(** [i] is the first index of an element that no other one is better than. *)
Definition first_best (better : Z -> Z -> Prop) (l : list Z) (i : Z) : Prop :=
  0 <= i /\ exists m, nth_error l (Z.to_nat i) = Some m /\ (forall x, In x l -> ~ better x m) /\
    (forall j y, (j < Z.to_nat i)%nat -> nth_error l j = Some y -> better m y).

Lemma first_best_unique : forall (better : Z -> Z -> Prop) l i j, first_best better l i -> first_best better l j -> i = j.
Proof.
  intros better l i j (Pi & m & Mi & Bi & Fi) (Pj & n & Nj & Bj & Fj).
  destruct (Z.lt_trichotomy i j) as [L|[L|L]]; auto; exfalso.
  - apply (Bi n (nth_error_In _ _ Nj)). apply (Fj (Z.to_nat i)); [lia|assumption].
  - apply (Bj m (nth_error_In _ _ Mi)). apply (Fi (Z.to_nat j)); [lia|assumption].
Qed.

Section Loop.
Variable better : Z -> Z -> bool.
Hypothesis irrefl : forall x, better x x = false.
Hypothesis trans : forall x y z, better x y = true -> better y z = true -> better x z = true.
Hypothesis total : forall x y z, better x y = false -> better z y = true -> better z x = true.
Let B x y := better x y = true.

Lemma first_best_snoc_new : forall l i m x, first_best B l i -> nth_error l (Z.to_nat i) = Some m -> better x m = true ->
  first_best B (l ++ [x]) (Z.of_nat (length l)).
Proof.
  intros l i m x (P & m' & M & Hb & F) E X. rewrite E in M. injection M as <-. split; [lia|]. exists x. rewrite Nat2Z.id. split; [|split].
  - rewrite nth_error_app2, Nat.sub_diag by lia. reflexivity.
  - intros y Hy. unfold B. apply in_app_or in Hy. destruct Hy as [Hy|[<-|[]]]; [|rewrite irrefl; discriminate].
    intros Y. apply (Hb y Hy). unfold B. now apply trans with x.
  - intros j y J Y. rewrite nth_error_app1 in Y by assumption. unfold B. apply total with m; [|assumption].
    destruct (better y m) eqn:Q; [|reflexivity]. exfalso. apply (Hb y); [eapply nth_error_In; eauto|exact Q].
Qed.
Lemma first_best_snoc_old : forall l i m x, first_best B l i -> nth_error l (Z.to_nat i) = Some m -> better x m = false ->
  first_best B (l ++ [x]) i.
Proof.
  intros l i m x (P & m' & M & Hb & F) E X. rewrite E in M. injection M as <-.
  assert (L : (Z.to_nat i < length l)%nat) by (apply nth_error_Some; congruence).
  split; [assumption|]. exists m. split; [|split].
  - now rewrite nth_error_app1.
  - intros y Hy. apply in_app_or in Hy. destruct Hy as [Hy|[<-|[]]]; [auto|unfold B; congruence].
  - intros j y J Y. rewrite nth_error_app1 in Y by lia. eauto.
Qed.
Lemma arg_loop_first : forall l pre best besti, first_best B pre besti -> nth_error pre (Z.to_nat besti) = Some best ->
  first_best B (pre ++ l) (arg_loop better best besti (Z.of_nat (length pre)) l).
Proof.
  induction l as [|x l IH]; intros pre best besti F E; cbn [arg_loop]; [now rewrite app_nil_r|].
  replace (pre ++ x :: l) with ((pre ++ [x]) ++ l) by (rewrite <- app_assoc; reflexivity).
  replace (Z.of_nat (length pre) + 1) with (Z.of_nat (length (pre ++ [x]))) by (rewrite app_length; cbn; lia).
  destruct (better x best) eqn:Q; apply IH.
  - eapply first_best_snoc_new; eauto.
  - rewrite Nat2Z.id, nth_error_app2, Nat.sub_diag by lia. reflexivity.
  - eapply first_best_snoc_old; eauto.
  - rewrite nth_error_app1; [assumption|]. apply nth_error_Some. congruence.
Qed.
Lemma arg_vec_first : forall l i, arg_vec better l = Some i <-> first_best B l i.
Proof.
  assert (X : forall l i, arg_vec better l = Some i -> first_best B l i).
  { intros [|x l] i H; [discriminate|]. cbn [arg_vec] in H. injection H as <-. apply (arg_loop_first l [x]); [|reflexivity].
    split; [lia|]. exists x. split; [reflexivity|]. split.
    - intros y [<-|[]]. unfold B. rewrite irrefl. discriminate.
    - intros j y J. cbn in J. lia. }
  intros l i. split; [apply X|]. intros F. destruct (arg_vec better l) as [k|] eqn:Q.
  - f_equal. eapply first_best_unique; eauto.
  - destruct l; [|discriminate]. destruct F as (_ & m & M & _). destruct (Z.to_nat i); discriminate.
Qed.
End Loop.

Lemma argmax_first : forall l i, argmax_vec l = Some i <-> first_best Z.gt l i.
Proof.
  intros l i. unfold argmax_vec. rewrite arg_vec_first.
  - unfold first_best. split; intros (P & m & M & Hb & F); (split; [assumption|]); exists m; (split; [assumption|]); split.
    + intros x Hx. specialize (Hb x Hx). cbn in Hb. rewrite Z.ltb_lt in Hb. lia.
    + intros j y J Y. specialize (F j y J Y). cbn in F. rewrite Z.ltb_lt in F. lia.
    + intros x Hx. specialize (Hb x Hx). cbn. rewrite Z.ltb_lt. lia.
    + intros j y J Y. specialize (F j y J Y). cbn. rewrite Z.ltb_lt. lia.
  - intros x. apply Z.ltb_irrefl.
  - intros x y z. rewrite !Z.ltb_lt. lia.
  - intros x y z. rewrite !Z.ltb_lt, Z.ltb_ge. lia.
Qed.
Lemma argmin_first : forall l i, argmin_vec l = Some i <-> first_best Z.lt l i.
Proof.
  intros l i. unfold argmin_vec. rewrite arg_vec_first.
  - unfold first_best. split; intros (P & m & M & Hb & F); (split; [assumption|]); exists m; (split; [assumption|]); split.
    + intros x Hx. specialize (Hb x Hx). cbn in Hb. rewrite Z.ltb_lt in Hb. lia.
    + intros j y J Y. specialize (F j y J Y). cbn in F. rewrite Z.ltb_lt in F. lia.
    + intros x Hx. specialize (Hb x Hx). cbn. rewrite Z.ltb_lt. lia.
    + intros j y J Y. specialize (F j y J Y). cbn. rewrite Z.ltb_lt. lia.
  - intros x. apply Z.ltb_irrefl.
  - intros x y z. rewrite !Z.ltb_lt. lia.
  - intros x y z. rewrite !Z.ltb_lt, Z.ltb_ge. lia.
Qed.

(** The bucket of [x]: every boundary before it is below [x] and every one from it on is not (with [right], a boundary
    that equals [x] is below it). *)
Definition below (right : bool) (b x : Z) : Prop := if right then b <= x else b < x.
Definition is_bucket (right : bool) (x : Z) (bounds : list Z) (k : Z) : Prop :=
  0 <= k <= Z.of_nat (length bounds) /\
  (forall j b, nth_error bounds j = Some b -> (below right b x <-> Z.of_nat j < k)).

Lemma compare_below : forall right x b, bucket_compare right x b = false <-> below right b x.
Proof. intros [] x b; unfold bucket_compare, below; [rewrite Z.ltb_ge|rewrite Z.leb_gt]; lia. Qed.
Lemma bucket_unique : forall right x bounds i k, is_bucket right x bounds i -> is_bucket right x bounds k -> i = k.
Proof.
  intros right x bounds i k (Ri & Hi) (Rk & Hk).
  assert (X : forall a c, 0 <= a -> c <= Z.of_nat (length bounds) -> (forall j b, nth_error bounds j = Some b -> (below right b x <-> Z.of_nat j < a)) ->
    (forall j b, nth_error bounds j = Some b -> (below right b x <-> Z.of_nat j < c)) -> ~ a < c).
  { intros a c A C Ha Hc L. destruct (nth_error bounds (Z.to_nat a)) as [b|] eqn:Q.
    - destruct (Ha _ _ Q) as [Q1 _], (Hc _ _ Q) as [_ Q2]. specialize (Q2 ltac:(lia)). specialize (Q1 Q2). lia.
    - apply nth_error_None in Q. lia. }
  pose proof (X i k ltac:(lia) ltac:(lia) Hi Hk). pose proof (X k i ltac:(lia) ltac:(lia) Hk Hi). lia.
Qed.
Lemma sorted_nth : forall l i j a b, StronglySorted Z.le l -> nth_error l i = Some a -> nth_error l j = Some b -> (i <= j)%nat -> a <= b.
Proof.
  intros l i j a b S0. revert i j. induction S0 as [|x l S0 IH F]; intros [|i] [|j] A C L; cbn in A, C; try discriminate; try lia.
  - congruence || (assert (a = b) by congruence; lia).
  - injection A as <-. rewrite Forall_forall in F. apply F. eapply nth_error_In; eauto.
  - apply (IH i j); auto. lia.
Qed.
Lemma below_mono : forall right a b x, a <= b -> below right b x -> below right a x.
Proof. intros [] a b x H; unfold below; lia. Qed.
Lemma select_last_snoc : forall (l : list bool) b, select_last (l ++ [b]) = Some b.
Proof. intros l b. unfold select_last. rewrite rev_app_distr. reflexivity. Qed.
Lemma bucketize_is : forall right x bounds, bounds <> [] -> StronglySorted Z.le bounds ->
  exists k, dec_bucketize right x bounds = Some k /\ is_bucket right x bounds k.
Proof.
  intros right x bounds N S0. unfold dec_bucketize.
  destruct (exists_last N) as (front & lst & E).
  assert (W : select_last (map (bucket_compare right x) bounds) = Some (bucket_compare right x lst)).
  { rewrite E, map_app. apply select_last_snoc. }
  destruct (argmax_vec (map as_f32 (map (bucket_compare right x) bounds))) as [i|] eqn:A.
  2:{ destruct bounds; [contradiction|discriminate]. }
  rewrite W. eexists. split; [reflexivity|].
  assert (Ll : nth_error bounds (length bounds - 1) = Some lst).
  { rewrite E, app_length. cbn [length]. rewrite nth_error_app2 by lia. replace (length front + 1 - 1 - length front)%nat with 0%nat by lia. reflexivity. }
  assert (Nb : forall j b, nth_error bounds j = Some b -> (j < length bounds)%nat) by (intros j b H; apply nth_error_Some; congruence).
  destruct (bucket_compare right x lst) eqn:C.
  - apply argmax_first in A. destruct A as (P & m & M & Hb & F). rewrite map_map in *.
    assert (M1 : m = 1).
    { specialize (Hb 1). destruct (nth_error bounds (Z.to_nat i)) as [b|] eqn:Q.
      - rewrite (map_nth_error _ _ _ Q) in M. injection M as <-.
        assert (I1 : In 1 (map (fun x0 => as_f32 (bucket_compare right x x0)) bounds)).
        { apply in_map_iff. exists lst. rewrite C. split; [reflexivity|eapply nth_error_In; eauto]. }
        specialize (Hb I1). unfold as_f32 in *. destruct (bucket_compare right x b); lia.
      - apply nth_error_None in Q. assert (nth_error (map (fun x0 => as_f32 (bucket_compare right x x0)) bounds) (Z.to_nat i) <> None) as Q' by congruence.
        apply nth_error_Some in Q'. rewrite map_length in Q'. lia. }
    subst m. destruct (nth_error bounds (Z.to_nat i)) as [bi|] eqn:Q.
    2:{ apply nth_error_None in Q. assert (nth_error (map (fun x0 => as_f32 (bucket_compare right x x0)) bounds) (Z.to_nat i) <> None) as Q' by congruence.
        apply nth_error_Some in Q'. rewrite map_length in Q'. lia. }
    pose proof (Nb _ _ Q) as Qi. split; [lia|]. intros j b Hj. split.
    + intros Hbel. destruct (Z.lt_ge_cases (Z.of_nat j) i) as [|G]; [assumption|]. exfalso.
      assert (bi <= b) by (eapply sorted_nth; eauto; lia).
      assert (below right bi x) as Bi by (eapply below_mono; eauto). apply compare_below in Bi.
      rewrite (map_nth_error _ _ _ Q) in M. rewrite Bi in M. discriminate.
    + intros L. specialize (F j (as_f32 (bucket_compare right x b)) ltac:(lia)). rewrite (map_nth_error _ _ _ Hj) in F. specialize (F eq_refl).
      apply compare_below. unfold as_f32 in F. destruct (bucket_compare right x b); [lia|reflexivity].
  - split; [lia|]. intros j b Hj. pose proof (Nb _ _ Hj) as J. split; [lia|]. intros _. apply compare_below in C.
    eapply below_mono; [|exact C]. eapply sorted_nth; eauto. lia.
Qed.
