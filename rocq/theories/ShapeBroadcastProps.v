(** Properties C28 (broadcast), C29 (dimension wrapping), C30 (expand). *)
From Coq Require Import ZArith Bool Lia List.
From Verif Require Import Prelude ShapeCoreModel ShapeCoreSpec ShapeCoreProofs.
Import ListNotations.
Open Scope Z_scope.

(** ** C28 *)
Theorem C28_broadcast_is_common_shape : forall a b c, broadcast a b = Some c <-> broadcasts a b c.
Proof.
  intros a b c. rewrite broadcast_nth. unfold broadcasts. split; intros [L H]; (split; [exact L|]);
  intros k Hk; apply bc1_spec; auto.
Qed.
(** Broadcasting from the right, one size at a time. *)
Fixpoint brev (a b : list Z) : option (list Z) :=
  match a, b with
  | [], _ => Some b
  | _, [] => Some a
  | x :: a', y :: b' => do z <- bc1 x y; do r <- brev a' b'; Some (z :: r)
  end.
Lemma bc1_1l : forall y, bc1 1 y = Some y.
Proof. intros. unfold bc1. rewrite andb_false_r. reflexivity. Qed.
Lemma bc1_1r : forall y, bc1 y 1 = Some y.
Proof. intros. unfold bc1. rewrite andb_false_r. destruct (Z.eqb_spec y 1); congruence. Qed.
Lemma brev_nth : forall a b c, brev a b = Some c <->
  length c = Nat.max (length a) (length b) /\
  forall k, (k < length c)%nat -> bc1 (nth k a 1) (nth k b 1) = Some (nth k c 1).
Proof.
  induction a as [|x a IH]; intros b c.
  - simpl. split.
    + intros [= <-]. split; auto. intros k _. destruct k; apply bc1_1l.
    + intros [L H]. f_equal. apply nth_ext with (d := 1) (d' := 1); auto.
      intros k Hk. specialize (H k ltac:(lia)). destruct k; rewrite bc1_1l in H; congruence.
  - destruct b as [|y b].
    + simpl brev. split.
      * intros [= <-]. split; [simpl; lia|]. intros [|k] _; apply bc1_1r.
      * intros [L H]. f_equal. apply nth_ext with (d := 1) (d' := 1); [simpl in *; lia|].
        intros k Hk. specialize (H k ltac:(simpl in *; lia)). destruct k; simpl in H |- *; rewrite bc1_1r in H; congruence.
    + simpl brev. split.
      * destruct (bc1 x y) as [z|] eqn:E; [|discriminate]. simpl. destruct (brev a b) as [r|] eqn:E2; [|discriminate].
        simpl. intros [= <-]. apply IH in E2. destruct E2 as [L H]. split; [simpl; lia|].
        intros [|k] Hk; simpl; auto. apply H. simpl in Hk. lia.
      * intros [L H]. destruct c as [|z c]; [simpl in L; lia|].
        pose proof (H 0%nat ltac:(simpl; lia)) as H0. simpl in H0. rewrite H0. simpl.
        assert (brev a b = Some c) as ->; [|reflexivity]. apply IH. split; [simpl in L; lia|].
        intros k Hk. apply (H (S k)). simpl. lia.
Qed.
Lemma broadcast_brev : forall a b, broadcast a b = option_map (@rev Z) (brev (rev a) (rev b)).
Proof.
  assert (K : forall a b c, broadcast a b = Some c <-> brev (rev a) (rev b) = Some (rev c)).
  { intros. rewrite broadcast_nth, brev_nth, !rev_length. reflexivity. }
  intros a b. destruct (brev (rev a) (rev b)) as [r|] eqn:E; simpl.
  - apply K. now rewrite rev_involutive.
  - destruct (broadcast a b) as [c|] eqn:E2; auto. apply K in E2. congruence.
Qed.
Lemma bc1_comm : forall x y, bc1 x y = bc1 y x.
Proof.
  intros x y. unfold bc1. rewrite (Z.eqb_sym y x).
  destruct (Z.eqb_spec x y), (Z.eqb_spec x 1), (Z.eqb_spec y 1); simpl; congruence.
Qed.
Lemma bc1_assoc : forall x y z, (do v <- bc1 x y; bc1 v z) = (do v <- bc1 y z; bc1 x v).
Proof.
  intros x y z.
  destruct (Z.eq_dec x 1) as [->|Hx].
  { rewrite bc1_1l. cbn [obind]. destruct (bc1 y z); cbn [obind]; now rewrite ?bc1_1l. }
  destruct (Z.eq_dec y 1) as [->|Hy].
  { now rewrite bc1_1l, bc1_1r. }
  destruct (Z.eq_dec z 1) as [->|Hz].
  { rewrite bc1_1r. cbn [obind]. destruct (bc1 x y); cbn [obind]; now rewrite ?bc1_1r. }
  assert (N : forall u v, u <> 1 -> v <> 1 -> bc1 u v = if u =? v then Some u else None).
  { intros u v Hu Hv. unfold bc1. destruct (Z.eqb_spec u v), (Z.eqb_spec u 1), (Z.eqb_spec v 1); simpl; congruence. }
  rewrite !N by auto. destruct (Z.eqb_spec x y), (Z.eqb_spec y z); cbn [obind]; rewrite ?N by auto; subst; auto;
  repeat match goal with |- context [?u =? ?v] => destruct (Z.eqb_spec u v) end; congruence.
Qed.
Lemma brev_comm : forall a b, brev a b = brev b a.
Proof. induction a; destruct b; simpl; auto. now rewrite bc1_comm, IHa. Qed.
Lemma brev_nil_r : forall a, brev a [] = Some a.
Proof. now destruct a. Qed.
Lemma brev_assoc : forall a b c, (do v <- brev a b; brev v c) = (do v <- brev b c; brev a v).
Proof.
  induction a as [|x a IH]; intros b c.
  - simpl. now destruct (brev b c).
  - destruct b as [|y b]; [reflexivity|]. destruct c as [|z c].
    + rewrite (brev_nil_r (y :: b)). cbn [obind]. destruct (brev (x :: a) (y :: b)); cbn [obind]; [apply brev_nil_r|reflexivity].
    + simpl brev. pose proof (bc1_assoc x y z) as A. specialize (IH b c).
      destruct (bc1 x y) as [v|], (bc1 y z) as [w|], (brev a b) as [r|], (brev b c) as [r'|];
        cbn [obind brev] in *; rewrite ?A, ?IH, <- ?A, <- ?IH; cbn [obind]; auto;
        try (destruct (bc1 v z); reflexivity); try (destruct (bc1 x w); reflexivity).
      all: try rewrite IH; try rewrite A; try (destruct (bc1 v z); reflexivity); try (destruct (bc1 x w); reflexivity); reflexivity.
Qed.
Theorem C28_broadcast_commutative : forall a b, broadcast a b = broadcast b a.
Proof. intros. rewrite !broadcast_brev. now rewrite brev_comm. Qed.
Theorem C28_broadcast_associative : forall a b c,
  (do ab <- broadcast a b; broadcast ab c) = (do bc <- broadcast b c; broadcast a bc).
Proof.
  intros a b c. rewrite (broadcast_brev a b), (broadcast_brev b c).
  pose proof (brev_assoc (rev a) (rev b) (rev c)) as A.
  destruct (brev (rev a) (rev b)) as [r|]; simpl in A |- *.
  - rewrite broadcast_brev, rev_involutive, A.
    destruct (brev (rev b) (rev c)) as [r'|]; simpl; auto. now rewrite broadcast_brev, rev_involutive.
  - destruct (brev (rev b) (rev c)) as [r'|]; simpl in *; auto. now rewrite broadcast_brev, rev_involutive, <- A.
Qed.
Theorem C28_broadcast_idempotent : forall a, broadcast a a = Some a.
Proof.
  intros a. apply C28_broadcast_is_common_shape. split; [lia|]. intros k _. repeat split; auto.
Qed.
Theorem C28_broadcast_unit : forall a, broadcast [] a = Some a.
Proof. intros. rewrite broadcast_brev. simpl. now rewrite rev_involutive. Qed.
Theorem C28_broadcast_fails_on_mismatch : forall a b, broadcast a b = None <->
  exists k, rdim a k <> rdim b k /\ rdim a k <> 1 /\ rdim b k <> 1.
Proof.
  intros a b. rewrite broadcast_brev. unfold rdim. generalize (rev a) (rev b). clear a b.
  induction l as [|x a IH]; intros [|y b]; simpl.
  - split; [discriminate|]. intros ([|k] & H & H1 & H2); lia.
  - split; [discriminate|]. intros ([|k] & H & H1 & H2); lia.
  - split; [discriminate|]. intros ([|k] & H & H1 & H2); lia.
  - destruct (bc1 x y) as [z|] eqn:E; simpl.
    + specialize (IH b). destruct (brev a b) as [r|]; simpl in *.
      * split; [discriminate|]. intros ([|k] & H).
        -- exfalso. apply bc1_spec in E. unfold bcast1 in E. lia.
        -- exfalso. assert (Some (rev r) = None) by (apply IH; eauto). discriminate.
      * split; auto. intros _. destruct (proj1 IH eq_refl) as [k Hk]. now exists (S k).
    + split; auto. intros _. exists 0%nat. unfold bc1 in E.
      destruct (Z.eqb_spec x y), (Z.eqb_spec x 1), (Z.eqb_spec y 1); simpl in E; try discriminate; auto.
Qed.
(** The broadcast is the least common shape. *)
Definition expandable (a d : list Z) : Prop :=
  (length a <= length d)%nat /\ forall k, rdim a k = rdim d k \/ rdim a k = 1.
Theorem C28_broadcast_is_least : forall a b d, expandable a d -> expandable b d ->
  exists c, broadcast a b = Some c /\ expandable c d.
Proof.
  intros a b d [La Ha] [Lb Hb]. destruct (broadcast a b) as [c|] eqn:E.
  - exists c. split; auto. apply C28_broadcast_is_common_shape in E. destruct E as [L H]. split; [lia|].
    intros k. destruct (le_lt_dec (length c) k) as [Hk|Hk]; [right; apply rdim_out; lia|].
    specialize (H k Hk). destruct (Ha k), (Hb k); unfold bcast1 in H; lia.
  - apply C28_broadcast_fails_on_mismatch in E. destruct E as (k & H1 & H2 & H3).
    destruct (Ha k), (Hb k); lia.
Qed.
Theorem C28_broadcast_three_is_the_join : forall a b c, broadcast_three a b c =
  (do bc <- broadcast b c; broadcast a bc).
Proof. exact C28_broadcast_associative. Qed.
Example C28_nonvacuous : broadcast [3; 1; 5] [4; 5] = Some [3; 4; 5] /\ broadcast [2] [3] = None /\
  broadcasts [0; 1] [7] [0; 7] /\ broadcast_three [1] [2; 1] [3] = Some [2; 3].
Proof. split; [reflexivity|split; [reflexivity|split; [|reflexivity]]]. apply (C28_broadcast_is_common_shape [0; 1] [7] [0; 7]); reflexivity. Qed.

(** ** C29 *)
Theorem C29_wrapped_dim_denotes_the_axis : forall d r k,
  wrap_dim d (Z.of_nat r) = Some k <-> exists j, denotes (Nat.max r 1) d j /\ k = Z.of_nat j.
Proof.
  intros d r k. rewrite wrap_spec. cbv zeta. unfold denotes. split.
  - intros [H ->]. destruct (Z.ltb_spec d 0).
    + exists (Z.to_nat (d + Z.max (Z.of_nat r) 1)). lia.
    + exists (Z.to_nat d). lia.
  - intros (j & [H [-> | ->]] & ->); (split; [lia|]).
    + destruct (Z.ltb_spec (Z.of_nat j) 0); lia.
    + destruct (Z.ltb_spec (Z.of_nat j - Z.of_nat (Nat.max r 1)) 0); lia.
Qed.
Theorem C29_rejects_out_of_range : forall d r,
  wrap_dim d r = None <-> ~ (- Z.max r 1 <= d < Z.max r 1).
Proof.
  intros d r. destruct (wrap_dim d r) as [k|] eqn:E.
  - apply wrap_spec in E. cbv zeta in E. split; [discriminate|lia].
  - split; auto. intros _ H. assert (wrap_dim d r = Some (if d <? 0 then d + Z.max r 1 else d)) by (apply wrap_spec; auto).
    congruence.
Qed.
Example C29_nonvacuous : wrap_dim (-1) 3 = Some 2 /\ wrap_dim 3 3 = None /\ wrap_dim (-1) 0 = Some 0 /\
  denotes 3 (-1) 2.
Proof. split; [reflexivity|split; [reflexivity|split; [reflexivity|]]]. unfold denotes. lia. Qed.

(** ** C30 *)
Lemma nth_rev : forall (s : list Z) k, (k < length s)%nat ->
  nth_error (rev s) k = nth_error s (length s - 1 - k).
Proof.
  intros s k H. rewrite (nth_error_nth' _ 1) by (rewrite rev_length; auto).
  rewrite rev_nth by auto. rewrite (nth_error_nth' s 1) by lia. do 2 f_equal. lia.
Qed.
Lemma size_rev : forall s k, size_or_one s (zlen s - 1 - Z.of_nat k) =
  Some (match nth_error (rev s) k with Some x => x | None => 1 end).
Proof.
  intros. rewrite size_rdim. unfold rdim. destruct (nth_error (rev s) k) as [x|] eqn:E.
  - f_equal. now apply nth_error_nth.
  - f_equal. apply nth_overflow. now apply nth_error_None.
Qed.
Definition exp1 (x : option Z) (t : Z) : option Z :=
  let size := match x with Some v => v | None => 1 end in
  do t <- (if t =? -1 then match x with None => None | _ => Some size end else Some t);
  if negb (size =? t) then if negb (size =? 1) then None else Some t else Some size.
Lemma exp1_spec : forall x t o, exp1 x t = Some o <-> expands1 x t o.
Proof.
  intros x t o. unfold exp1. split.
  - destruct (Z.eqb_spec t (-1)).
    + destruct x as [v|]; [|discriminate]. simpl. rewrite Z.eqb_refl. simpl. intros [= <-]. subst. constructor.
    + simpl. destruct x as [v|]; destruct (Z.eqb_spec v t) || destruct (Z.eqb_spec 1 t); simpl.
      * intros [= <-]. subst. now constructor.
      * destruct (Z.eqb_spec v 1); simpl; [|discriminate]. intros [= <-]. subst. now constructor.
      * intros [= <-]. subst. now constructor.
      * intros [= <-]. now constructor.
  - intros H. destruct H as [v|v H|u H|u H].
    + simpl. rewrite Z.eqb_refl. reflexivity.
    + destruct (Z.eqb_spec v (-1)); [congruence|]. simpl. rewrite Z.eqb_refl. reflexivity.
    + destruct (Z.eqb_spec u (-1)); [congruence|]. cbn [obind]. destruct (Z.eqb_spec 1 u); cbn; congruence.
    + destruct (Z.eqb_spec u (-1)); [congruence|]. cbn [obind]. destruct (Z.eqb_spec 1 u); cbn; congruence.
Qed.
Theorem C30_expand_gives_requested_size : forall s req out,
  expand s req = Some out <-> expands_to s req out.
Proof.
  intros s req out. unfold expand, expands_to. destruct (Z.ltb_spec (zlen req) (zlen s)) as [H0|H0].
  { split; [discriminate|]. unfold zlen in H0. intros [H _]. lia. }
  destruct (Z.eqb_spec (zlen req) 0) as [H1|H1].
  { rewrite unary_spec. destruct req; [|unfold zlen in H1; simpl in H1; lia]. split.
    - intros [= <-]. unfold zlen in H0. split; [simpl in *; lia|split; auto]. intros [|k]; discriminate.
    - intros (_ & L & _). destruct out; [reflexivity|discriminate]. }
  rewrite mapM_range_nth by apply zlen_nonneg. unfold zlen in H0. set (n := zlen req).
  assert (F : forall i t, 0 <= i < n -> pyidx req i = Some t ->
    (let off := n - 1 - i in let dim := zlen s - 1 - off in
     do size <- size_or_one s dim;
     do target <- pyidx req i;
     do target <- (if target =? -1 then if dim <? 0 then None else Some size else Some target);
     if negb (size =? target) then if negb (size =? 1) then None else Some target else Some size)
    = exp1 (nth_error (rev s) (Z.to_nat (n - 1 - i))) t).
  { intros i t Hi Ht. cbv zeta. pose (k := Z.to_nat (n - 1 - i)).
    replace (zlen s - 1 - (n - 1 - i)) with (zlen s - 1 - Z.of_nat k) by lia.
    fold k. rewrite size_rev, Ht. unfold exp1. cbn [obind].
    assert (E : (zlen s - 1 - Z.of_nat k <? 0) = match nth_error (rev s) k with None => true | _ => false end).
    { destruct (nth_error (rev s) k) eqn:E.
      - assert (k < length (rev s))%nat by (apply nth_error_Some; congruence). rewrite rev_length in *.
        unfold zlen. destruct (Z.ltb_spec (Z.of_nat (length s) - 1 - Z.of_nat k) 0); [lia|reflexivity].
      - apply nth_error_None in E. rewrite rev_length in E. unfold zlen.
        destruct (Z.ltb_spec (Z.of_nat (length s) - 1 - Z.of_nat k) 0); [reflexivity|lia]. }
    rewrite E. destruct (nth_error (rev s) k); reflexivity. }
  cbv zeta in F. unfold zlen at 1. assert (Hn : n = Z.of_nat (length req)) by reflexivity. split.
  - intros [L H]. split; [lia|]. split; [lia|]. intros k t o Ht Ho. apply exp1_spec.
    assert (Hk : (k < length (rev out))%nat) by (apply nth_error_Some; congruence). rewrite rev_length in Hk.
    rewrite nth_rev in Ho, Ht by lia. specialize (H (length out - 1 - k)%nat ltac:(lia)).
    cbv zeta in H. rewrite Ho in H. rewrite <- H. rewrite (F _ t).
    + do 2 f_equal. lia.
    + lia.
    + rewrite pyidx_nat. rewrite <- Ht. f_equal. lia.
  - intros (L1 & L2 & H). split; [lia|]. intros k Hk.
    destruct (nth_error req k) as [t|] eqn:Et; [|apply nth_error_None in Et; lia].
    destruct (nth_error out k) as [o|] eqn:Eo; [|apply nth_error_None in Eo; lia].
    cbv zeta. rewrite (F _ t); [|lia|now rewrite pyidx_nat]. apply exp1_spec.
    replace (Z.to_nat (n - 1 - Z.of_nat k)) with (length req - 1 - k)%nat by lia.
    apply H.
    + rewrite nth_rev by lia. rewrite <- Et. f_equal. lia.
    + rewrite nth_rev by lia. rewrite <- Eo. f_equal. lia.
Qed.
(** What it means when no request is negative other than -1. *)
Theorem C30_expanded_sizes_are_sizes : forall s req out, expand s req = Some out ->
  Forall (fun x => 0 <= x) s -> Forall (fun t => -1 <= t) req -> Forall (fun x => 0 <= x) out.
Proof.
  intros s req out H Hs Hr. apply C30_expand_gives_requested_size in H. destruct H as (L1 & L2 & H).
  apply Forall_rev in Hs, Hr. rewrite <- (rev_involutive out). apply Forall_rev.
  apply Forall_forall. intros o Ho. apply In_nth_error in Ho. destruct Ho as [k Hk].
  assert (k < length (rev out))%nat by (apply nth_error_Some; congruence). rewrite rev_length in *.
  destruct (nth_error (rev req) k) as [t|] eqn:Et; [|apply nth_error_None in Et; rewrite rev_length in Et; lia].
  specialize (H k t o Et Hk). rewrite Forall_forall in Hs, Hr.
  assert (-1 <= t) by (apply Hr; eapply nth_error_In; eauto).
  assert (forall x, nth_error (rev s) k = Some x -> 0 <= x) by (intros; apply Hs; eapply nth_error_In; eauto).
  inversion H; subst; try lia; apply H2; congruence.
Qed.
(** Requests below -1 are not rejected. *)
Theorem C30_negative_request_refuted : exists s req out, Forall (fun x => 0 <= x) s /\
  expand s req = Some out /\ ~ Forall (fun x => 0 <= x) out.
Proof.
  exists [1], [-2], [-2]. split; [repeat constructor; lia|]. split; [reflexivity|].
  intros H. inversion H; subst. lia.
Qed.
Example C30_nonvacuous : expand [1; 4] [2; 3; -1] = Some [2; 3; 4] /\ expand [2] [3] = None /\
  expand [2] [-1; 2] = None /\ expands_to [1; 4] [2; 3; -1] [2; 3; 4].
Proof. split; [reflexivity|split; [reflexivity|split; [reflexivity|]]]. apply (C30_expand_gives_requested_size [1; 4] [2; 3; -1]); reflexivity. Qed.

Print Assumptions C28_broadcast_is_common_shape.
Print Assumptions C28_broadcast_associative.
Print Assumptions C28_broadcast_fails_on_mismatch.
Print Assumptions C28_broadcast_is_least.
Print Assumptions C29_wrapped_dim_denotes_the_axis.
Print Assumptions C29_rejects_out_of_range.
Print Assumptions C30_expand_gives_requested_size.
Print Assumptions C30_expanded_sizes_are_sizes.
