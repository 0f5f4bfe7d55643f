(** Proofs about DecIndexModel.v. *)
From Coq Require Import ZArith Bool PeanoNat Permutation Lia List.
From Verif Require Import Prelude TensorOps NumOps DecMoveProofs DecFillModel DecFillProofs DecIndexModel DecIndexSpec.
Import ListNotations.
Open Scope Z_scope.

(** * The new indices *)
Lemma remove_firstn : forall k (ix : list Z), (k < length ix)%nat -> remove k (firstn (S k) ix) = firstn k ix.
Proof. induction k as [|k IH]; intros [|i ix] H; cbn [length] in H; try lia; [reflexivity|]. cbn [firstn remove]. f_equal. rewrite <- (IH ix) by lia. reflexivity. Qed.
Lemma unsqueeze_trailing_is : forall count t, exists u, unsqueeze_trailing t count = Some u /\ sizes u = sizes t ++ repeat 1 count /\
  forall ix, length ix = length (sizes u) -> elt u ix = elt t (firstn (length (sizes t)) ix).
Proof.
  induction count as [|count IH]; intros t; cbn [unsqueeze_trailing repeat].
  - exists t. split; [reflexivity|]. split; [now rewrite app_nil_r|]. intros ix L. now rewrite <- L, firstn_all.
  - unfold unsqueeze. assert (Ax : axis (rank t + 1) (-1) = Some (length (sizes t))).
    { unfold axis, rank, zlen. destruct (Z.leb_spec (- (Z.of_nat (length (sizes t)) + 1)) (-1)), (Z.ltb_spec (-1) (Z.of_nat (length (sizes t)) + 1)); try lia. cbn [andb].
      change (-1 <? 0) with true. cbv iota. f_equal. lia. }
    rewrite Ax. cbn [obind]. rewrite insert_end.
    destruct (IH (reindex (sizes t ++ [1]) (remove (length (sizes t))) t)) as (u & E & S0 & G). exists u. split; [exact E|].
    cbn [sizes reindex] in S0, G. split; [rewrite S0, <- app_assoc; reflexivity|]. intros ix L. rewrite G by exact L. cbn [elt reindex].
    rewrite app_length. cbn [length]. rewrite Nat.add_1_r. f_equal. apply remove_firstn. rewrite L, S0, !app_length. cbn [length]. lia.
Qed.
Lemma from_length : forall s ix, length ix = length s -> length (from s ix) = length s.
Proof. induction s as [|n s IH]; intros [|i ix] H; cbn in *; try lia. f_equal. apply IH. lia. Qed.
Lemma from_both : forall s r y z, length y = length s -> from (s ++ r) (y ++ z) = from s y ++ from r z.
Proof. induction s as [|n s IH]; intros r [|i y] z H; cbn in *; try lia; [reflexivity|]. f_equal. apply IH. lia. Qed.
Lemma at_trailing : forall t u count y z, unsqueeze_trailing t count = Some u -> (length (sizes t) <= length y)%nat -> length z = count ->
  at_broadcast u (y ++ z) = at_broadcast t y.
Proof.
  intros t u count y z E L Lz. destruct (unsqueeze_trailing_is count t) as (u' & E' & S0 & G). rewrite E in E'. injection E' as <-.
  unfold at_broadcast. rewrite S0, !app_length, repeat_length, Lz.
  replace (length y + count - (length (sizes t) + count))%nat with (length y - length (sizes t))%nat by lia.
  rewrite skipn_app. replace (length y - length (sizes t) - length y)%nat with O by lia. cbn [skipn].
  assert (Ly : length (skipn (length y - length (sizes t)) y) = length (sizes t)) by (rewrite skipn_length; lia).
  rewrite from_both by exact Ly. assert (Lf := from_length (sizes t) _ Ly). assert (Lr : length (from (repeat 1 count) z) = count).
  { rewrite from_length; rewrite repeat_length; auto. }
  rewrite G by (rewrite S0, !app_length, Lf, Lr, repeat_length; reflexivity).
  rewrite firstn_app, Lf, Nat.sub_diag. cbn [firstn]. rewrite app_nil_r. rewrite <- Lf at 1. now rewrite firstn_all.
Qed.
Lemma at_suffix : forall (t : tensor Z) x y, (length (sizes t) <= length y)%nat -> at_broadcast t (x ++ y) = at_broadcast t y.
Proof.
  intros t x y L. unfold at_broadcast. rewrite app_length, skipn_app.
  rewrite skipn_all2 by lia. replace (length x + length y - length (sizes t) - length x)%nat with (length y - length (sizes t))%nat by lia. reflexivity.
Qed.
Lemma at_arange : forall n v x i, arange n = Some v -> 0 <= i < n -> at_broadcast v (x ++ [i]) = i.
Proof.
  intros n v x i E B. unfold arange in E. destruct (n <? 0); [discriminate|]. injection E as <-. rewrite at_suffix by (cbn; lia).
  unfold at_broadcast. cbn. unfold get. cbn. destruct (Z.eqb_spec n 1); lia.
Qed.
Lemma arange_some : forall n, 0 <= n -> exists v, arange n = Some v /\ sizes v = [n].
Proof. intros n H. unfold arange. destruct (Z.ltb_spec n 0); [lia|]. eexists. split; reflexivity. Qed.
(** The slots of axes that are not indexed, and of axes that are. *)
Definition nones (ns : list Z) : list slot := map (fun n => (n, None)) ns.
Definition useds (us : list (Z * tensor Z)) : list slot := map (fun p => (fst p, Some (snd p))) us.
Lemma leading_values : forall m ns cnt rx w, within ns rx -> length w = (cnt + m)%nat ->
  exists L, leading m cnt (nones ns) = Some L /\ map (fun u => at_broadcast u (rev rx ++ w)) L = rx.
Proof.
  intros m ns cnt rx w W. revert cnt w. induction W as [|n i ns rx B W IH]; intros cnt w Lw; cbn [nones map leading].
  - exists []. split; reflexivity.
  - destruct (arange_some n ltac:(lia)) as (v & Ev & Sv). rewrite Ev. cbn [obind].
    destruct (unsqueeze_trailing_is (cnt + m) v) as (u & Eu & _). rewrite Eu. cbn [obind].
    destruct (IH (S cnt) (i :: w)) as (L & EL & VL); [cbn; lia|]. fold (nones ns). rewrite EL. cbn [obind]. eexists. split; [reflexivity|].
    cbn [map rev]. f_equal.
    + rewrite (at_trailing v u (cnt + m)); auto; [now apply at_arange with (n := n)|]. rewrite Sv, app_length. cbn. lia.
    + etransitivity; [|exact VL]. apply map_ext. intros t. now rewrite <- app_assoc.
Qed.
Lemma between_values : forall m us ns cnt rx y z, within ns rx -> length y = m -> length z = cnt ->
  Forall (fun p => (length (sizes (snd p)) <= m)%nat) us ->
  exists L, between m cnt (useds us ++ nones ns) = Some L /\
    map (fun u => at_broadcast u (rev rx ++ y ++ z)) L = map (fun p => at_broadcast (snd p) y) us ++ rx.
Proof.
  intros m us ns cnt rx y z W Ly Lz F. induction F as [|[n t] us H F IH]; cbn [useds map app fst snd].
  - destruct (leading_values m ns cnt rx (y ++ z) W) as (L & E & V); [rewrite app_length; lia|].
    exists L. split; [|exact V]. destruct ns as [|n ns]; exact E.
  - cbn [between]. destruct (unsqueeze_trailing_is cnt t) as (u & Eu & _). rewrite Eu. cbn [obind].
    destruct IH as (L & E & V). fold (useds us). rewrite E. cbn [obind]. eexists. split; [reflexivity|]. cbn [map]. f_equal; [|exact V].
    cbn [snd] in H. rewrite app_assoc, (at_trailing t u cnt); auto; [|rewrite app_length; lia]. apply at_suffix. lia.
Qed.
Lemma trailing_values : forall m us ns zs cnt rx y rz w, us <> [] \/ ns = [] -> within ns rx -> within zs rz -> length y = m -> length w = cnt ->
  Forall (fun p => (length (sizes (snd p)) <= m)%nat) us ->
  exists L, trailing m cnt (nones zs ++ useds us ++ nones ns) = Some L /\
    map (fun u => at_broadcast u (rev rx ++ y ++ rev rz ++ w)) L = rz ++ map (fun p => at_broadcast (snd p) y) us ++ rx.
Proof.
  intros m us ns zs cnt rx y rz w Ne Wx Wz Ly Lw F. revert cnt w Lw. induction Wz as [|n i zs rz B Wz IH]; intros cnt w Lw.
  - destruct (between_values m us ns cnt rx y w Wx Ly Lw F) as (L & E & V). cbn [nones map app rev]. exists L. split; [|exact V].
    destruct us as [|[n t] us]; [|exact E]. destruct Ne as [Ne| ->]; [contradiction|]. exact E.
  - cbn [nones map app trailing]. destruct (arange_some n ltac:(lia)) as (v & Ev & Sv). rewrite Ev. cbn [obind].
    destruct (unsqueeze_trailing_is cnt v) as (u & Eu & _). rewrite Eu. cbn [obind].
    destruct (IH (S cnt) (i :: w)) as (L & EL & VL); [cbn; lia|]. fold (nones zs). rewrite EL. cbn [obind]. eexists. split; [reflexivity|].
    cbn [map rev]. f_equal.
    + replace (rev rx ++ y ++ (rev rz ++ [i]) ++ w) with ((rev rx ++ y ++ rev rz ++ [i]) ++ w) by (rewrite <- !app_assoc; reflexivity).
      rewrite (at_trailing v u cnt); auto; [|rewrite Sv, !app_length; cbn; lia].
      replace (rev rx ++ y ++ rev rz ++ [i]) with ((rev rx ++ y ++ rev rz) ++ [i]) by (rewrite <- !app_assoc; reflexivity).
      now apply at_arange with (n := n).
    + etransitivity; [|exact VL]. apply map_ext. intros t. now rewrite <- app_assoc.
Qed.
Lemma max_rank_app : forall a b, max_rank (a ++ b) = Nat.max (max_rank a) (max_rank b).
Proof. induction a as [|[n [t|]] a IH]; intros b; cbn [app max_rank fold_right snd]; [reflexivity| |apply IH]. fold (max_rank (a ++ b)). rewrite IH. fold (max_rank a). lia. Qed.
Lemma max_rank_nones : forall ns, max_rank (nones ns) = O.
Proof. induction ns; cbn; auto. Qed.
Lemma max_rank_useds : forall us, Forall (fun p => (length (sizes (snd p)) <= max_rank (useds us))%nat) us.
Proof.
  induction us as [|[n t] us IH]; constructor; cbn [useds map max_rank fold_right snd fst]; [lia|].
  eapply Forall_impl; [|exact IH]. cbn beta. intros p H. unfold max_rank in H. unfold useds in *. lia.
Qed.
Lemma within_reverse : forall s ix, within s ix -> within (rev s) (rev ix).
Proof. intros s ix W. induction W as [|n i s ix B W IH]; cbn [rev]; [constructor|]. apply Forall2_app; [exact IH|]. constructor; [exact B|constructor]. Qed.
Lemma new_indices_values : forall ls us zs x y z, us <> [] \/ ls = [] -> within ls x -> within zs z -> length y = max_rank (useds us) ->
  exists L, create_new_indices (nones ls ++ useds us ++ nones zs) = Some L /\
    map (fun u => at_broadcast u (x ++ y ++ z)) L = x ++ map (fun p => at_broadcast (snd p) y) us ++ z.
Proof.
  intros ls us zs x y z Ne Wx Wz Ly. unfold create_new_indices.
  rewrite !max_rank_app, !max_rank_nones, Nat.max_0_r. cbn [Nat.max].
  destruct (trailing_values (max_rank (useds us)) (rev us) (rev ls) (rev zs) 0 (rev x) y (rev z) []) as (L & E & V); auto using within_reverse.
  - destruct Ne as [Ne| ->]; [left|auto]. intros X. apply Ne. rewrite <- (rev_involutive us), X. reflexivity.
  - apply Forall_rev, max_rank_useds.
  - assert (Er : rev (nones ls ++ useds us ++ nones zs) = nones (rev zs) ++ useds (rev us) ++ nones (rev ls)).
    { rewrite !rev_app_distr. unfold nones, useds. rewrite <- !map_rev, <- app_assoc. reflexivity. }
    rewrite Er, E. cbn [option_map]. eexists. split; [reflexivity|]. rewrite map_rev.
    rewrite !rev_involutive, app_nil_r in V. rewrite V, !rev_app_distr, !rev_involutive, <- map_rev, rev_involutive, <- app_assoc. reflexivity.
Qed.
Lemma leading_refuses : forall m slots cnt, (exists s, In s slots /\ is_used s = true) -> leading m cnt slots = None.
Proof.
  intros m. induction slots as [|[n [t|]] slots IH]; intros cnt (s & H & U); [destruct H|reflexivity|]. cbn [leading].
  destruct (arange n); cbn [obind]; [|reflexivity]. destruct (unsqueeze_trailing t (cnt + m)); cbn [obind]; [|reflexivity].
  rewrite IH; [reflexivity|]. destruct H as [<-|H]; [discriminate|]. eauto.
Qed.

(** * Gaps and the permutation *)
Lemma all_false : forall l : list bool, (forall x, In x l -> x = false) -> l = repeat false (length l).
Proof. induction l as [|x l IH]; intros H; cbn; [reflexivity|]. rewrite (H x) by (left; reflexivity). f_equal. apply IH. intros y Y. apply H. now right. Qed.
Lemma no_gap_after : forall l, no_gap true false l = true <-> exists c, l = repeat false c.
Proof.
  induction l as [|[|] l IH]; cbn [no_gap andb negb].
  - split; [exists O; reflexivity|reflexivity].
  - split; [discriminate|]. intros [[|c] H]; discriminate.
  - rewrite IH. split; [intros [c ->]; exists (S c); reflexivity|]. intros [[|c] H]; [discriminate|]. injection H as ->. eauto.
Qed.
Lemma no_gap_inside : forall l, no_gap true true l = true <-> exists b c, l = repeat true b ++ repeat false c.
Proof.
  induction l as [|[|] l IH]; cbn [no_gap andb negb].
  - split; [exists O, O; reflexivity|reflexivity].
  - rewrite IH. split; [intros (b & c & ->); exists (S b), c; reflexivity|]. intros ([|b] & c & H); [destruct c; discriminate|]. injection H as ->. eauto.
  - rewrite no_gap_after. split; [intros (c & ->); exists O, (S c); reflexivity|]. intros ([|b] & c & H); [|discriminate]. destruct c; [discriminate|]. injection H as ->. eauto.
Qed.
Lemma consecutive_is : forall l, consecutive l = true <-> exists a b c, l = repeat false a ++ repeat true b ++ repeat false c.
Proof.
  unfold consecutive. induction l as [|[|] l IH]; cbn [no_gap andb negb].
  - split; [exists O, O, O; reflexivity|reflexivity].
  - rewrite no_gap_inside. split; [intros (b & c & ->); exists O, (S b), c; reflexivity|].
    intros ([|a] & b & c & H); [|discriminate]. destruct b; [destruct c; discriminate|]. injection H as ->. eauto.
  - rewrite IH. split; [intros (a & b & c & ->); exists (S a), b, c; reflexivity|].
    intros ([|a] & b & c & H); [|injection H as ->; eauto]. destruct b; [|discriminate]. destruct c; [discriminate|]. injection H as ->. exists O, O, c. reflexivity.
Qed.
Lemma map_filter : forall (A B : Type) (g : A -> B) f l, map g (filter (fun i => f (g i)) l) = filter f (map g l).
Proof. induction l as [|x l IH]; cbn; [reflexivity|]. destruct (f (g x)); cbn; now rewrite IH. Qed.
Lemma map_nth_seq : forall A (l : list A) d, map (fun i => nth i l d) (seq 0 (length l)) = l.
Proof.
  intros A l d. apply nth_ext with (d := d) (d' := d); [now rewrite map_length, seq_length|]. intros i H. rewrite map_length, seq_length in H.
  rewrite nth_indep with (d' := nth O l d) by (now rewrite map_length, seq_length). rewrite (map_nth (fun i => nth i l d)), seq_nth by auto. reflexivity.
Qed.
Lemma permuted_slots : forall slots, map (fun i => nth i slots (0, None)) (permuted_order (map is_used slots)) =
  filter is_used slots ++ filter (fun s => negb (is_used s)) slots.
Proof.
  intros slots. unfold permuted_order. rewrite map_app, map_length.
  assert (U : forall i, used_at (map is_used slots) i = is_used (nth i slots (0, None))).
  { intros i. unfold used_at. change false with (is_used (0, None)) at 1. apply map_nth. }
  rewrite (filter_ext _ _ U). rewrite (filter_ext _ (fun i => negb (is_used (nth i slots (0, None)))) (fun i => f_equal negb (U i))).
  rewrite (map_filter _ _ (fun i => nth i slots (0, None)) is_used), (map_filter _ _ (fun i => nth i slots (0, None)) (fun s => negb (is_used s))).
  now rewrite map_nth_seq.
Qed.
Lemma order_permutation : forall used, Permutation (seq 0 (length used)) (permuted_order used).
Proof.
  intros used. unfold permuted_order. induction (seq 0 (length used)) as [|x l IH]; cbn [filter]; [constructor|].
  destruct (used_at used x); cbn [negb app]; [now constructor|]. apply Permutation_cons_app. exact IH.
Qed.

(** * Masks *)
Definition expand_index (i : put_index) : list bool :=
  match i with Missing => [false] | Mask s => repeat true (length s) | _ => [true] end.
Lemma mask_fits_is : forall mask input, mask_fits input mask = true <->
  (length mask <= length input)%nat /\ Forall2 (fun a b => forall x y, a = Some x -> b = Some y -> x = y) mask (firstn (length mask) input).
Proof.
  induction mask as [|a mask IH]; intros input; cbn [mask_fits length]; [split; [intros _; split; [apply Nat.le_0_l|apply Forall2_nil]|reflexivity]|].
  destruct input as [|b input]; cbn [length firstn]; [split; [discriminate|intros [H _]; lia]|].
  assert (C : clash a b = false <-> forall x y, a = Some x -> b = Some y -> x = y).
  { unfold clash. destruct a as [x|], b as [y|]; try (split; [intros _ ? ? ? ?; congruence|reflexivity]).
    destruct (Z.eqb_spec x y); cbn; split; try discriminate; try reflexivity; [intros; congruence|]. intros H. exfalso. apply n. now apply H. }
  destruct (clash a b); [split; [discriminate|intros [_ H]; inversion H as [|? ? ? ? X]; subst; apply C in X; discriminate]|].
  rewrite IH. split; [intros [L F]; split; [lia|constructor; [now apply C|exact F]]|]. intros [L F]. inversion F; subst. split; [lia|assumption].
Qed.
Lemma trues : forall (s : list (option Z)), map (fun _ => true) s = repeat true (length s).
Proof. induction s as [|x s IH]; cbn; [reflexivity|]. now rewrite IH. Qed.
Lemma put_used_expands : forall indices input offset u, put_used input offset indices = Some u -> u = flat_map expand_index indices.
Proof.
  induction indices as [|i indices IH]; intros input offset u H; cbn [put_used flat_map] in *; [congruence|].
  destruct i as [| | | |[|a s]]; try discriminate.
  - destruct (put_used input offset indices) eqn:E; [|discriminate]. cbn in H. injection H as <-. cbn. f_equal. eauto.
  - destruct (put_used input (S offset) indices) eqn:E; [|discriminate]. cbn in H. injection H as <-. cbn. f_equal. eauto.
  - destruct (mask_fits (skipn offset input) (a :: s)); [|discriminate].
    destruct (put_used input (offset + length (a :: s)) indices) eqn:E; [|discriminate]. cbn [obind] in H. injection H as <-.
    rewrite (IH _ _ _ E). cbn [expand_index length repeat app]. now rewrite trues.
Qed.
Lemma skipn_add : forall A n m (l : list A), skipn n (skipn m l) = skipn (m + n) l.
Proof. intros A n m. induction m as [|m IH]; intros l; [reflexivity|]. destruct l; [destruct n; reflexivity|]. cbn. apply IH. Qed.
Lemma put_used_iff : forall indices input offset, Forall (fun i => i <> Missing) indices ->
  ((exists u, put_used input offset indices = Some u) <->
   Forall (fun i => i <> Unknown /\ i <> MaskUnranked /\ i <> Mask []) indices /\ masks_match (skipn offset input) indices).
Proof.
  induction indices as [|i indices IH]; intros input offset F; cbn [put_used masks_match]; [split; [auto|intros _; eauto]|].
  inversion F as [|? ? Ni F']; subst. destruct i as [| | | |s].
  - contradiction.
  - split; [intros (u & H); discriminate|]. intros [X _]. inversion X as [|? ? (Y & _) _]; subst. contradiction.
  - rewrite skipn_add. replace (offset + 1)%nat with (S offset) by lia. specialize (IH input (S offset) F'). split.
    + intros (u & H). destruct (put_used input (S offset) indices) as [r|] eqn:E; [|discriminate].
      destruct (proj1 IH (ex_intro _ r eq_refl)) as [A B]. split; [constructor; [repeat split; discriminate|exact A]|exact B].
    + intros [A B]. inversion A; subst. destruct (proj2 IH) as (r & E); [auto|]. rewrite E. cbn [obind]. eauto.
  - split; [intros (u & H); discriminate|]. intros [X _]. inversion X as [|? ? (_ & Y & _) _]; subst. contradiction.
  - destruct s as [|a s]; [split; [intros (u & H); discriminate|]; intros [X _]; inversion X as [|? ? (_ & _ & Y) _]; subst; contradiction|].
    rewrite skipn_add. specialize (IH input (offset + length (a :: s))%nat F').
    destruct (mask_fits (skipn offset input) (a :: s)) eqn:M.
    + apply mask_fits_is in M. destruct M as [M1 M2]. split.
      * intros (u & H). destruct (put_used input (offset + length (a :: s)) indices) as [r|] eqn:E; [|discriminate].
        destruct (proj1 IH (ex_intro _ r eq_refl)) as [A B]. split; [constructor; [repeat split; discriminate|exact A]|]. split; [exact M1|]. split; assumption.
      * intros [A (_ & _ & B)]. inversion A; subst. destruct (proj2 IH) as (r & E); [auto|]. rewrite E. cbn [obind]. eauto.
    + split; [intros (u & H); discriminate|]. intros [_ (B1 & B2 & _)].
      assert (X : mask_fits (skipn offset input) (a :: s) = true) by (apply mask_fits_is; auto). congruence.
Qed.

(** * The shape of the result *)
Fixpoint range_sizes (c : nat) (ns : list Z) : list (list Z) :=
  match ns with [] => [] | n :: ns => (n :: repeat 1 c) :: range_sizes (S c) ns end.
Lemma leading_sizes : forall m ns cnt L, leading m cnt (nones ns) = Some L -> map sizes L = range_sizes (cnt + m) ns.
Proof.
  intros m. induction ns as [|n ns IH]; intros cnt L H; cbn [nones map leading range_sizes] in *; [injection H as <-; reflexivity|].
  destruct (arange n) as [v|] eqn:Ev; [|discriminate]. cbn [obind] in H. assert (Sv : sizes v = [n]).
  { unfold arange in Ev. destruct (n <? 0); [discriminate|]. injection Ev as <-. reflexivity. }
  destruct (unsqueeze_trailing_is (cnt + m) v) as (u & Eu & Su & _). rewrite Eu in H. cbn [obind] in H.
  fold (nones ns) in H. destruct (leading m (S cnt) (nones ns)) as [r|] eqn:E; [|discriminate]. cbn [obind] in H. injection H as <-.
  cbn [map]. rewrite Su, Sv, (IH _ _ E). reflexivity.
Qed.
Lemma between_sizes : forall m us ns cnt L, between m cnt (useds us ++ nones ns) = Some L ->
  map sizes L = map (fun p => sizes (snd p) ++ repeat 1 cnt) us ++ range_sizes (cnt + m) ns.
Proof.
  intros m. induction us as [|[n t] us IH]; intros ns cnt L H; cbn [useds map app fst snd] in *.
  - apply leading_sizes. destruct ns; exact H.
  - cbn [between] in H. destruct (unsqueeze_trailing_is cnt t) as (u & Eu & Su & _). rewrite Eu in H. cbn [obind] in H.
    fold (useds us) in H. destruct (between m cnt (useds us ++ nones ns)) as [r|] eqn:E; [|discriminate]. cbn [obind] in H. injection H as <-.
    cbn [map]. rewrite Su, (IH _ _ _ E). reflexivity.
Qed.
Lemma trailing_sizes : forall m us ns zs cnt L, us <> [] \/ ns = [] -> trailing m cnt (nones zs ++ useds us ++ nones ns) = Some L ->
  map sizes L = range_sizes cnt zs ++ map (fun p => sizes (snd p) ++ repeat 1 (cnt + length zs)) us ++ range_sizes (cnt + length zs + m) ns.
Proof.
  intros m us ns. induction zs as [|n zs IH]; intros cnt L Ne H.
  - cbn [nones map app range_sizes length] in *. rewrite Nat.add_0_r. apply between_sizes.
    destruct us as [|[n t] us]; [|exact H]. destruct Ne as [Ne| ->]; [contradiction|]. exact H.
  - cbn [nones map app trailing range_sizes length] in *.
    destruct (arange n) as [v|] eqn:Ev; [|discriminate]. cbn [obind] in H. assert (Sv : sizes v = [n]).
    { unfold arange in Ev. destruct (n <? 0); [discriminate|]. injection Ev as <-. reflexivity. }
    destruct (unsqueeze_trailing_is cnt v) as (u & Eu & Su & _). rewrite Eu in H. cbn [obind] in H.
    fold (nones zs) in H. destruct (trailing m (S cnt) (nones zs ++ useds us ++ nones ns)) as [r|] eqn:E; [|discriminate]. cbn [obind] in H. injection H as <-.
    cbn [map]. rewrite Su, Sv, (IH _ _ Ne E). rewrite <- plus_n_Sm. reflexivity.
Qed.
Lemma range_sizes_in : forall ns c s, In s (range_sizes c ns) <-> exists j n, nth_error ns j = Some n /\ s = n :: repeat 1 (c + j).
Proof.
  induction ns as [|n ns IH]; intros c s; cbn [range_sizes In].
  - split; [tauto|]. intros ([|j] & n & H & _); discriminate.
  - rewrite IH. split.
    + intros [<-|(j & k & H & ->)]; [exists O, n; rewrite Nat.add_0_r; auto|]. exists (S j), k. split; [exact H|]. now rewrite <- plus_n_Sm.
    + intros ([|j] & k & H & ->); cbn in H; [injection H as <-; left; now rewrite Nat.add_0_r|]. right. exists j, k. split; [exact H|]. now rewrite <- plus_n_Sm.
Qed.
Lemma rev_repeat1 : forall c, rev (repeat 1 c) = repeat 1 c.
Proof. induction c as [|c IH]; [reflexivity|]. cbn [repeat rev]. rewrite IH. symmetry. apply (repeat_cons c 1). Qed.
Lemma right_trailing : forall s c p, right (s ++ repeat 1 c) p = if (p <? c)%nat then Some 1 else right s (p - c).
Proof.
  intros s c p. unfold right. rewrite rev_app_distr, rev_repeat1. destruct (Nat.ltb_spec p c).
  - rewrite nth_error_app1 by (now rewrite repeat_length). now apply nth_error_repeat.
  - rewrite nth_error_app2, repeat_length by (rewrite repeat_length; lia). reflexivity.
Qed.
Lemma right_range : forall n k p, right (n :: repeat 1 k) p = if (p <? k)%nat then Some 1 else if (p =? k)%nat then Some n else None.
Proof.
  intros n k p. change (n :: repeat 1 k) with ([n] ++ repeat 1 k). rewrite right_trailing. destruct (Nat.ltb_spec p k); [reflexivity|].
  destruct (Nat.eqb_spec p k) as [->|]; [rewrite Nat.sub_diag; reflexivity|]. unfold right. cbn [rev app]. destruct (p - k)%nat as [|q] eqn:E; [lia|]. destruct q; reflexivity.
Qed.
Lemma right_none : forall s p, (length s <= p)%nat -> right s p = None.
Proof. intros s p H. unfold right. apply nth_error_None. now rewrite rev_length. Qed.
Lemma shape_proof : forall ls us zs b L, us <> [] \/ ls = [] -> is_broadcast (map (fun p => sizes (snd p)) us) b -> length b = max_rank (useds us) ->
  create_new_indices (nones ls ++ useds us ++ nones zs) = Some L -> is_broadcast (map sizes L) (ls ++ b ++ zs).
Proof.
  intros ls us zs b L Ne [Bl Br] Lb H. unfold create_new_indices in H.
  rewrite !max_rank_app, !max_rank_nones, Nat.max_0_r in H. cbn [Nat.max] in H. rewrite <- Lb in H.
  assert (Er : rev (nones ls ++ useds us ++ nones zs) = nones (rev zs) ++ useds (rev us) ++ nones (rev ls)).
  { rewrite !rev_app_distr. unfold nones, useds. rewrite <- !map_rev, <- app_assoc. reflexivity. }
  rewrite Er in H. destruct (trailing (length b) 0 (nones (rev zs) ++ useds (rev us) ++ nones (rev ls))) as [R|] eqn:E; [|discriminate].
  cbn [option_map] in H. injection H as <-. apply trailing_sizes in E.
  2:{ destruct Ne as [Ne| ->]; [left|auto]. intros X. apply Ne. rewrite <- (rev_involutive us), X. reflexivity. }
  rewrite rev_length in E. cbn [Nat.add] in E. set (c := length zs) in *. set (m := length b) in *.
  assert (M : forall s, In s (map sizes (rev R)) <->
    (exists j n, nth_error (rev zs) j = Some n /\ s = n :: repeat 1 j) \/
    (exists s0, In s0 (map (fun p => sizes (snd p)) us) /\ s = s0 ++ repeat 1 c) \/
    (exists j n, nth_error (rev ls) j = Some n /\ s = n :: repeat 1 (c + m + j))).
  { intros s. rewrite map_rev, <- in_rev, E, !in_app_iff, !range_sizes_in. cbn [Nat.add].
    assert (X : In s (map (fun p : Z * tensor Z => sizes (snd p) ++ repeat 1 c) (rev us)) <-> exists s0, In s0 (map (fun p => sizes (snd p)) us) /\ s = s0 ++ repeat 1 c).
    { rewrite in_map_iff. split; [intros (p & <- & I); exists (sizes (snd p)); split; [apply in_map_iff; exists p; split; [reflexivity|now apply in_rev]|reflexivity]|].
      intros (s0 & I & ->). apply in_map_iff in I. destruct I as (p & <- & I). exists p. split; [reflexivity|]. now apply -> in_rev. }
    rewrite X. tauto. }
  clear E. assert (Lt : forall (l : list Z) j n, nth_error (rev l) j = Some n -> (j < length l)%nat).
  { intros l j n X. rewrite <- rev_length. apply nth_error_Some. congruence. }
  split.
  - intros s I. apply M in I. rewrite !app_length. fold c m. destruct I as [(j & n & J & ->)|[(s0 & I & ->)|(j & n & J & ->)]].
    + apply Lt in J. cbn [length]. rewrite repeat_length. fold c in J. lia.
    + apply Bl in I. rewrite app_length, repeat_length. fold m in I. lia.
    + apply Lt in J. cbn [length]. rewrite repeat_length. lia.
  - intros p n Hp. unfold right in Hp. rewrite !rev_app_distr, <- app_assoc in Hp.
    destruct (Nat.lt_ge_cases p c) as [C1|C1]; [|destruct (Nat.lt_ge_cases p (c + m)) as [C2|C2]].
    + rewrite nth_error_app1 in Hp by (rewrite rev_length; exact C1). split.
      * exists (n :: repeat 1 p). split; [apply M; left; eauto|]. now rewrite right_range, Nat.ltb_irrefl, Nat.eqb_refl.
      * intros s k I K. apply M in I. destruct I as [(j & q & J & ->)|[(s0 & I & ->)|(j & q & J & ->)]].
        -- rewrite right_range in K. destruct (Nat.ltb_spec p j); [right; congruence|]. destruct (Nat.eqb_spec p j) as [->|]; [left; congruence|discriminate].
        -- rewrite right_trailing in K. destruct (Nat.ltb_spec p c); [right; congruence|lia].
        -- rewrite right_range in K. destruct (Nat.ltb_spec p (c + m + j)); [right; congruence|lia].
    + rewrite nth_error_app2, rev_length in Hp by (rewrite rev_length; exact C1). fold c in Hp.
      rewrite nth_error_app1 in Hp by (rewrite rev_length; fold m; lia). destruct (Br (p - c)%nat n Hp) as [(s0 & I & K) G]. split.
      * exists (s0 ++ repeat 1 c). split; [apply M; right; left; eauto|]. rewrite right_trailing. destruct (Nat.ltb_spec p c); [lia|exact K].
      * intros s k I' K'. apply M in I'. destruct I' as [(j & q & J & ->)|[(s1 & I' & ->)|(j & q & J & ->)]].
        -- apply Lt in J. fold c in J. rewrite right_range in K'. destruct (Nat.ltb_spec p j); [lia|]. destruct (Nat.eqb_spec p j); [lia|discriminate].
        -- rewrite right_trailing in K'. destruct (Nat.ltb_spec p c); [lia|]. exact (G s1 k I' K').
        -- rewrite right_range in K'. destruct (Nat.ltb_spec p (c + m + j)); [right; congruence|lia].
    + rewrite nth_error_app2, rev_length in Hp by (rewrite rev_length; exact C1). fold c in Hp.
      rewrite nth_error_app2, rev_length in Hp by (rewrite rev_length; fold m; lia). fold m in Hp. split.
      * exists (n :: repeat 1 (c + m + (p - c - m))). split; [apply M; right; right; eauto|]. rewrite right_range.
        replace (c + m + (p - c - m))%nat with p by lia. now rewrite Nat.ltb_irrefl, Nat.eqb_refl.
      * intros s k I K. apply M in I. destruct I as [(j & q & J & ->)|[(s0 & I & ->)|(j & q & J & ->)]].
        -- apply Lt in J. fold c in J. rewrite right_range in K. destruct (Nat.ltb_spec p j); [lia|]. destruct (Nat.eqb_spec p j); [lia|discriminate].
        -- apply Bl in I. fold m in I. rewrite right_trailing in K. destruct (Nat.ltb_spec p c); [lia|]. rewrite right_none in K by lia. discriminate.
        -- rewrite right_range in K. destruct (Nat.ltb_spec p (c + m + j)); [right; congruence|]. destruct (Nat.eqb_spec p (c + m + j)) as [Ep|]; [|discriminate].
           left. replace (p - c - m)%nat with j in Hp by lia. congruence.
Qed.
